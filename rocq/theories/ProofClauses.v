(** Error clauses: what they change, and where they change nothing. *)
From Verif Require Import Base ModelAst ModelParser SpecPeg SpecPos SpecApi SpecReport SpecWf SpecBnf SpecClauses.
From Verif Require Import PegTools ProofParser ProofEngine ProofSim ProofApi ProofReport ProofWf WfCheck ProofBnf ProofLook.

(* ------------------------------------------------------------------------------------------- *)
(** * Parts that do not use the changed rules *)

Lemma uses_sub : forall G e x, (forall n, has_ref n x -> has_ref n e) -> forall n, uses G x n -> uses G e n.
Proof.
  intros G e x H n U. induction U as [x n R|x n y m U IH E R]; [constructor; auto|]. eapply us_rule; [apply IH; exact H|exact E|exact R].
Qed.

Lemma uses_body : forall G n e, G n = Some e -> forall m, uses G e m -> uses G (RuleName n) m.
Proof.
  intros G n e E m U. induction U as [e m R|e m y k U IH E2 R]; [|eapply us_rule; [apply IH; exact E|exact E2|exact R]].
  eapply us_rule; [apply us_here; constructor|exact E|exact R].
Qed.

Definition agree (G G' : str -> option expr) (e : expr) : Prop := forall n, uses G e n -> G n = G' n.

Lemma agree_sub : forall G G' e x, agree G G' e -> (forall n, has_ref n x -> has_ref n e) -> agree G G' x.
Proof. intros G G' e x A H n U. apply A. exact (uses_sub G e x H n U). Qed.

Lemma agree_sym : forall G G' e, agree G G' e -> agree G' G e.
Proof.
  intros G G' e A n U. symmetry. apply A. induction U as [e n R|e n y m U IH E R]; [constructor; exact R|].
  specialize (IH A). eapply us_rule; [exact IH|rewrite (A n IH); exact E|exact R].
Qed.

Lemma quiet_both : forall G G',
  (forall e s r, pege G e s r -> agree G G' e -> pege G' e s r) /\
  (forall es s o r, choice G es s o r -> agree G G' (Or es) -> choice G' es s o r).
Proof.
  intros G G'. apply pege_choice_ind; intros; try (econstructor; eassumption).
  - eapply ee_and_cons; [apply H0|apply H2]; (eapply agree_sub; [eassumption|]); intros n R; [eapply hr_and; [left; reflexivity|exact R]|].
    inversion R; subst. eapply hr_and; [right; eassumption|eassumption].
  - eapply ee_and_stop; [apply H0|eassumption]. eapply agree_sub; [eassumption|]. intros n R. eapply hr_and; [left; reflexivity|exact R].
  - constructor. auto.
  - eapply ee_not_fail. apply H0. eapply agree_sub; [eassumption|]. intros n R. constructor. exact R.
  - eapply ee_not_ok; [apply H0|eassumption]. eapply agree_sub; [eassumption|]. intros n R. constructor. exact R.
  - eapply ee_rep_more; [eassumption|apply H1|apply H3]; (eapply agree_sub; [eassumption|]); intros n R; [constructor; exact R|]. inversion R; subst. constructor. assumption.
  - eapply ee_rep_done; [eassumption|apply H1]. eapply agree_sub; [eassumption|]. intros n R. constructor. exact R.
  - eapply ee_rep_short; [eassumption|eassumption|apply H2]. eapply agree_sub; [eassumption|]. intros n R. constructor. exact R.
  - eapply ee_rep_abort; [eassumption|apply H1]. eapply agree_sub; [eassumption|]. intros n R. constructor. exact R.
  - eapply ee_rule; [rewrite <- (H2 n); [eassumption|constructor; constructor]|]. apply H1. intros m U. apply H2. eapply uses_body; eassumption.
  - apply ee_rule_missing. rewrite <- (H0 n); [assumption|constructor; constructor].
  - eapply ch_first; [apply H0|eassumption]. eapply agree_sub; [eassumption|]. intros n R. eapply hr_or; [left; reflexivity|exact R].
  - eapply ch_next; [apply H0|apply H2]; (eapply agree_sub; [eassumption|]); intros n R; [eapply hr_or; [left; reflexivity|exact R]|].
    inversion R; subst. eapply hr_or; [right; eassumption|eassumption].
Qed.

Lemma quiet : forall G G' e s r, agree G G' e -> pege G e s r -> pege G' e s r.
Proof. intros G G' e s r A D. exact (proj1 (quiet_both G G') e s r D A). Qed.

(* ------------------------------------------------------------------------------------------- *)
(** * With and without the clauses *)

Section Clauses.
Variables G G' : str -> option expr.
Variable M : str -> Prop.
Hypothesis WC : with_clauses G G' M.

(** Aborted by one of the clauses. *)
Definition by_clause (r : eresult) : Prop := match r with EAbort q => M (r_descr q) | _ => False end.

Lemma by_after : forall ts p t r, by_clause r -> by_clause (after ts p t r).
Proof. intros ts p t [| |q] H; try contradiction. exact H. Qed.
Lemma by_within : forall n r, by_clause r -> by_clause (within n r).
Proof. intros n [| |q] H; try contradiction. exact H. Qed.
Lemma by_stops : forall r, by_clause r -> estops r.
Proof. intros [| |q] H; try contradiction. exact I. Qed.
Lemma by_no_fail : forall r, by_clause r -> ~ is_fail r.
Proof. intros [| |q] H; try contradiction. intros []. Qed.

Notation C := (clauses G G' M).
Notation A := (alts G G' M).
Notation P := (parts G G' M).

Lemma without_both :
  (forall e' s r, pege G' e' s r -> forall e, C e e' -> pege G e s r \/ by_clause r) /\
  (forall es' s o r, choice G' es' s o r ->
    (forall es, A es es' -> choice G es s o r \/ by_clause r) /\
    (forall e e' m, es' = [e'; fails_with m] -> M m -> C e e' -> pege G e s r \/ by_clause r)).
Proof.
  apply pege_choice_ind.
  - intros l rest e Cl. inversion Cl; subst. left. constructor.
  - intros l s rest H e Cl. inversion Cl; subst. left. constructor. exact H.
  - intros cs rs c rest H e Cl. inversion Cl; subst. left. constructor. exact H.
  - intros cs rs c rest H e Cl. inversion Cl; subst. left. constructor. exact H.
  - intros cs rs e Cl. inversion Cl; subst. left. constructor.
  - intros c rest e Cl. inversion Cl; subst. left. constructor.
  - intros e Cl. inversion Cl; subst. left. constructor.
  - intros e Cl. inversion Cl; subst. left. constructor.
  - intros c rest e Cl. inversion Cl; subst. left. constructor.
  - intros m s e Cl. inversion Cl; subst. left. constructor.
  - intros s e Cl. inversion Cl as [|? ? PA| | | | |]; subst. inversion PA; subst. left. constructor.
  - intros e' es' s ts s1 p t r D IH D2 IH2 e Cl. inversion Cl as [|? ? PA| | | | |]; subst. inversion PA as [|x x' xs xs' CX PX]; subst.
    destruct (IH x CX) as [L|[]]. destruct (IH2 (And xs) ltac:(constructor; exact PX)) as [R|B]; [left; econstructor; eassumption|right; apply by_after; exact B].
  - intros e' es' s r D IH ST e Cl. inversion Cl as [|? ? PA| | | | |]; subst. inversion PA as [|x x' xs xs' CX PX]; subst.
    destruct (IH x CX) as [L|B]; [left; apply ee_and_stop; assumption|right; exact B].
  - intros es' s r D [IH IH2] e Cl. inversion Cl as [| |? ? AL| | | |e0 e' m MM CX]; subst.
    + destruct (IH _ AL) as [L|B]; [left; constructor; exact L|right; exact B].
    + exact (IH2 e e' m eq_refl MM CX).
  - intros e' s ts rest p t D IH e Cl. inversion Cl as [| | |? Q| | |]; subst. left. eapply ee_not_fail. apply (quiet G' G); [apply agree_sym; exact Q|exact D].
  - intros e' s r D IH ST e Cl. inversion Cl as [| | |? Q| | |]; subst. left. eapply ee_not_ok; [|exact ST]. apply (quiet G' G); [apply agree_sym; exact Q|exact D].
  - intros e' s e Cl. inversion Cl; subst. left. constructor.
  - intros e' mn mx s ts s1 p t r NZ D IH D2 IH2 e Cl. inversion Cl as [| | | |x x' ? ? CX| |]; subst.
    destruct (IH x CX) as [L|[]]. destruct (IH2 (Repeat x (pred mn) (option_map pred mx)) ltac:(constructor; exact CX)) as [R|B];
      [left; eapply ee_rep_more; eassumption|right; apply by_after; exact B].
  - intros e' mx s q NZ D IH e Cl. inversion Cl as [| | | |x x' ? ? CX| |]; subst. destruct (IH x CX) as [L|[]]. left. constructor; assumption.
  - intros e' mn mx s q NZ Lt D IH e Cl. inversion Cl as [| | | |x x' ? ? CX| |]; subst. destruct (IH x CX) as [L|[]]. left. constructor; assumption.
  - intros e' mn mx s q NZ D IH e Cl. inversion Cl as [| | | |x x' ? ? CX| |]; subst. destruct (IH x CX) as [L|B]; [left; constructor; assumption|right; exact B].
  - intros n e' s r E D IH e Cl. inversion Cl; subst. pose proof (WC n) as W. rewrite E in W. destruct (G n) as [x|] eqn:EG; [|contradiction].
    destruct (IH x W) as [L|B]; [left; econstructor; eassumption|right; apply by_within; exact B].
  - intros n s E e Cl. inversion Cl; subst. pose proof (WC n) as W. rewrite E in W. destruct (G n) as [x|] eqn:EG; [contradiction|]. left. constructor. exact EG.
  - intros s. split; [|intros e e' m E; discriminate]. intros es AL. inversion AL; subst. left. constructor.
  - intros s q. split; [|intros e e' m E; discriminate]. intros es AL. inversion AL; subst. left. constructor.
  - intros e' es' s o r D IH NF. split.
    + intros es AL. inversion AL as [|m MM|x x' xs xs' CX AX]; subst.
      * inversion D; subst. right. exact MM.
      * destruct (IH x CX) as [L|B]; [left; apply ch_first; assumption|right; exact B].
    + intros e e0 m E MM CX. injection E as -> ->. exact (IH e CX).
  - intros e' es' s o q r D IH D2 [IH2 _]. split.
    + intros es AL. inversion AL as [|m MM|x x' xs xs' CX AX]; subst.
      * inversion D.
      * destruct (IH x CX) as [L|[]]. destruct (IH2 xs AX) as [R|B]; [left; eapply ch_next; eassumption|right; exact B].
    + intros e e0 m E MM CX. injection E as -> ->. destruct (IH2 [] ltac:(constructor; exact MM)) as [R|B]; [|right; exact B].
      right. inversion D2 as [| |? ? ? ? ? D3 NF|? ? ? ? ? ? D3 D4]; subst; inversion D3; subst. exact MM.
Qed.

Lemma without : forall e e' s r, C e e' -> pege G' e' s r -> pege G e s r \/ by_clause r.
Proof. intros e e' s r Cl D. exact (proj1 without_both e' s r D e Cl). Qed.

(** The outcome [r], or one of a clause. *)
Definition outcome_or (e' : expr) (s : str) (r : eresult) : Prop := pege G' e' s r \/ exists b, pege G' e' s b /\ by_clause b.

Lemma clause_reached : forall m s, pege G' (fails_with m) s (EAbort (Report m s [])).
Proof. intros m s. constructor. Qed.

Lemma part_or : forall e' m s r, M m -> outcome_or e' s r -> outcome_or (Or [e'; fails_with m]) s r.
Proof.
  intros e' m s r MM [D|(b & D & B)].
  - destruct r as [ts rest p t|q|q].
    + left. constructor. apply ch_first; [exact D|intros []].
    + right. exists (EAbort (Report m s [])). split; [|exact MM]. constructor. eapply ch_next; [exact D|]. apply ch_first; [apply clause_reached|intros []].
    + left. constructor. apply ch_first; [exact D|intros []].
  - right. exists b. split; [|exact B]. constructor. apply ch_first; [exact D|apply by_no_fail; exact B].
Qed.

Lemma with_both :
  (forall e s r, pege G e s r -> forall e', C e e' -> outcome_or e' s r) /\
  (forall es s o r, choice G es s o r -> forall es', A es es' -> choice G' es' s o r \/ exists b, choice G' es' s o b /\ by_clause b).
Proof.
  apply pege_choice_ind.
  - intros l rest e' Cl. remember (Simple (Literal l)) as e eqn:E. induction Cl; try discriminate; [|apply part_or; auto]. injection E as ->. left. constructor.
  - intros l s rest H e' Cl. remember (Simple (Literal l)) as e eqn:E. induction Cl; try discriminate; [|apply part_or; auto]. injection E as ->. left. constructor. exact H.
  - intros cs rs c rest H e' Cl. remember (Simple (Match cs rs)) as e eqn:E. induction Cl; try discriminate; [|apply part_or; auto]. injection E as ->. left. constructor. exact H.
  - intros cs rs c rest H e' Cl. remember (Simple (Match cs rs)) as e eqn:E. induction Cl; try discriminate; [|apply part_or; auto]. injection E as ->. left. constructor. exact H.
  - intros cs rs e' Cl. remember (Simple (Match cs rs)) as e eqn:E. induction Cl; try discriminate; [|apply part_or; auto]. injection E as ->. left. constructor.
  - intros c rest e' Cl. remember (Simple Dot) as e eqn:E. induction Cl; try discriminate; [|apply part_or; auto]. injection E as ->. left. constructor.
  - intros e' Cl. remember (Simple Dot) as e eqn:E. induction Cl; try discriminate; [|apply part_or; auto]. injection E as ->. left. constructor.
  - intros e' Cl. remember (Simple AEOF) as e eqn:E. induction Cl; try discriminate; [|apply part_or; auto]. injection E as ->. left. constructor.
  - intros c rest e' Cl. remember (Simple AEOF) as e eqn:E. induction Cl; try discriminate; [|apply part_or; auto]. injection E as ->. left. constructor.
  - intros m s e' Cl. remember (Simple (AError m)) as e eqn:E. induction Cl; try discriminate; [|apply part_or; auto]. injection E as ->. left. constructor.
  - intros s e' Cl. remember (And []) as e eqn:E. induction Cl as [|? ? PA| | | | |]; try discriminate; [|apply part_or; auto]. injection E as ->. inversion PA; subst. left. constructor.
  - intros e1 es s ts s1 p t r D IH D2 IH2 e' Cl. remember (And (e1 :: es)) as e eqn:E. induction Cl as [|? ? PA| | | | |]; try discriminate; [|apply part_or; auto].
    injection E as ->. inversion PA as [|x x' xs xs' CX PX]; subst. destruct (IH x' CX) as [L|(b & L & B)].
    + destruct (IH2 (And xs') ltac:(constructor; exact PX)) as [R|(b & R & B)]; [left; econstructor; eassumption|].
      right. exists (after ts p t b). split; [econstructor; eassumption|apply by_after; exact B].
    + right. exists b. split; [apply ee_and_stop; [exact L|apply by_stops; exact B]|exact B].
  - intros e1 es s r D IH ST e' Cl. remember (And (e1 :: es)) as e eqn:E. induction Cl as [|? ? PA| | | | |]; try discriminate; [|apply part_or; auto].
    injection E as ->. inversion PA as [|x x' xs xs' CX PX]; subst. destruct (IH x' CX) as [L|(b & L & B)]; [left; apply ee_and_stop; assumption|].
    right. exists b. split; [apply ee_and_stop; [exact L|apply by_stops; exact B]|exact B].
  - intros es s r D IH e' Cl. remember (Or es) as e eqn:E. induction Cl as [| |? ? AL| | | |]; try discriminate; [|apply part_or; auto].
    injection E as ->. destruct (IH _ AL) as [L|(b & L & B)]; [left; constructor; exact L|right; exists b; split; [constructor; exact L|exact B]].
  - intros x s ts rest p t D IH e' Cl. remember (Not x) as e eqn:E. induction Cl as [| | |? Q| | |]; try discriminate; [|apply part_or; auto].
    injection E as ->. left. eapply ee_not_fail. exact (quiet G G' _ _ _ Q D).
  - intros x s r D IH ST e' Cl. remember (Not x) as e eqn:E. induction Cl as [| | |? Q| | |]; try discriminate; [|apply part_or; auto].
    injection E as ->. left. eapply ee_not_ok; [exact (quiet G G' _ _ _ Q D)|exact ST].
  - intros x s e' Cl. remember (Repeat x 0 (Some 0)) as e eqn:E. induction Cl; try discriminate; [|apply part_or; auto]. injection E as -> -> ->. left. constructor.
  - intros x mn mx s ts s1 p t r NZ D IH D2 IH2 e' Cl. remember (Repeat x mn mx) as e eqn:E. induction Cl as [| | | |y y' ? ? CX| |]; try discriminate; [|apply part_or; auto].
    injection E as -> -> ->. destruct (IH y' CX) as [L|(b & L & B)].
    + destruct (IH2 (Repeat y' (pred mn) (option_map pred mx)) ltac:(constructor; exact CX)) as [R|(b & R & B)]; [left; eapply ee_rep_more; eassumption|].
      right. exists (after ts p t b). split; [eapply ee_rep_more; eassumption|apply by_after; exact B].
    + destruct b as [| |q]; try contradiction. right. exists (EAbort q). split; [apply ee_rep_abort; assumption|exact B].
  - intros x mx s q NZ D IH e' Cl. remember (Repeat x 0 mx) as e eqn:E. induction Cl as [| | | |y y' ? ? CX| |]; try discriminate; [|apply part_or; auto].
    injection E as -> -> ->. destruct (IH y' CX) as [L|(b & L & B)]; [left; constructor; assumption|].
    destruct b as [| |q']; try contradiction. right. exists (EAbort q'). split; [apply ee_rep_abort; assumption|exact B].
  - intros x mn mx s q NZ Lt D IH e' Cl. remember (Repeat x mn mx) as e eqn:E. induction Cl as [| | | |y y' ? ? CX| |]; try discriminate; [|apply part_or; auto].
    injection E as -> -> ->. destruct (IH y' CX) as [L|(b & L & B)]; [left; constructor; assumption|].
    destruct b as [| |q']; try contradiction. right. exists (EAbort q'). split; [apply ee_rep_abort; assumption|exact B].
  - intros x mn mx s q NZ D IH e' Cl. remember (Repeat x mn mx) as e eqn:E. induction Cl as [| | | |y y' ? ? CX| |]; try discriminate; [|apply part_or; auto].
    injection E as -> -> ->. destruct (IH y' CX) as [L|(b & L & B)]; [left; constructor; assumption|].
    destruct b as [| |q']; try contradiction. right. exists (EAbort q'). split; [apply ee_rep_abort; assumption|exact B].
  - intros n x s r EG D IH e' Cl. remember (RuleName n) as e eqn:E. induction Cl; try discriminate; [|apply part_or; auto]. injection E as ->.
    pose proof (WC n) as W. rewrite EG in W. destruct (G' n) as [x'|] eqn:EG'; [|contradiction].
    destruct (IH x' W) as [L|(b & L & B)]; [left; econstructor; eassumption|]. right. exists (within n b). split; [econstructor; eassumption|apply by_within; exact B].
  - intros n s EG e' Cl. remember (RuleName n) as e eqn:E. induction Cl; try discriminate; [|apply part_or; auto]. injection E as ->.
    pose proof (WC n) as W. rewrite EG in W. destruct (G' n) as [x'|] eqn:EG'; [contradiction|]. left. constructor. exact EG'.
  - intros s es' AL. inversion AL as [|m MM|]; subst; [left; constructor|]. right. exists (EAbort (Report m s [])). split; [|exact MM].
    apply ch_first; [apply clause_reached|intros []].
  - intros s q es' AL. inversion AL as [|m MM|]; subst; [left; constructor|]. right. exists (EAbort (Report m s [])). split; [|exact MM].
    apply ch_first; [apply clause_reached|intros []].
  - intros e1 es s o r D IH NF es' AL. inversion AL as [| |x x' xs xs' CX AX]; subst. destruct (IH x' CX) as [L|(b & L & B)]; [left; apply ch_first; assumption|].
    right. exists b. split; [apply ch_first; [exact L|apply by_no_fail; exact B]|exact B].
  - intros e1 es s o q r D IH D2 IH2 es' AL. inversion AL as [| |x x' xs xs' CX AX]; subst. destruct (IH x' CX) as [L|(b & L & B)].
    + destruct (IH2 xs' AX) as [R|(b & R & B)]; [left; eapply ch_next; eassumption|right; exists b; split; [eapply ch_next; eassumption|exact B]].
    + right. exists b. split; [apply ch_first; [exact L|apply by_no_fail; exact B]|exact B].
Qed.

Lemma with_ : forall e e' s r, C e e' -> pege G e s r -> outcome_or e' s r.
Proof. intros e e' s r Cl D. exact (proj1 with_both e s r D e' Cl). Qed.

End Clauses.

(* ------------------------------------------------------------------------------------------- *)
(** * Clauses in places where nothing else can be tried *)

Scheme placed_mut := Minimality for placed Sort Prop
with in_order_mut := Minimality for in_order Sort Prop
with options_mut := Minimality for options Sort Prop.

Lemma placed_clauses : forall G G' M b e e', placed G M b e e' -> clauses G G' M e e'.
Proof.
  intros G G' M.
  refine (placed_mut G M (fun _ e e' => clauses G G' M e e') (fun _ es es' => parts G G' M es es') (fun _ es es' => alts G G' M es es')
    _ _ _ _ _ _ _ _ _ _ _ _ _); intros; try (constructor; assumption).
  constructor; [assumption|constructor].
Qed.

Lemma placed_with_clauses : forall G G' M, with_placed_clauses G G' M -> with_clauses G G' M.
Proof.
  intros G G' M W n. specialize (W n). destruct (G n), (G' n); try exact W. eapply placed_clauses. exact W.
Qed.

Section Placed.
Variables G G' : str -> option expr.
Variable M : str -> Prop.
Hypothesis WP : with_placed_clauses G G' M.
Variable follow : str -> nexts.
Hypothesis PG : forall n e, G n = Some e -> predictive G follow e (follow n).
Hypothesis FR : forall n e, G n = Some e -> full G e.
Hypothesis PR : productive G.

Notation L := (placed G M).

Definition makes (e : expr) : Prop := forall x, occurs x e -> exists w ts, derives G x w ts.

Lemma makes_rule : forall n e, G n = Some e -> makes e.
Proof. intros n e E x O. exact (PR n e x E O). Qed.

Lemma makes_and : forall e es, makes (And (e :: es)) -> makes e /\ makes (And es).
Proof.
  intros e es H. split.
  - intros x O. apply H. eapply oc_and; [left; reflexivity|exact O].
  - intros x O. inversion O; subst; [|apply H; eapply oc_and; [right; eassumption|assumption]].
    destruct (H _ (oc_here _)) as (w & ts & D). inversion D; subst. eexists _, _. eassumption.
Qed.

Lemma makes_or : forall es, makes (Or es) -> Forall makes es.
Proof. intros es H. apply Forall_forall. intros e I x O. apply H. eapply oc_or; eassumption. Qed.

Lemma makes_rep : forall e mn mx, mx <> Some 0 -> makes (Repeat e mn mx) -> makes e /\ makes (Repeat e (pred mn) (option_map pred mx)).
Proof.
  intros e mn mx NZ H. split.
  - intros x O. apply H. apply oc_rep. exact O.
  - intros x O. inversion O; subst; [|apply H; apply oc_rep; assumption].
    destruct (H _ (oc_here _)) as (w & ts & D). inversion D; subst.
    + eexists _, _. apply d_rep_stop.
    + eexists _, _. eassumption.
Qed.

Definition can_start (e : expr) (s : str) : Prop := exists c w, s = c :: w /\ starts G e c.

Lemma matched_text : forall b e e' s ts rest p t, L b e e' -> pege G' e' s (EMatch ts rest p t) -> exists w, s = w ++ rest /\ derives G e w ts.
Proof.
  intros b e e' s ts rest p t PL D.
  destruct (without G G' M (placed_with_clauses _ _ _ WP) e e' s _ (placed_clauses G G' M b e e' PL) D) as [H|[]].
  exact (peg_derives G e s _ (pege_plain _ _ _ _ H) _ _ eq_refl).
Qed.

Lemma start_first : forall e es s, makes (And (e :: es)) -> can_start e s -> can_start (And (e :: es)) s.
Proof.
  intros e es s H (c & w & -> & v & ts & D). destruct (proj2 (makes_and e es H) _ (oc_here _)) as (u & us & D2).
  exists c, w. split; [reflexivity|]. exists (v ++ u), (ts ++ us). exact (d_and_cons G e es (c :: v) u ts us D D2).
Qed.

Lemma start_turn : forall e mn mx s, mx <> Some 0 -> makes (Repeat e mn mx) -> can_start e s -> can_start (Repeat e mn mx) s.
Proof.
  intros e mn mx s NZ H (c & w & -> & v & ts & D). destruct (proj2 (makes_rep e mn mx NZ H) _ (oc_here _)) as (u & us & D2).
  exists c, w. split; [reflexivity|]. exists (v ++ u), (ts ++ us). exact (d_rep_more G e mn mx (c :: v) u ts us NZ D D2).
Qed.

(** A clause is reached only after something was read. *)
Lemma reached_both :
  (forall e' s r, pege G' e' s r -> forall q, r = EAbort q -> forall e F, L false e e' -> predictive G follow e F -> makes e -> can_start e s) /\
  (forall es' s o r, choice G' es' s o r -> forall q, r = EAbort q -> forall es F, options G M false es es' -> predictive G follow (Or es) F -> Forall makes es ->
     exists e, In e es /\ can_start e s).
Proof.
  apply pege_choice_ind; try (intros; discriminate).
  - intros m s q _ e F PL P _. inversion PL; subst. contradiction.
  - intros e' es' s ts s1 p t r D IH D2 IH2 q E e F PL P MK. inversion PL as [|? ? ? IO| | | |]; subst.
    destruct r as [| |q2]; try discriminate. inversion IO as [|? x x' xs xs' PX PS|? x x' xs xs' PX NE PS]; subst; destruct P as [P1 P2];
      destruct (matched_text _ _ _ _ _ _ _ _ PX D) as (w & -> & DW).
    + destruct w as [|c w].
      * destruct (IH2 q2 eq_refl (And xs) F ltac:(constructor; exact PS) P2 (proj2 (makes_and _ _ MK))) as (c & v & E1 & u & us & DU).
        exists c, v. split; [exact E1|]. exists u, (ts ++ us). exact (d_and_cons G x xs [] (c :: u) ts us DW DU).
      * apply start_first; [exact MK|]. exists c, (w ++ s1). split; [reflexivity|]. exists w, ts. exact DW.
    + destruct w as [|c w]; [exfalso; apply NE; exists ts; exact DW|].
      apply start_first; [exact MK|]. exists c, (w ++ s1). split; [reflexivity|]. exists w, ts. exact DW.
  - intros e' es' s r D IH ST q E e F PL P MK. inversion PL as [|? ? ? IO| | | |]; subst.
    inversion IO as [|? x x' xs xs' PX PS|? x x' xs xs' PX NE PS]; subst; destruct P as [P1 P2]; apply start_first; try exact MK;
      exact (IH q eq_refl x _ PX P1 (proj1 (makes_and _ _ MK))).
  - intros es' s r D IH q E e F PL P MK. inversion PL as [| |? ? ? OP| | |]; subst.
    destruct (IH q eq_refl _ F OP P (makes_or _ MK)) as (x & I & c & w & -> & v & ts & DX). exists c, w. split; [reflexivity|]. exists v, ts. eapply d_or; eassumption.
  - intros e' mn mx s ts s1 p t r NZ D IH D2 IH2 q E e F PL P MK. inversion PL as [| | |? x x' ? ? PX| |]; subst. pose proof P as (P1 & P2 & P3).
    destruct (matched_text _ _ _ _ _ _ _ _ PX D) as (w & -> & DW). destruct w as [|c w]; [exfalso; apply P2; exists ts; exact DW|].
    apply start_turn; [exact NZ|exact MK|]. exists c, (w ++ s1). split; [reflexivity|]. exists w, ts. exact DW.
  - intros e' mn mx s q0 NZ D IH q E e F PL P MK. inversion PL as [| | |? x x' ? ? PX| |]; subst. pose proof P as (P1 & P2 & P3).
    apply start_turn; [exact NZ|exact MK|]. exact (IH q0 eq_refl x _ PX P1 (proj1 (makes_rep _ _ _ NZ MK))).
  - intros n e' s r E D IH q ER e F PL P MK. inversion PL; subst. pose proof (WP n) as W. rewrite E in W. destruct (G n) as [x|] eqn:EG; [|contradiction].
    destruct r as [| |q2]; try discriminate. destruct (IH q2 eq_refl x (follow n) W (PG n x EG) (makes_rule n x EG)) as (c & w & -> & v & ts & DX).
    exists c, w. split; [reflexivity|]. exists v, [Rule n ts]. eapply d_rule; eassumption.
  - intros n s E q ER e F PL P MK. inversion PL; subst. pose proof (WP n) as W. rewrite E in W. destruct (G n) as [x|] eqn:EG; [contradiction|]. destruct P as [P1 _]. congruence.
  - intros e' es' s o r D IH NF q E es F OP P MK. inversion OP as [| |? x x' PX|? x x' xs xs' PX PS]; subst; destruct P as (P1 & P2 & P3 & P4); inversion MK; subst;
      (exists x; split; [left; reflexivity|]; eapply IH; [reflexivity|exact PX|exact P1|assumption]).
  - intros e' es' s o q0 r D IH D2 IH2 q E es F OP P MK. inversion OP as [| |? x x' PX|? x x' xs xs' PX PS]; subst; destruct P as (P1 & P2 & P3 & P4); inversion MK; subst.
    + inversion D2.
    + destruct (IH2 q eq_refl xs F PS P4 ltac:(assumption)) as (y & I & CS). exists y. split; [right; exact I|exact CS].
Qed.

(** Where the next char does not start [e], also [e'] fails. *)
Lemma cannot_start' : forall e e' F s, L false e e' -> full G e -> makes e -> ascii s -> predictive G follow e F -> ~ empty G e ->
  (forall c w, s = c :: w -> ~ starts G e c) -> peg G' e' s PFail.
Proof.
  intros e e' F s PL T MK A P NE NS. pose proof (cannot_start G follow PG e F s T A P NE NS) as H.
  destruct (peg_pege G e s PFail H) as (r & H2 & E). destruct r as [| q|]; try discriminate.
  destruct (with_ G G' M (placed_with_clauses _ _ _ WP) e e' s _ (placed_clauses G G' M false e e' PL) H2) as [R|(b & R & B)].
  - exact (pege_plain _ _ _ _ R).
  - destruct b as [| |q2]; try contradiction. destruct (proj1 reached_both e' s _ R q2 eq_refl e F PL P MK) as (c & w & -> & SX).
    exfalso. exact (NS c w eq_refl SX).
Qed.

Definition made (e : expr) : Prop := forall x, occurs x e -> x <> e -> exists w ts, derives G x w ts.

Definition innerm (e : expr) : Prop :=
  match e with
  | And es | Or es => Forall makes es
  | Not x | Repeat x _ _ => makes x
  | _ => True
  end.

Lemma makes_inner : forall e, makes e -> innerm e.
Proof.
  intros [a|es|es|x|x mn mx|n] H; cbn; try exact I.
  - apply Forall_forall. intros x Ix y O. apply H. eapply oc_and; eassumption.
  - apply makes_or. exact H.
  - intros y O. apply H. apply oc_not. exact O.
  - intros y O. apply H. apply oc_rep. exact O.
Qed.

Lemma part_match : forall e' m s ts rest, peg G' e' s (PMatch ts rest) -> peg G' (Or [e'; fails_with m]) s (PMatch ts rest).
Proof. intros e' m s ts rest H. apply peg_or_first; [exact H|discriminate]. Qed.

Lemma derives_peg' : forall e w ts, derives G e w ts -> forall b e' F s, L b e e' -> inner G e -> innerm e -> ascii (w ++ s) -> predictive G follow e F -> F (hd_error s) ->
  peg G' e' (w ++ s) (PMatch ts s).
Proof.
  intros e w ts D. induction D as [l|cs rs c IC|c| | |e es w v ts us D1 IH1 D2 IH2|e es w ts I D IH|e|e mx|e mn mx w v ts us NZ D1 IH1 D2 IH2|n e w ts E D IH];
    intros b e' F s PL; intros T K A P N.
  - remember (Simple (Literal l)) as x eqn:E. induction PL; try discriminate; [|apply part_match; auto]. injection E as ->. apply peg_lit_ok.
  - remember (Simple (Match cs rs)) as x eqn:E. induction PL; try discriminate; [|apply part_match; auto]. injection E as ->. apply peg_class_ok. assumption.
  - remember (Simple Dot) as x eqn:E. induction PL; try discriminate; [|apply part_match; auto]. injection E as ->. apply peg_dot_ok.
  - remember (Simple AEOF) as x eqn:E. induction PL; try discriminate; [|apply part_match; auto]. injection E as ->.
    cbn in P. specialize (P _ N). destruct s; [apply peg_eof_ok|discriminate].
  - remember (And []) as x eqn:E. induction PL as [|? ? ? IO| | | |]; try discriminate; [|apply part_match; auto]. injection E as ->. inversion IO; subst. apply peg_and_nil.
  - remember (And (e :: es)) as x eqn:E. induction PL as [|bb ? ? IO| | | |]; try discriminate; [|apply part_match; auto]. injection E as ->.
    assert (Z : exists b1 b2 y' ys', es' = y' :: ys' /\ L b1 e y' /\ in_order G M b2 es ys').
    { inversion IO as [|? x x' xs xs' PX PS|? x x' xs xs' PX NE PS]; subst; eexists _, _, _, _; split; [reflexivity|split; [exact PX|exact PS]|reflexivity|split; [exact PX|exact PS]]. }
    destruct Z as (b1 & b2 & y' & ys' & -> & PX & PS).
    destruct P as [P1 P2]. inversion T as [|x1 x2 T1 T2]; subst. inversion K as [|x1 x2 K1 K2]; subst. rewrite <- app_assoc in *.
    assert (A2 : ascii (v ++ s)) by (apply Forall_app in A; tauto).
    change (PMatch (ts ++ us) s) with (prepend ts (PMatch us s)). eapply peg_and_cons.
    + apply (IH1 _ y' _ (v ++ s) PX (full_inner _ _ T1) (makes_inner _ K1) A P1). destruct v as [|c v].
      * right. split; [exists us; assumption|exact N].
      * left. exists c. split; [reflexivity|]. exists v, us. assumption.
    + exact (IH2 b2 (And ys') F s ltac:(constructor; exact PS) T2 K2 A2 P2 N).
  - remember (Or es) as x eqn:E. induction PL as [| |bb ? es' OP| | |]; try discriminate; [|apply part_match; auto]. injection E as ->.
    assert (Z : forall b l l', options G M b l l' -> In e l -> Forall (full G) l -> Forall makes l -> predictive G follow (Or l) F -> peg G' (Or l') (w ++ s) (PMatch ts s)).
    { clear I T K P OP bb. intros b0 l l' OP. induction OP as [|m MM|b0 x x' PX|b0 x x' xs xs' PX PS IHO]; intros I T K P.
      all: try contradiction.
      - destruct I as [->|[]]. inversion T; subst. inversion K; subst. destruct P as (P1 & _). apply peg_or_first; [|discriminate].
        eapply IH; [exact PX|apply full_inner; assumption|apply makes_inner; assumption|exact A|exact P1|exact N].
      - inversion T as [|x1 x2 Tx Tr]; subst. inversion K as [|x1 x2 Kx Kr]; subst. destruct P as (P1 & P2 & P3 & P4). destruct I as [->|I].
        + apply peg_or_first; [|discriminate]. eapply IH; [exact PX|apply full_inner; assumption|apply makes_inner; assumption|exact A|exact P1|exact N].
        + apply peg_or_next; [|apply IHO; assumption]. apply (cannot_start' x x' F); [exact PX|exact Tx|exact Kx|exact A|exact P1|apply P2; intros ->; exact I|].
          intros c u EE Sx. apply (P3 c Sx). destruct w as [|d w].
          * right. cbn in EE. rewrite EE in N. split; [|exact N]. exists ts. eapply d_or; eassumption.
          * left. cbn in EE. injection EE as -> _. exists c. split; [reflexivity|]. exists w, ts. eapply d_or; eassumption. }
    eapply Z; eassumption.
  - contradiction.
  - remember (Repeat e 0 mx) as x eqn:E. induction PL as [| | |bb y y' mn0 mx0 PX| |]; try discriminate; [|apply part_match; auto]. injection E as -> -> ->.
    destruct P as (P1 & P2 & P3). cbn [app] in *.
    assert (Z : mx = Some 0 \/ mx <> Some 0) by (destruct mx as [[|k]|]; [left; reflexivity|right; discriminate|right; discriminate]).
    destruct Z as [-> |Z]; [apply peg_rep_full|]. apply peg_rep_done; [exact Z|].
    eapply cannot_start'; [exact PX|exact T|exact K|exact A|exact P1|exact P2|]. intros c u EE Sx. apply (P3 c Sx). rewrite EE in N. exact N.
  - remember (Repeat e mn mx) as x eqn:E. induction PL as [| | |bb y y' mn0 mx0 PX| |]; try discriminate; [|apply part_match; auto]. injection E as -> -> ->.
    pose proof P as (P1 & P2 & P3). rewrite <- app_assoc in *.
    assert (A2 : ascii (v ++ s)) by (apply Forall_app in A; tauto).
    change (PMatch (ts ++ us) s) with (prepend ts (PMatch us s)). eapply peg_rep_more; [assumption| |].
    + apply (IH1 _ y' _ (v ++ s) PX (full_inner _ _ T) (makes_inner _ K) A P1). destruct v as [|c v]; [right; exact N|].
      left. split; [|exists c; split; [reflexivity|]; eapply rep_starts; [exact D2|exact P2|reflexivity]].
      destruct mx as [[|[|m]]|]; cbn; try lia; [congruence|]. inversion D2; subst; cbn in *; congruence.
    + apply (IH2 false (Repeat y' (pred mn) (option_map pred mx)) F s); [constructor; exact PX|exact T|exact K|exact A2|apply predictive_turn; exact P|exact N].
  - remember (RuleName n) as x eqn:EX. induction PL; try discriminate; [|apply part_match; auto]. injection EX as ->.
    pose proof (WP n) as W. rewrite E in W. destruct (G' n) as [x'|] eqn:EG'; [|contradiction].
    destruct P as [P1 P2]. change (PMatch [Rule n ts] s) with (wrap n (PMatch ts s)). eapply peg_rule; [exact EG'|].
    apply (IH false x' (follow n) s W); [apply full_inner; eapply FR; eassumption|apply makes_inner; eapply makes_rule; exact E|exact A|apply PG; assumption|apply P2; exact N].
Qed.

End Placed.

(* ------------------------------------------------------------------------------------------- *)
(** * The API *)

Scheme clauses_mut := Minimality for clauses Sort Prop
with parts_mut := Minimality for parts Sort Prop
with alts_mut := Minimality for alts Sort Prop.

Lemma clauses_sane : forall G G' M e e', clauses G G' M e e' -> sane e -> sane e'.
Proof.
  intros G G' M.
  refine (clauses_mut G G' M (fun e e' => sane e -> sane e') (fun es es' => sane (And es) -> sane (And es')) (fun es es' => sane (Or es) -> sane (Or es'))
    _ _ _ _ _ _ _ _ _ _ _ _); unfold fails_with; cbn [sane fold_right]; intros; tauto.
Qed.

Lemma rules_sane : forall rs rs' M, with_clauses (grammar_of rs) (grammar_of rs') M -> sane_rules rs -> sane_rules rs'.
Proof.
  intros rs rs' M W SR n e' E. specialize (W n). unfold grammar_of in W. rewrite E in W. destruct (rules_get rs n) as [e|] eqn:E2; [|contradiction].
  exact (clauses_sane _ _ _ _ _ W (SR n e E2)).
Qed.

Lemma clause_answers : forall (M : str -> Prop) s d r o, by_clause M r -> answers s d r o -> exists er, o = Err er /\ e_priority er = Critical /\ M (e_descr er).
Proof.
  intros M s d [| |q] o B A; try contradiction. inversion A; subst. eexists. split; [reflexivity|]. split; [reflexivity|exact B].
Qed.

Lemma only_clauses_differ : forall rs rs' M s d o, sane_rules rs -> with_clauses (grammar_of rs) (grammar_of rs') M -> ascii s -> o <> Fuel ->
  (exists fuel, parse_with_debug fuel s rs' d = o) ->
  (exists fuel, parse_with_debug fuel s rs d = o) \/ (exists er, o = Err er /\ e_priority er = Critical /\ M (e_descr er)).
Proof.
  intros rs rs' M s d o SR W A NF H. apply (parse_report_iff s rs' d o (rules_sane _ _ _ W SR) A NF) in H. destruct H as (r & H & AN).
  destruct (without _ _ M W (RuleName main) (RuleName main) s r (cl_rule _ _ _ main) H) as [D|B].
  - left. apply (parse_report_iff s rs d o SR A NF). exists r. split; assumption.
  - right. exact (clause_answers M s d r o B AN).
Qed.

Lemma answer_exists : forall rs s r d, sane_rules rs -> ascii s -> pege (grammar_of rs) (RuleName main) s r -> exists o, o <> Fuel /\ answers s d r o.
Proof.
  intros rs s r d SR A H.
  destruct (proj2 (parse_terminates_iff s rs d SR A) (ex_intro _ _ (pege_plain _ _ _ _ H))) as [fuel NF].
  destruct (proj1 (parse_report_iff s rs d _ SR A NF) (ex_intro _ fuel eq_refl)) as (r2 & H2 & AN).
  rewrite <- (pege_det _ _ _ _ H _ H2) in AN. eexists. split; [exact NF|exact AN].
Qed.

Lemma clauses_or_the_same : forall rs rs' M s d o, sane_rules rs -> with_clauses (grammar_of rs) (grammar_of rs') M -> ascii s -> o <> Fuel ->
  (exists fuel, parse_with_debug fuel s rs d = o) ->
  (exists fuel, parse_with_debug fuel s rs' d = o) \/
  (exists fuel er, parse_with_debug fuel s rs' d = Err er /\ e_priority er = Critical /\ M (e_descr er)).
Proof.
  intros rs rs' M s d o SR W A NF H. pose proof (rules_sane _ _ _ W SR) as SR'. apply (parse_report_iff s rs d o SR A NF) in H. destruct H as (r & H & AN).
  destruct (with_ _ _ M W (RuleName main) (RuleName main) s r (cl_rule _ _ _ main) H) as [D|(b & D & B)].
  - left. apply (parse_report_iff s rs' d o SR' A NF). exists r. split; assumption.
  - right. destruct (answer_exists rs' s b d SR' A D) as (o' & NF' & AN').
    destruct (clause_answers M s d b o' B AN') as (er & -> & C & MM).
    destruct (proj2 (parse_report_iff s rs' d (Err er) SR' A NF') (ex_intro _ b (conj D AN'))) as [fuel F]. exists fuel, er. auto.
Qed.

Lemma placed_accepts : forall rs rs' M s d t, sane_rules rs -> well_formed (grammar_of rs) -> predictive_grammar (grammar_of rs) -> productive (grammar_of rs) ->
  with_placed_clauses (grammar_of rs) (grammar_of rs') M -> ascii s ->
  (exists fuel, parse_with_debug fuel s rs' d = Ok t) <-> (exists fuel, parse_with_debug fuel s rs d = Ok t).
Proof.
  intros rs rs' M s d t SR WF (follow & FM & DM & PG) PR W A. pose proof (placed_with_clauses _ _ _ W) as WC. split.
  - intro H. destruct (only_clauses_differ rs rs' M s d (Ok t) SR WC A ltac:(discriminate) H) as [K|(er & E & _)]; [exact K|discriminate].
  - intros [fuel H]. pose proof (accepted_derives rs fuel s d t SR H) as D.
    apply (parse_accepts_iff s rs' d (rules_sane _ _ _ WC SR) A t). unfold peg_main. rewrite <- (app_nil_r s).
    apply (derives_peg' _ _ M W follow PG (rule_full rs SR WF) PR _ _ _ D false (RuleName main) (fun o => o = None) []).
    + constructor.
    + exact I.
    + exact I.
    + rewrite app_nil_r. exact A.
    + split; [exact DM|]. intros o ->. exact FM.
    + reflexivity.
Qed.

Lemma placed_rejects : forall rs rs' M s d, sane_rules rs -> well_formed (grammar_of rs) -> predictive_grammar (grammar_of rs) -> productive (grammar_of rs) ->
  with_placed_clauses (grammar_of rs) (grammar_of rs') M -> ascii s ->
  (exists fuel er, parse_with_debug fuel s rs' d = Err er) <-> (exists fuel er, parse_with_debug fuel s rs d = Err er).
Proof.
  intros rs rs' M s d SR WF PG PR W A. pose proof (placed_with_clauses _ _ _ W) as WC. pose proof (parse_bound rs s d _ WF (le_n _)) as NF.
  pose proof (parse_no_panic (depth_factor rs * (length s + 1)) s rs d A) as NP.
  remember (depth_factor rs * (length s + 1)) as f eqn:EF. clear EF.
  assert (Same : forall f1 f2 rs o1 o2, sane_rules rs -> parse_with_debug f1 s rs d = o1 -> parse_with_debug f2 s rs d = o2 -> o1 <> Fuel -> o2 <> Fuel -> o1 = o2).
  { intros f1 f2 rs0 o1 o2 S0 E1 E2 N1 N2. destruct (proj1 (parse_report_iff s rs0 d o1 S0 A N1) (ex_intro _ f1 E1)) as (r1 & D1 & A1).
    destruct (proj1 (parse_report_iff s rs0 d o2 S0 A N2) (ex_intro _ f2 E2)) as (r2 & D2 & A2). rewrite <- (pege_det _ _ _ _ D1 _ D2) in A2.
    inversion A1; subst; inversion A2; subst; congruence. }
  split.
  - intros (f' & er & H). destruct (parse_with_debug f s rs d) as [t|er2| |] eqn:E; [|exists f, er2; exact E|congruence|congruence]. exfalso.
    destruct (proj2 (placed_accepts rs rs' M s d t SR WF PG PR W A) (ex_intro _ f E)) as [f2 H2].
    pose proof (Same f' f2 rs' _ _ (rules_sane _ _ _ WC SR) H H2 ltac:(discriminate) ltac:(discriminate)). discriminate.
  - intros (f' & er & H). destruct (clauses_or_the_same rs rs' M s d (Err er) SR WC A ltac:(discriminate) (ex_intro _ f' H)) as [[f2 H2]|(f2 & er2 & H2 & _)];
      exists f2; eexists; exact H2.
Qed.

(** Rule sets with the same names in the same order. *)
Lemma same_names : forall (R : expr -> expr -> Prop) l l', Forall2 (fun p p' => fst p = fst p' /\ R (snd p) (snd p')) l l' ->
  forall n, match rules_get l n, rules_get l' n with Some e, Some e' => R e e' | None, None => True | _, _ => False end.
Proof.
  intros R l l' F n. induction F as [|[k e] [k' e'] l l' [E P] F IH]; [exact I|]. cbn in E, P |- *. subst k'. destruct (str_eqb k n); assumption.
Qed.

Lemma placed_rules : forall rs rs' M, Forall2 (fun p p' => fst p = fst p' /\ placed (grammar_of rs) M false (snd p) (snd p')) rs rs' ->
  with_placed_clauses (grammar_of rs) (grammar_of rs') M.
Proof. intros rs rs' M F. exact (same_names _ _ _ F). Qed.

Lemma clauses_rules : forall rs rs' M, Forall2 (fun p p' => fst p = fst p' /\ clauses (grammar_of rs) (grammar_of rs') M (snd p) (snd p')) rs rs' ->
  with_clauses (grammar_of rs) (grammar_of rs') M.
Proof. intros rs rs' M F. exact (same_names _ _ _ F). Qed.

(* ------------------------------------------------------------------------------------------- *)
(** * Where the messages stand *)

Section Standing.
Variables G G' : str -> option expr.
Variable M : str -> Prop.
Hypothesis WC : with_clauses G G' M.
Hypothesis PR : productive G.

(** What was read before the report is the beginning of something that [e] generates. *)
Definition stands (e : expr) (s : str) (q : report) : Prop := exists p u ts, s = p ++ r_rest q /\ derives G e (p ++ u) ts.

Lemma read_text : forall e e' s ts rest p t, clauses G G' M e e' -> pege G' e' s (EMatch ts rest p t) -> exists w, s = w ++ rest /\ derives G e w ts.
Proof.
  intros e e' s ts rest p t Cl D. destruct (without G G' M WC e e' s _ Cl D) as [H|[]]. exact (peg_derives G e s _ (pege_plain _ _ _ _ H) _ _ eq_refl).
Qed.

Lemma stands_here : forall e s m t, makes G e -> stands e s (Report m s t).
Proof. intros e s m t H. destruct (H e (oc_here e)) as (w & ts & D). exists [], w, ts. split; [reflexivity|exact D]. Qed.

Lemma standing_both :
  (forall e' s r, pege G' e' s r -> forall q, r = EAbort q -> forall e, clauses G G' M e e' -> makes G e -> M (r_descr q) /\ stands e s q) /\
  (forall es' s o r, choice G' es' s o r -> forall q, r = EAbort q ->
     (forall es all, alts G G' M es es' -> incl es all -> makes G (Or all) -> M (r_descr q) /\ stands (Or all) s q) /\
     (forall e e' m, es' = [e'; fails_with m] -> M m -> clauses G G' M e e' -> makes G e -> M (r_descr q) /\ stands e s q)).
Proof.
  apply pege_choice_ind; try (intros; discriminate).
  - intros m s q E e Cl MK. inversion Cl; subst. destruct (MK _ (oc_here _)) as (w & ts & D). inversion D.
  - intros e' es' s ts s1 p t r D IH D2 IH2 q E e Cl MK. inversion Cl as [|? ? PA| | | | |]; subst. inversion PA as [|x x' xs xs' CX PX]; subst.
    destruct r as [| |q2]; try discriminate. injection E as <-. destruct (read_text _ _ _ _ _ _ _ CX D) as (w & -> & DW).
    destruct (IH2 q2 eq_refl (And xs) ltac:(constructor; exact PX) (proj2 (makes_and G _ _ MK))) as (MM & v & u & us & -> & DV).
    split; [exact MM|]. exists (w ++ v), u, (ts ++ us). cbn [shift r_rest]. rewrite <- !app_assoc. split; [reflexivity|]. apply d_and_cons; assumption.
  - intros e' es' s r D IH ST q E e Cl MK. inversion Cl as [|? ? PA| | | | |]; subst. inversion PA as [|x x' xs xs' CX PX]; subst.
    destruct (IH q eq_refl x CX (proj1 (makes_and G _ _ MK))) as (MM & v & u & us & -> & DV). split; [exact MM|].
    destruct (proj2 (makes_and G _ _ MK) _ (oc_here _)) as (y & ys & DY). exists v, (u ++ y), (us ++ ys). split; [reflexivity|].
    rewrite app_assoc. apply d_and_cons; assumption.
  - intros es' s r D IH q E e Cl MK. destruct (IH q E) as [IH1 IH2]. inversion Cl as [| |? ? AL| | | |e0 e' m MM CX]; subst.
    + exact (IH1 _ es AL (incl_refl _) MK).
    + exact (IH2 e e' m eq_refl MM CX MK).
  - intros e' mn mx s ts s1 p t r NZ D IH D2 IH2 q E e Cl MK. inversion Cl as [| | | |x x' ? ? CX| |]; subst.
    destruct r as [| |q2]; try discriminate. injection E as <-. destruct (read_text _ _ _ _ _ _ _ CX D) as (w & -> & DW).
    destruct (IH2 q2 eq_refl (Repeat x (pred mn) (option_map pred mx)) ltac:(constructor; exact CX) (proj2 (makes_rep G _ _ _ NZ MK))) as (MM & v & u & us & -> & DV).
    split; [exact MM|]. exists (w ++ v), u, (ts ++ us). cbn [shift r_rest]. rewrite <- !app_assoc. split; [reflexivity|]. apply d_rep_more; assumption.
  - intros e' mn mx s q0 NZ D IH q E e Cl MK. injection E as <-. inversion Cl as [| | | |x x' ? ? CX| |]; subst.
    destruct (IH q0 eq_refl x CX (proj1 (makes_rep G _ _ _ NZ MK))) as (MM & v & u & us & -> & DV). split; [exact MM|].
    destruct (proj2 (makes_rep G _ _ _ NZ MK) _ (oc_here _)) as (y & ys & DY). exists v, (u ++ y), (us ++ ys). split; [reflexivity|].
    rewrite app_assoc. apply d_rep_more; assumption.
  - intros n e' s r E D IH q ER e Cl MK. inversion Cl; subst. pose proof (WC n) as W. rewrite E in W. destruct (G n) as [x|] eqn:EG; [|contradiction].
    destruct r as [| |q2]; try discriminate. injection ER as <-. destruct (IH q2 eq_refl x W (makes_rule G PR n x EG)) as (MM & v & u & us & -> & DV).
    split; [exact MM|]. exists v, u, [Rule n us]. split; [reflexivity|]. eapply d_rule; eassumption.
  - intros n s E q ER e Cl MK. inversion Cl; subst. destruct (MK _ (oc_here _)) as (w & ts & D). inversion D; subst.
    pose proof (WC n) as W. rewrite E in W. destruct (G n); [contradiction|discriminate].
  - intros e' es' s o r D IH NF q E. split.
    + intros es all AL IN MK. inversion AL as [|m MM|x x' xs xs' CX AX]; subst.
      * inversion D; subst. split; [exact MM|apply stands_here; exact MK].
      * assert (Ix : In x all) by (apply IN; left; reflexivity).
        destruct (IH q eq_refl x CX) as (MM & v & u & us & -> & DV); [intros y O; apply MK; eapply oc_or; eassumption|].
        split; [exact MM|]. exists v, u, us. split; [reflexivity|]. eapply d_or; eassumption.
    + intros e e0 m E0 MM CX MK. injection E0 as -> ->. exact (IH q E e CX MK).
  - intros e' es' s o q0 r D IH D2 IH2 q E. destruct (IH2 q E) as [IH3 _]. split.
    + intros es all AL IN MK. inversion AL as [|m MM|x x' xs xs' CX AX]; subst.
      * inversion D.
      * apply (IH3 xs all AX); [intros y Iy; apply IN; right; exact Iy|exact MK].
    + intros e e0 m E0 MM CX MK. injection E0 as -> ->.
      inversion D2 as [| |? ? ? ? ? D3 NF|? ? ? ? ? ? D3 D4]; subst; inversion D3; subst. split; [exact MM|apply stands_here; exact MK].
Qed.

End Standing.

Lemma messages_stand : forall rs rs' M fuel s debug er, sane_rules rs -> productive (grammar_of rs) -> grammar_of rs main <> None ->
  with_clauses (grammar_of rs) (grammar_of rs') M -> ascii s -> parse_with_debug fuel s rs' debug = Err er -> e_priority er = Critical ->
  M (e_descr er) /\ exists w ast, derives (grammar_of rs) (RuleName main) w [ast] /\ firstn (pn (e_pos er)) w = firstn (pn (e_pos er)) s.
Proof.
  intros rs rs' M fuel s debug er SR PR DM W A H C.
  destruct (proj1 (parse_report_iff s rs' debug (Err er) (rules_sane _ _ _ W SR) A ltac:(discriminate)) (ex_intro _ fuel H)) as (r & D & AN).
  inversion AN; subst; try discriminate. cbn [error_at e_descr e_pos pos_of pn].
  assert (MK : makes (grammar_of rs) (RuleName main)).
  { intros x O. inversion O; subst. destruct (grammar_of rs main) as [e|] eqn:E; [|congruence]. destruct (PR main e e E (oc_here e)) as (w & ts & Dw).
    exists w, [Rule main ts]. eapply d_rule; eassumption. }
  destruct (proj1 (standing_both _ _ M W PR) _ _ _ D q eq_refl (RuleName main) (cl_rule _ _ _ main) MK) as (MM & p & u & ts & E & Du).
  split; [exact MM|]. inversion Du; subst. eexists _, _. split; [exact Du|].
  unfold before. rewrite !app_length. replace (length p + length (r_rest q) - length (r_rest q)) with (length p) by lia.
  rewrite firstn_length, Nat.min_l by (rewrite app_length; lia). rewrite !firstn_app, Nat.sub_diag, !firstn_all. reflexivity.
Qed.
