(** PEG and BNF readings of a grammar. *)
From Coq Require Import Permutation.
From Verif Require Import Base ModelAst ModelParser SpecPeg SpecPos SpecApi SpecWf SpecBnf.
From Verif Require Import PegTools ProofParser ProofEngine ProofSim ProofApi ProofWf WfCheck Examples.

Section Bnf.
Variable G : str -> option expr.

(** * What matches is generated *)

Lemma peg_derives : forall e s r, peg G e s r -> forall ts rest, r = PMatch ts rest -> exists w, s = w ++ rest /\ derives G e w ts.
Proof.
  intros e s r H. induction H; intros us rest' E; try discriminate.
  - injection E as <- <-. exists l. split; [reflexivity|apply d_lit].
  - injection E as <- <-. exists [c]. split; [reflexivity|apply d_class; assumption].
  - injection E as <- <-. exists [c]. split; [reflexivity|apply d_dot].
  - injection E as <- <-. exists []. split; [reflexivity|apply d_eof].
  - injection E as <- <-. exists []. split; [reflexivity|apply d_and_nil].
  - destruct r as [vs rest1| |m rest1]; cbn in E; try discriminate. injection E as <- <-.
    destruct (IHpeg1 _ _ eq_refl) as (w & -> & D1). destruct (IHpeg2 _ _ eq_refl) as (v & -> & D2).
    exists (w ++ v). split; [apply app_assoc|]. apply d_and_cons; assumption.
  - subst r. contradiction.
  - destruct (IHpeg _ _ E) as (w & -> & D). exists w. split; [reflexivity|]. eapply d_or; [left; reflexivity|exact D].
  - destruct (IHpeg2 _ _ E) as (w & -> & D). exists w. split; [reflexivity|]. inversion D; subst. eapply d_or; [right; eassumption|assumption].
  - injection E as <- <-. exists []. split; [reflexivity|apply d_not].
  - injection E as <- <-. exists []. split; [reflexivity|apply d_rep_stop].
  - destruct r as [vs rest1| |m rest1]; cbn in E; try discriminate. injection E as <- <-.
    destruct (IHpeg1 _ _ eq_refl) as (w & -> & D1). destruct (IHpeg2 _ _ eq_refl) as (v & -> & D2).
    exists (w ++ v). split; [apply app_assoc|]. apply d_rep_more; assumption.
  - injection E as <- <-. exists []. split; [reflexivity|apply d_rep_stop].
  - destruct r as [vs rest1| |m rest1]; cbn in E; try discriminate. injection E as <- <-.
    destruct (IHpeg _ _ eq_refl) as (w & -> & D). exists w. split; [reflexivity|]. eapply d_rule; eassumption.
Qed.

(** * Predictive grammars *)

Variable follow : str -> nexts.
Hypothesis PG : forall n e, G n = Some e -> predictive G follow e (follow n).

Lemma predictive_weaken : forall e (F F' : nexts), (forall o, F' o -> F o) -> predictive G follow e F -> predictive G follow e F'.
Proof.
  induction e as [a|es IH|es IH|x IH|x mn mx IH|n] using expr_ind'; intros F F' H P.
  - destruct a; try exact P. cbn in *. intros o Q. exact (P o (H o Q)).
  - induction es as [|x r IHr]; [exact I|]. destruct P as [P1 P2]. inversion IH as [|y1 y2 H1 H2]; subst. split; [|exact (IHr H2 P2)].
    refine (H1 _ _ _ P1). intros o [Q|[Q1 Q2]]; [left; exact Q|right; split; [exact Q1|exact (H o Q2)]].
  - induction es as [|x r IHr]; [exact I|]. destruct P as (P1 & P2 & P3 & P4). inversion IH as [|y1 y2 H1 H2]; subst.
    split; [exact (H1 _ _ H P1)|]. split; [exact P2|]. split; [|exact (IHr H2 P4)].
    intros c Sx [Q|[Q1 Q2]]; apply (P3 c Sx); [left; exact Q|right; split; [exact Q1|exact (H _ Q2)]].
  - exact P.
  - destruct P as (P1 & P2 & P3). split; [|split; [exact P2|intros c Sx Q; exact (P3 c Sx (H _ Q))]].
    refine (IH _ _ _ P1). intros o [Q|Q]; [left; exact Q|right; exact (H o Q)].
  - destruct P as [P1 P2]. split; [exact P1|]. intros o Q. exact (P2 o (H o Q)).
Qed.

Lemma predictive_turn : forall e mn mx F, predictive G follow (Repeat e mn mx) F -> predictive G follow (Repeat e (pred mn) (option_map pred mx)) F.
Proof.
  intros e mn mx F (P1 & P2 & P3). split; [|split; assumption]. refine (predictive_weaken _ _ _ _ P1).
  intros o [[R Q]|Q]; [left; split; [|exact Q]|right; exact Q]. destruct mx; cbn in *; [lia|exact I].
Qed.

Lemma no_abort : forall e s r, peg G e s r -> forall F, predictive G follow e F -> forall m rest, r <> PAbort m rest.
Proof.
  intros e s r H. induction H; intros F P m' rest' E; try discriminate.
  - exact P.
  - destruct r as [vs rest1| |m rest1]; cbn in E; try discriminate. destruct P as [P1 P2].
    exact (IHpeg2 F P2 _ _ eq_refl).
  - destruct P as [P1 P2]. exact (IHpeg _ P1 _ _ E).
  - destruct P as [P1 P2]. exact (IHpeg _ P1 _ _ E).
  - destruct P as (P1 & _ & _ & P2). exact (IHpeg2 F P2 _ _ E).
  - destruct r as [vs rest1| |m rest1]; cbn in E; try discriminate. exact (IHpeg2 F (predictive_turn _ _ _ _ P) _ _ eq_refl).
  - destruct P as [P1 P2]. exact (IHpeg _ P1 _ _ eq_refl).
  - destruct r as [vs rest1| |m rest1]; cbn in E; try discriminate. exact (IHpeg _ (PG n e H) _ _ eq_refl).
  - destruct P as [P1 P2]. exact (P1 H).
Qed.

(** Everything that occurs has a result. *)
Definition full (x : expr) : Prop := forall y, occurs y x -> forall s, ascii s -> exists r, peg G y s r.
Definition inner (e : expr) : Prop :=
  match e with
  | And es | Or es => Forall full es
  | Not x | Repeat x _ _ => full x
  | _ => True
  end.
Hypothesis full_rule : forall n e, G n = Some e -> full e.

Lemma full_inner : forall e, full e -> inner e.
Proof.
  intros [a|es|es|x|x mn mx|n] H; cbn; try exact I.
  - apply Forall_forall. intros x Ix y O. apply H. eapply oc_and; eassumption.
  - apply Forall_forall. intros x Ix y O. apply H. eapply oc_or; eassumption.
  - intros y O. apply H. apply oc_not. exact O.
  - intros y O. apply H. apply oc_rep. exact O.
Qed.

(** Where the next char does not start [e], [e] fails. *)
Lemma cannot_start : forall e F s, full e -> ascii s -> predictive G follow e F -> ~ empty G e ->
  (forall c w, s = c :: w -> ~ starts G e c) -> peg G e s PFail.
Proof.
  intros e F s T A P NE NS. destruct (T e (oc_here e) s A) as (r & H). destruct r as [ts rest| |m rest]; [|exact H|].
  - exfalso. destruct (peg_derives _ _ _ H _ _ eq_refl) as ([|c w] & -> & D).
    + apply NE. exists ts. exact D.
    + apply (NS c (w ++ rest) eq_refl). exists w, ts. exact D.
  - exfalso. exact (no_abort _ _ _ H F P _ _ eq_refl).
Qed.

Lemma rep_starts : forall e mn mx w ts, derives G (Repeat e mn mx) w ts -> ~ empty G e -> forall c v, w = c :: v -> starts G e c.
Proof.
  intros e mn mx w ts D NE c v E. inversion D; subst; [discriminate|].
  match goal with H1 : derives G e ?x _ |- _ => destruct x as [|d x]; [exfalso; apply NE; eexists; exact H1|] end.
  match goal with H : (_ :: _) ++ _ = _ |- _ => injection H as <- _ end. eexists _, _. eassumption.
Qed.

Lemma hd_app : forall (v s : str), v <> [] -> exists c w, v = c :: w /\ hd_error (v ++ s) = Some c.
Proof. intros [|c w] s H; [congruence|]. exists c, w. split; reflexivity. Qed.

Lemma derives_peg : forall e w ts, derives G e w ts -> forall F s, inner e -> ascii (w ++ s) -> predictive G follow e F -> F (hd_error s) ->
  peg G e (w ++ s) (PMatch ts s).
Proof.
  intros e w ts D. induction D; intros F s T A P N.
  - apply peg_lit_ok.
  - apply peg_class_ok. assumption.
  - apply peg_dot_ok.
  - cbn in P. specialize (P _ N). destruct s; [apply peg_eof_ok|discriminate].
  - apply peg_and_nil.
  - destruct P as [P1 P2]. inversion T as [|x1 x2 T1 T2]; subst. rewrite <- app_assoc in *.
    assert (A2 : ascii (v ++ s)) by (apply Forall_app in A; tauto).
    change (PMatch (ts ++ us) s) with (prepend ts (PMatch us s)). eapply peg_and_cons.
    + apply (IHD1 _ (v ++ s) (full_inner _ T1) A P1). destruct v as [|c v].
      * right. split; [exists us; assumption|exact N].
      * left. exists c. split; [reflexivity|]. exists v, us. assumption.
    + exact (IHD2 F s T2 A2 P2 N).
  - assert (K : forall l, In e l -> Forall full l -> predictive G follow (Or l) F -> peg G (Or l) (w ++ s) (PMatch ts s)).
    { induction l as [|x l IHl]; intros I Tl Pl; [contradiction|]. inversion Tl as [|x1 x2 Tx Tr]; subst.
      destruct Pl as (P1 & P2 & P3 & P4).
      destruct I as [->|I].
      - apply peg_or_first; [|discriminate]. exact (IHD F s (full_inner _ Tx) A P1 N).
      - apply peg_or_next; [|apply IHl; assumption].
        apply (cannot_start x F); [exact Tx|exact A|exact P1|apply P2; intros ->; exact I|].
        intros c v E Sx. apply (P3 c Sx). destruct w as [|d w].
        + right. cbn in E. rewrite E in N. split; [|exact N]. exists ts. eapply d_or; eassumption.
        + left. cbn in E. injection E as -> _. exists c. split; [reflexivity|]. exists w, ts. eapply d_or; eassumption. }
    apply K; assumption.
  - contradiction.
  - destruct P as (P1 & P2 & P3). cbn [app] in *.
    assert (Z : mx = Some 0 \/ mx <> Some 0) by (destruct mx as [[|k]|]; [left; reflexivity|right; discriminate|right; discriminate]).
    destruct Z as [-> |Z]; [apply peg_rep_full|]. apply peg_rep_done; [exact Z|].
    eapply cannot_start; [exact T|exact A|exact P1|exact P2|]. intros c v E Sx. apply (P3 c Sx). rewrite E in N. exact N.
  - pose proof P as (P1 & P2 & P3). rewrite <- app_assoc in *.
    assert (A2 : ascii (v ++ s)) by (apply Forall_app in A; tauto).
    change (PMatch (ts ++ us) s) with (prepend ts (PMatch us s)). eapply peg_rep_more; [assumption| |].
    + apply (IHD1 _ (v ++ s) (full_inner _ T) A P1). destruct v as [|c v]; [right; exact N|].
      left. split; [|exists c; split; [reflexivity|]; eapply rep_starts; [exact D2|exact P2|reflexivity]].
      destruct mx as [[|[|m]]|]; cbn; try lia; [congruence|]. inversion D2; subst; cbn in *; congruence.
    + apply (IHD2 F s); [exact T|exact A2|apply predictive_turn; exact P|exact N].
  - destruct P as [P1 P2]. change (PMatch [Rule n ts] s) with (wrap n (PMatch ts s)). eapply peg_rule; [eassumption|].
    apply (IHD (follow n) s); [apply full_inner; eapply full_rule; eassumption|exact A|apply PG; assumption|apply P2; exact N].
Qed.

End Bnf.

(* ------------------------------------------------------------------------------------------- *)
(** * Rule sets *)

Lemma sane_occurs : forall y x, occurs y x -> sane x -> sane y.
Proof.
  intros y x O. induction O as [|e es I O IH|e es I O IH|e O IH|e mn mx O IH]; intro S; cbn in S; auto.
  - apply IH. induction es as [|z l IHl]; [contradiction|]. destruct S as [S1 S2], I as [->|I]; [exact S1|]. apply IHl; assumption.
  - apply IH. induction es as [|z l IHl]; [contradiction|]. destruct S as [S1 S2], I as [->|I]; [exact S1|]. apply IHl; assumption.
  - tauto.
Qed.

Lemma occurs_trans : forall x y z, occurs x y -> occurs y z -> occurs x z.
Proof.
  intros x y z H O. induction O; [exact H| | | |].
  - eapply oc_and; eassumption.
  - eapply oc_or; eassumption.
  - apply oc_not. assumption.
  - apply oc_rep. assumption.
Qed.

Lemma rule_full : forall rs, sane_rules rs -> well_formed (rules_get rs) -> forall n e, rules_get rs n = Some e -> full (rules_get rs) e.
Proof.
  intros rs SR [NLR NEL] n e E y O s A.
  set (F := length s + need rs (length s) [] (expr_size y)).
  assert (NF : parse_expr rs F (status_init s) y <> Fuel).
  { apply (expr_terminates rs NLR NEL (length s) F []).
    - apply inv_init0.
    - apply visited_nil.
    - exact I.
    - intros x mn mx O2. apply (NEL n e x mn mx E). eapply occurs_trans; eassumption.
    - cbn. lia.
    - cbn [status_init it_parsing length]. lia. }
  destruct (parse_expr_ok rs SR F (status_init s) y (sane_occurs y e O (SR n e E)) (inv_init0 s)) as [GD SD].
  destruct (parse_expr rs F (status_init s) y) as [[st ts]|er| |].
  - eexists. exact SD.
  - cbn in SD. destruct (e_priority er); [eexists; exact SD|]. destruct SD as (rest & SD & _). eexists. exact SD.
  - exfalso. exact (GD A).
  - congruence.
Qed.

Lemma accepted_derives : forall rs fuel s d t, sane_rules rs -> parse_with_debug fuel s rs d = Ok t -> derives (grammar_of rs) (RuleName main) s [t].
Proof.
  intros rs fuel s d t SR H. pose proof (parse_sound fuel s rs d SR) as P. rewrite H in P. destruct P as [_ P].
  destruct (peg_derives _ _ _ _ P _ _ eq_refl) as (w & E & D). rewrite app_nil_r in E. subst w. exact D.
Qed.

Lemma derives_matches : forall rs s ts, sane_rules rs -> well_formed (grammar_of rs) -> predictive_grammar (grammar_of rs) -> ascii s ->
  derives (grammar_of rs) (RuleName main) s ts -> peg_main rs s (PMatch ts []).
Proof.
  intros rs s ts SR WF (follow & FM & DM & PG) A D. unfold peg_main. rewrite <- (app_nil_r s).
  apply (derives_peg (grammar_of rs) follow PG (rule_full rs SR WF) _ _ _ D (fun o => o = None) []).
  - exact I.
  - rewrite app_nil_r. exact A.
  - split; [exact DM|]. intros o ->. exact FM.
  - reflexivity.
Qed.

Lemma predictive_parse : forall rs s d fuel t, sane_rules rs -> well_formed (grammar_of rs) -> predictive_grammar (grammar_of rs) -> ascii s ->
  depth_factor rs * (length s + 1) <= fuel -> parse_with_debug fuel s rs d = Ok t <-> derives (grammar_of rs) (RuleName main) s [t].
Proof.
  intros rs s d fuel t SR WF PG A B. split; [apply accepted_derives; exact SR|]. intro D.
  pose proof (derives_matches rs s [t] SR WF PG A D) as M. pose proof (parse_bound rs s d fuel WF B) as NF.
  destruct (proj2 (parse_accepts_iff s rs d SR A t) M) as [f2 H2].
  pose proof (parse_sound fuel s rs d SR) as H.
  destruct (parse_with_debug fuel s rs d) as [t'|er| |].
  - destruct H as [_ H]. pose proof (peg_det _ _ _ _ M _ H) as E. injection E as ->. reflexivity.
  - destruct H as [_ H]. exfalso. destruct (e_priority er).
    + destruct H as [H|(ts & rest & H & N)].
      * pose proof (peg_det _ _ _ _ M _ H). discriminate.
      * pose proof (peg_det _ _ _ _ M _ H) as E. injection E as _ <-. tauto.
    + destruct H as (rest & H & _). pose proof (peg_det _ _ _ _ M _ H). discriminate.
  - contradiction.
  - congruence.
Qed.

Lemma predictive_rejects : forall rs s d fuel, sane_rules rs -> well_formed (grammar_of rs) -> predictive_grammar (grammar_of rs) -> ascii s ->
  depth_factor rs * (length s + 1) <= fuel ->
  (exists er, parse_with_debug fuel s rs d = Err er) <-> ~ exists ts, derives (grammar_of rs) (RuleName main) s ts.
Proof.
  intros rs s d fuel SR WF PG A B. split.
  - intros [er H] [ts D]. pose proof (derives_matches rs s ts SR WF PG A D) as M.
    destruct (peg_main_shape _ _ _ _ M) as (e & kids & _ & -> & _).
    apply (proj2 (predictive_parse rs s d fuel (Rule main kids) SR WF PG A B)) in D. congruence.
  - intro N. pose proof (parse_bound rs s d fuel WF B) as NF. pose proof (parse_no_panic fuel s rs d A) as NP.
    destruct (parse_with_debug fuel s rs d) as [t|er| |] eqn:H; [|exists er; reflexivity|congruence|congruence].
    exfalso. apply N. exists [t]. exact (accepted_derives rs fuel s d t SR H).
Qed.

Lemma predictive_unambiguous : forall rs s ts us, sane_rules rs -> well_formed (grammar_of rs) -> predictive_grammar (grammar_of rs) -> ascii s ->
  derives (grammar_of rs) (RuleName main) s ts -> derives (grammar_of rs) (RuleName main) s us -> ts = us.
Proof.
  intros rs s ts us SR WF PG A D1 D2.
  pose proof (peg_det _ _ _ _ (derives_matches rs s ts SR WF PG A D1) _ (derives_matches rs s us SR WF PG A D2)) as E.
  injection E as ->. reflexivity.
Qed.

(* ------------------------------------------------------------------------------------------- *)
(** * The order of the alternatives *)

Lemma reordered_ind' : forall P : expr -> expr -> Prop,
  (forall e, P e e) ->
  (forall es es', Forall2 (fun a b => reordered a b /\ P a b) es es' -> P (And es) (And es')) ->
  (forall es es1 es', Permutation es es1 -> Forall2 (fun a b => reordered a b /\ P a b) es1 es' -> P (Or es) (Or es')) ->
  (forall e e', reordered e e' -> P e e' -> P (Not e) (Not e')) ->
  (forall e e' mn mx, reordered e e' -> P e e' -> P (Repeat e mn mx) (Repeat e' mn mx)) ->
  forall e e', reordered e e' -> P e e'.
Proof.
  intros P H1 H2 H3 H4 H5. fix IH 3. intros e e' [x|es es' F|es es1 es' PM F|x x' R|x x' mn mx R].
  - apply H1.
  - apply H2. induction F as [|a b l l' R F IHF]; constructor; [split; [exact R|exact (IH _ _ R)]|exact IHF].
  - apply (H3 es es1 es' PM). clear PM. induction F as [|a b l l' R F IHF]; constructor; [split; [exact R|exact (IH _ _ R)]|exact IHF].
  - apply H4; [exact R|exact (IH _ _ R)].
  - apply H5; [exact R|exact (IH _ _ R)].
Qed.

Lemma reordered_sym : forall e e', reordered e e' -> reordered e' e.
Proof.
  apply reordered_ind'; intros.
  - apply ro_same.
  - apply ro_and. induction H as [|a b l l' [_ R] F IHF]; constructor; assumption.
  - assert (F : Forall2 reordered es' es1) by (clear H; induction H0 as [|a b l l' [_ R] F IHF]; constructor; assumption).
    destruct (Permutation_Forall2 (Permutation_sym H) (ltac:(clear H H0; induction F; constructor; eassumption) : Forall2 (fun a b => reordered b a) es1 es')) as (l & L1 & L2).
    eapply ro_or; [exact L1|]. clear - L2. induction L2; constructor; assumption.
  - apply ro_not. assumption.
  - apply ro_rep. assumption.
Qed.

Lemma reordered_grammar_sym : forall G G', reordered_grammar G G' -> reordered_grammar G' G.
Proof.
  intros G G' H n. specialize (H n). destruct (G n), (G' n); try exact H; try exact I. apply reordered_sym. exact H.
Qed.

Lemma derives_reordered : forall G G', reordered_grammar G G' -> forall e w ts, derives G e w ts -> forall e', reordered e e' -> derives G' e' w ts.
Proof.
  intros G G' RG e w ts D. induction D; intros x R; inversion R; subst; try (constructor; auto; fail).
  - match goal with F : Forall2 _ [] _ |- _ => inversion F; subst end. constructor.
  - eapply d_and_cons; [apply IHD1, ro_same|apply IHD2, ro_same].
  - match goal with H : Forall2 _ (_ :: _) _ |- _ => inversion H; subst end.
    eapply d_and_cons; [apply IHD1; assumption|apply IHD2, ro_and; assumption].
  - eapply d_or; [eassumption|]. apply IHD, ro_same.
  - match goal with P : Permutation _ _, F : Forall2 _ _ _ |- _ =>
      apply (Permutation_in _ P) in H; clear - H F IHD; induction F as [|a b l l' R F IHF] end; [contradiction|].
    destruct H as [->|H].
    + eapply d_or; [left; reflexivity|]. apply IHD. exact R.
    + pose proof (IHF H) as Q. inversion Q; subst. eapply d_or; [right; eassumption|assumption].
  - apply d_rep_more; [assumption|apply IHD1, ro_same|apply IHD2, ro_same].
  - apply d_rep_more; [assumption|apply IHD1; assumption|apply IHD2, ro_rep; assumption].
  - pose proof (RG n) as Q. rewrite H in Q. destruct (G' n) as [e2|] eqn:E; [|contradiction].
    eapply d_rule; [exact E|]. apply IHD. exact Q.
Qed.

Lemma order_is_irrelevant : forall rs rs', sane_rules rs -> sane_rules rs' -> well_formed (grammar_of rs) -> well_formed (grammar_of rs') ->
  predictive_grammar (grammar_of rs) -> predictive_grammar (grammar_of rs') -> reordered_grammar (grammar_of rs) (grammar_of rs') ->
  forall s, ascii s -> forall t, (exists fuel, parse fuel s rs = Ok t) <-> (exists fuel, parse fuel s rs' = Ok t).
Proof.
  intros rs rs' SR SR' WF WF' PG PG' RG s A t.
  assert (K : forall rs rs', sane_rules rs -> sane_rules rs' -> well_formed (grammar_of rs') -> predictive_grammar (grammar_of rs') ->
    reordered_grammar (grammar_of rs) (grammar_of rs') -> (exists fuel, parse fuel s rs = Ok t) -> exists fuel, parse fuel s rs' = Ok t).
  { clear - A. intros rs rs' SR SR' WF' PG' RG [fuel H]. exists (depth_factor rs' * (length s + 1)).
    apply (predictive_parse rs' s false _ t SR' WF' PG' A (le_n _)). eapply derives_reordered; [exact RG| |apply ro_same].
    exact (accepted_derives rs fuel s false t SR H). }
  split; [apply (K rs rs')|apply (K rs' rs)]; try assumption. apply reordered_grammar_sym. exact RG.
Qed.

(** ** Reordering keeps a grammar sane, well-formed and predictive *)

Lemma sane_reordered : forall e e', reordered e e' -> sane e -> sane e'.
Proof.
  apply (reordered_ind' (fun e e' => sane e -> sane e')); auto.
  - intros es es' F S. cbn in *. induction F as [|a b l l' [_ R] F IHF]; cbn in *; [exact I|]. tauto.
  - intros es es1 es' PM F S. assert (S1 : fold_right (fun x P => sane x /\ P) True es1).
    { clear F. cbn in S. induction PM; cbn in *; tauto. }
    clear S PM. cbn. induction F as [|a b l l' [_ R] F IHF]; cbn in *; [exact I|]. tauto.
  - intros e e' mn mx R IH S. cbn in *. tauto.
Qed.

Lemma forall2_in_r : forall (A B : Type) (R : A -> B -> Prop) l l', Forall2 R l l' -> forall y, In y l' -> exists x, In x l /\ R x y.
Proof.
  intros A B R l l' F. induction F as [|a b l l' H F IH]; intros y I; [contradiction|]. destruct I as [<-|I].
  - exists a. split; [left; reflexivity|exact H].
  - destruct (IH y I) as (x & I2 & Q). exists x. split; [right; exact I2|exact Q].
Qed.

Lemma forall2_in_l : forall (A B : Type) (R : A -> B -> Prop) l l', Forall2 R l l' -> forall x, In x l -> exists y, In y l' /\ R x y.
Proof.
  intros A B R l l' F. induction F as [|a b l l' H F IH]; intros x I; [contradiction|]. destruct I as [<-|I].
  - exists b. split; [left; reflexivity|exact H].
  - destruct (IH x I) as (y & I2 & Q). exists y. split; [right; exact I2|exact Q].
Qed.

Lemma forall2_len : forall (A B : Type) (R : A -> B -> Prop) l l', Forall2 R l l' -> length l = length l'.
Proof. intros A B R l l' F. induction F; cbn; congruence. Qed.

Lemma reordered_or_in : forall es es', reordered (Or es) (Or es') -> forall x, In x es -> exists y, In y es' /\ reordered x y.
Proof.
  intros es es' R x I. inversion R; subst; [exists x; split; [exact I|apply ro_same]|].
  match goal with PM : Permutation _ _ |- _ => apply (Permutation_in _ PM) in I end. eapply forall2_in_l; eassumption.
Qed.

Lemma empty_reordered_wf : forall G G', reordered_grammar G G' -> forall e, may_be_empty G e -> forall e', reordered e e' -> may_be_empty G' e'.
Proof.
  intros G G' RG e M. induction M; intros x R.
  - inversion R; subst. constructor.
  - inversion R; subst. constructor.
  - inversion R; subst; [constructor|]. match goal with F : Forall2 _ [] _ |- _ => inversion F; subst end. constructor.
  - inversion R; subst; [apply me_and_cons; [apply IHM1, ro_same|apply IHM2, ro_same]|].
    match goal with F : Forall2 _ (_ :: _) _ |- _ => inversion F; subst end. apply me_and_cons; [apply IHM1; assumption|apply IHM2, ro_and; assumption].
  - assert (Q : exists es', x = Or es') by (inversion R; subst; eexists; reflexivity). destruct Q as [es' ->].
    destruct (reordered_or_in _ _ R e H) as (y & I & Q). exact (me_or G' y es' I (IHM y Q)).
  - inversion R; subst; constructor.
  - inversion R; subst; constructor.
  - inversion R; subst; apply me_rep; apply IHM; [apply ro_same|assumption].
  - inversion R; subst. pose proof (RG n) as Q. rewrite H in Q. destruct (G' n) as [e2|] eqn:E; [|contradiction]. exact (me_rule G' n e2 E (IHM _ Q)).
Qed.

Lemma calls_reordered : forall G G', reordered_grammar G G' -> forall e n, calls_first G e n -> forall e', reordered e e' -> calls_first G' e' n.
Proof.
  intros G G' RG e n C. induction C; intros x R.
  - inversion R; subst. constructor.
  - inversion R; subst; [apply cf_and_here, IHC, ro_same|]. match goal with F : Forall2 _ (_ :: _) _ |- _ => inversion F; subst end. apply cf_and_here, IHC. assumption.
  - inversion R; subst; [apply cf_and_next; [eapply empty_reordered_wf; [exact RG|eassumption|apply ro_same]|apply IHC, ro_same]|].
    match goal with F : Forall2 _ (_ :: _) _ |- _ => inversion F; subst end.
    apply cf_and_next; [eapply empty_reordered_wf; eassumption|apply IHC, ro_and; assumption].
  - assert (Q : exists es', x = Or es') by (inversion R; subst; eexists; reflexivity). destruct Q as [es' ->].
    destruct (reordered_or_in _ _ R e H) as (y & I & Q). exact (cf_or G' y es' n I (IHC y Q)).
  - inversion R; subst; apply cf_not, IHC; [apply ro_same|assumption].
  - inversion R; subst; apply cf_rep, IHC; [apply ro_same|assumption].
Qed.

Lemma occurs_reordered : forall x e, occurs x e -> forall e', reordered e e' -> exists x', occurs x' e' /\ reordered x x'.
Proof.
  intros x e O. induction O as [|e es I O IH|e es I O IH|e O IH|e mn mx O IH]; intros e' R.
  - exists e'. split; [apply oc_here|exact R].
  - assert (Q : exists es', e' = And es') by (inversion R; subst; eexists; reflexivity). destruct Q as [es' ->].
    assert (K : exists y, In y es' /\ reordered e y) by (inversion R; subst; [exists e; split; [exact I|apply ro_same]|eapply forall2_in_l; eassumption]).
    destruct K as (y & I2 & Q). destruct (IH y Q) as (x' & O2 & R2). exists x'. split; [eapply oc_and; eassumption|exact R2].
  - assert (Q : exists es', e' = Or es') by (inversion R; subst; eexists; reflexivity). destruct Q as [es' ->].
    destruct (reordered_or_in _ _ R e I) as (y & I2 & Q). destruct (IH y Q) as (x' & O2 & R2). exists x'. split; [eapply oc_or; eassumption|exact R2].
  - inversion R; subst.
    + destruct (IH e (ro_same e)) as (x' & O2 & R2). exists x'. split; [apply oc_not; exact O2|exact R2].
    + match goal with Q : reordered e _ |- _ => destruct (IH _ Q) as (x' & O2 & R2) end. exists x'. split; [apply oc_not; exact O2|exact R2].
  - inversion R; subst.
    + destruct (IH e (ro_same e)) as (x' & O2 & R2). exists x'. split; [apply oc_rep; exact O2|exact R2].
    + match goal with Q : reordered e _ |- _ => destruct (IH _ Q) as (x' & O2 & R2) end. exists x'. split; [apply oc_rep; exact O2|exact R2].
Qed.

Lemma reordered_there : forall G G' n e', reordered_grammar G G' -> G' n = Some e' -> exists e, G n = Some e /\ reordered e e'.
Proof. intros G G' n e' RG E. specialize (RG n). rewrite E in RG. destruct (G n) as [e|]; [|contradiction]. exists e. split; [reflexivity|exact RG]. Qed.

Lemma wf_reordered : forall G G', reordered_grammar G G' -> well_formed G -> well_formed G'.
Proof.
  intros G G' RG [NLR NEL]. pose proof (reordered_grammar_sym _ _ RG) as GR. split.
  - intros n C. apply (NLR n). assert (K : forall a b, clos_trans str (rule_calls G') a b -> clos_trans str (rule_calls G) a b).
    { intros a b T. induction T as [a b [D (e & E & F)]|a b c T1 IH1 T2 IH2]; [|eapply t_trans; eassumption]. apply t_step. split.
      - pose proof (RG b) as Q. intro X. rewrite X in Q. destruct (G' b); [contradiction|congruence].
      - destruct (reordered_there _ _ _ _ RG E) as (e0 & E0 & R). exists e0. split; [exact E0|].
        eapply calls_reordered; [exact GR|exact F|apply reordered_sym; exact R]. }
    exact (K n n C).
  - intros n e x mn mx E O U M. destruct (reordered_there _ _ _ _ RG E) as (e0 & E0 & R).
    destruct (occurs_reordered _ _ O e0 (reordered_sym _ _ R)) as (y & O2 & R2).
    assert (K : exists x', y = Repeat x' mn mx /\ reordered x x') by (inversion R2; subst; [exists x; split; [reflexivity|apply ro_same]|eexists; split; [reflexivity|assumption]]).
    destruct K as (x' & -> & R3). apply (NEL n e0 x' mn mx E0 O2 U). eapply empty_reordered_wf; eassumption.
Qed.

Lemma starts_reordered : forall G G', reordered_grammar G G' -> forall e e' c, reordered e e' -> starts G e c -> starts G' e' c.
Proof. intros G G' RG e e' c R (w & ts & D). exists w, ts. eapply derives_reordered; eassumption. Qed.

Lemma empty_reordered : forall G G', reordered_grammar G G' -> forall e e', reordered e e' -> empty G e -> empty G' e'.
Proof. intros G G' RG e e' R (ts & D). exists ts. eapply derives_reordered; eassumption. Qed.

Definition solid (G : str -> option expr) (e : expr) : Prop := forall es x, occurs (Or es) e -> 2 <= length es -> In x es -> ~ empty G x.

(** Alternatives pairwise start differently. *)
Definition differ (G : str -> option expr) (l : list expr) : Prop := ForallOrdPairs (fun x y => forall c, starts G x c -> ~ starts G y c) l.

Lemma differ_perm : forall G l l', Permutation l l' -> differ G l -> differ G l'.
Proof.
  intros G l l' PM. induction PM as [|x l l' PM IH|x y l|l1 l2 l3 P1 IH1 P2 IH2]; intro D.
  - constructor.
  - inversion D; subst. constructor; [eapply Permutation_Forall; eassumption|apply IH; assumption].
  - inversion D as [|a b F1 D1]; subst. inversion D1 as [|a b F2 D2]; subst. inversion F1 as [|a b H1 H2]; subst.
    constructor; [constructor; [intros c Sx Sy; exact (H1 c Sy Sx)|exact F2]|]. constructor; assumption.
  - auto.
Qed.

Lemma or_pred_split : forall G follow F l, (2 <= length l -> forall x, In x l -> ~ empty G x) ->
  predictive G follow (Or l) F -> Forall (fun x => predictive G follow x F) l /\ differ G l.
Proof.
  intros G follow F l. induction l as [|x r IH]; intros NE P; [split; constructor|]. destruct P as (P1 & P2 & P3 & P4).
  destruct IH as [A B]; [intros L y I; apply NE; [cbn; lia|right; exact I]|exact P4|]. split; [constructor; assumption|]. constructor; [|exact B].
  apply Forall_forall. intros y I c Sx (w & ts & D). apply (P3 c Sx). left. exists c. split; [reflexivity|]. exists w, ts. eapply d_or; eassumption.
Qed.

Lemma or_pred_join : forall G follow F l, (2 <= length l -> forall x, In x l -> ~ empty G x) ->
  Forall (fun x => predictive G follow x F) l -> differ G l -> predictive G follow (Or l) F.
Proof.
  intros G follow F l. induction l as [|x r IH]; intros NE A B; [exact I|]. inversion A; subst. inversion B as [|a b F1 D1]; subst.
  split; [assumption|]. split; [intro NR; apply NE; [destruct r; [congruence|cbn; lia]|left; reflexivity]|]. split.
  - intros c Sx [(d & Ed & (w & ts & D))|[(ts & D) _]].
    + injection Ed as <-. inversion D; subst. match goal with I : In ?y r |- _ => apply (proj1 (Forall_forall _ _) F1 y I c Sx) end. eexists _, _. eassumption.
    + inversion D; subst. match goal with I : In ?y r |- _ => apply (NE ltac:(destruct r; [contradiction|cbn; lia]) y (or_intror I)) end. eexists. eassumption.
  - apply IH; [|assumption|assumption]. intros L y I. apply NE; [cbn; lia|right; exact I].
Qed.

Lemma differ_moved : forall G G' l l', reordered_grammar G G' -> Forall2 reordered l l' -> differ G l -> differ G' l'.
Proof.
  intros G G' l l' RG F D. pose proof (reordered_grammar_sym _ _ RG) as GR. induction F as [|a b l l' R F IH]; [constructor|].
  inversion D as [|u v F1 D1]; subst. constructor; [|apply IH; exact D1]. apply Forall_forall. intros y I c Sb Sy.
  destruct (forall2_in_r _ _ _ _ _ F y I) as (x & I2 & R2). apply (proj1 (Forall_forall _ _) F1 x I2 c).
  - eapply starts_reordered; [exact GR|apply reordered_sym; exact R|exact Sb].
  - eapply starts_reordered; [exact GR|apply reordered_sym; exact R2|exact Sy].
Qed.

Lemma forall2_refl : forall l, Forall2 reordered l l.
Proof. induction l; constructor; [apply ro_same|assumption]. Qed.

Fixpoint esize (e : expr) : nat :=
  match e with
  | Simple _ | RuleName _ => 1
  | And es | Or es => 1 + fold_right (fun x n => esize x + n) 0 es
  | Not x | Repeat x _ _ => 1 + esize x
  end.

Lemma pred_moved : forall G G' follow, reordered_grammar G G' -> forall k e e' F, esize e <= k -> reordered e e' -> solid G e ->
  predictive G follow e F -> predictive G' follow e' F.
Proof.
  intros G G' follow RG. pose proof (reordered_grammar_sym _ _ RG) as GR.
  induction k as [|k IH]; intros e e' F LE R SO P; [destruct e; cbn in LE; lia|].
  assert (AND : forall l l', (forall x, In x l -> esize x <= k) -> (forall x, In x l -> solid G x) -> Forall2 reordered l l' ->
    predictive G follow (And l) F -> predictive G' follow (And l') F).
  { intros l l' HL HS F2. induction F2 as [|a b l l' Rab F2 IHF]; intro Q; [exact I|]. destruct Q as [Q1 Q2].
    split; [|apply IHF; [intros x I; apply HL; right; exact I|intros x I; apply HS; right; exact I|exact Q2]].
    assert (B : predictive G' follow b (before_ G (And l) F)) by (apply (IH a b); [apply HL; left; reflexivity|exact Rab|apply HS; left; reflexivity|exact Q1]).
    refine (predictive_weaken G' follow _ _ _ _ B). intros o [(c & -> & Sx)|[E X]].
    - left. exists c. split; [reflexivity|]. eapply starts_reordered; [exact GR| |exact Sx]. apply reordered_sym, ro_and. exact F2.
    - right. split; [|exact X]. eapply empty_reordered; [exact GR| |exact E]. apply reordered_sym, ro_and. exact F2. }
  assert (OR : forall l l1 l', (forall x, In x l -> esize x <= k) -> solid G (Or l) -> Permutation l l1 -> Forall2 reordered l1 l' ->
    predictive G follow (Or l) F -> predictive G' follow (Or l') F).
  { intros l l1 l' HL HS PM F2 Q.
    assert (HN : 2 <= length l -> forall x, In x l -> ~ empty G x) by (intros L x I; exact (HS l x (oc_here _) L I)).
    destruct (or_pred_split G follow F l HN Q) as [A B]. apply or_pred_join.
    - intros L y I Ey. destruct (forall2_in_r _ _ _ _ _ F2 y I) as (x & I2 & Rxy).
      apply (HN ltac:(rewrite (Permutation_length PM), (forall2_len _ _ _ _ _ F2); exact L) x (Permutation_in _ (Permutation_sym PM) I2)).
      eapply empty_reordered; [exact GR|apply reordered_sym; exact Rxy|exact Ey].
    - apply Forall_forall. intros y I. destruct (forall2_in_r _ _ _ _ _ F2 y I) as (x & I2 & Rxy).
      pose proof (Permutation_in _ (Permutation_sym PM) I2) as I3. apply (IH x y); [exact (HL x I3)|exact Rxy| |exact (proj1 (Forall_forall _ _) A x I3)].
      intros es z O. apply HS. eapply oc_or; eassumption.
    - eapply differ_moved; [exact RG|exact F2|]. eapply differ_perm; eassumption. }
  assert (REP : forall x x' mn mx, esize x <= k -> solid G x -> reordered x x' -> predictive G follow (Repeat x mn mx) F -> predictive G' follow (Repeat x' mn mx) F).
  { intros x x' mn mx HL HS Rx (Q1 & Q2 & Q3). split; [|split].
    - refine (predictive_weaken G' follow _ _ _ _ (IH x x' _ HL Rx HS Q1)). intros o [(RM & c & -> & Sx)|X]; [left; split; [exact RM|]|right; exact X].
      exists c. split; [reflexivity|]. eapply starts_reordered; [exact GR|apply reordered_sym; exact Rx|exact Sx].
    - intro E. apply Q2. eapply empty_reordered; [exact GR|apply reordered_sym; exact Rx|exact E].
    - intros c Sx. apply Q3. eapply starts_reordered; [exact GR|apply reordered_sym; exact Rx|exact Sx]. }
  assert (SZ : forall l x, In x l -> esize x <= fold_right (fun x n => esize x + n) 0 l).
  { induction l as [|y l IHl]; intros x I; [contradiction|]. destruct I as [->|I]; cbn; [lia|]. specialize (IHl x I). lia. }
  destruct e as [a|es|es|x|x mn mx|n].
  - inversion R; subst. destruct a; exact P.
  - assert (K : exists es', e' = And es' /\ Forall2 reordered es es') by (inversion R; subst; eexists; split; try reflexivity; [apply forall2_refl|assumption]).
    destruct K as (es' & -> & F2). apply (AND es es'); [|intros x I es1 z O; apply SO; eapply oc_and; eassumption|exact F2|exact P].
    intros x I. cbn in LE. specialize (SZ es x I). lia.
  - assert (K : exists es1 es', e' = Or es' /\ Permutation es es1 /\ Forall2 reordered es1 es')
      by (inversion R; subst; eexists _, _; (split; [reflexivity|]); [split; [apply Permutation_refl|apply forall2_refl]|split; eassumption]).
    destruct K as (es1 & es' & -> & PM & F2). apply (OR es es1 es'); [|exact SO|exact PM|exact F2|exact P].
    intros x I. cbn in LE. specialize (SZ es x I). lia.
  - contradiction.
  - cbn in LE. assert (SX : solid G x) by (intros es1 z O; apply SO; apply oc_rep; exact O).
    inversion R; subst; apply (REP x); try assumption; try lia. apply ro_same.
  - inversion R; subst. destruct P as [P1 P2]. split; [|exact P2]. intro X. apply P1. pose proof (RG n) as Q. rewrite X in Q. destruct (G n); [contradiction|reflexivity].
Qed.

Lemma predictive_reordered : forall G G', reordered_grammar G G' -> solid_choices G -> predictive_grammar G -> predictive_grammar G'.
Proof.
  intros G G' RG SO (follow & F & DM & PG). exists follow. split; [exact F|]. split.
  - intro X. apply DM. pose proof (RG main) as Q. rewrite X in Q. destruct (G main); [contradiction|reflexivity].
  - intros n e' E. destruct (reordered_there _ _ _ _ RG E) as (e & E0 & R).
    apply (pred_moved G G' follow RG (esize e) e e' _ (le_n _) R); [intros es x O; exact (SO n e es x E0 O)|apply PG; exact E0].
Qed.

Lemma reordering_is_harmless : forall rs rs', sane_rules rs -> well_formed (grammar_of rs) -> predictive_grammar (grammar_of rs) ->
  solid_choices (grammar_of rs) -> reordered_grammar (grammar_of rs) (grammar_of rs') ->
  forall s, ascii s -> forall t, (exists fuel, parse fuel s rs = Ok t) <-> (exists fuel, parse fuel s rs' = Ok t).
Proof.
  intros rs rs' SR WF PG SO RG. apply order_is_irrelevant; try assumption.
  - intros n e' E. destruct (reordered_there _ _ _ _ RG E) as (e & E0 & R). exact (sane_reordered e e' R (SR n e E0)).
  - exact (wf_reordered _ _ RG WF).
  - exact (predictive_reordered _ _ RG SO PG).
Qed.

(* ------------------------------------------------------------------------------------------- *)
(** * Checking that a grammar is predictive, given tables for its rules *)

Definition rng : Type := char * option char.
Definition in_rng (r : rng) (c : char) : Prop := (fst r <= c)%N /\ match snd r with Some h => (c <= h)%N | None => True end.
Definition in_rngs (l : list rng) (c : char) : Prop := exists r, In r l /\ in_rng r c.

(** Can it be empty, what it can start with, what can follow it, can the end follow it. *)
Record info : Type := Info { i_nul : bool; i_first : list rng; i_next : list rng; i_end : bool }.

Section Check.
Variable rs : rules.
Variable T : str -> info.
Notation G := (rules_get rs).

Fixpoint nul (e : expr) : bool :=
  match e with
  | Simple (Literal l) => match l with [] => true | _ => false end
  | Simple AEOF => true
  | Simple _ => false
  | And es => forallb nul es
  | Or es => existsb nul es
  | Not _ => true
  | Repeat x mn _ => (mn =? 0) || nul x
  | RuleName n => i_nul (T n)
  end.

Fixpoint first (e : expr) : list rng :=
  match e with
  | Simple (Literal l) => match l with [] => [] | c :: _ => [(c, Some c)] end
  | Simple (Match cs rg) => map (fun c => (c, Some c)) cs ++ map (fun p => (fst p, Some (snd p))) rg
  | Simple Dot => [(0%N, None)]
  | Simple _ => []
  | And es => (fix go l := match l with [] => [] | x :: r => first x ++ (if nul x then go r else []) end) es
  | Or es => flat_map first es
  | Not _ => []
  | Repeat x _ _ => first x
  | RuleName n => i_first (T n)
  end.

Definition sub_rng (a b : rng) : bool :=
  ((fst b <=? fst a) && match snd b with None => true | Some h => match snd a with None => false | Some k => k <=? h end end)%N.
Definition covers (l : list rng) (l' : list rng) : bool := forallb (fun a => existsb (fun b => sub_rng a b) l) l'.
Definition apart (a b : rng) : bool :=
  (match snd a with Some h => h <? fst b | None => false end || match snd b with Some h => h <? fst a | None => false end)%N.
Definition disjoint (l l' : list rng) : bool := forallb (fun a => forallb (fun b => apart a b) l') l.

Lemma covers_ok : forall l l' c, covers l l' = true -> in_rngs l' c -> in_rngs l c.
Proof.
  intros l l' c H (r & I & K). unfold covers in H. rewrite forallb_forall in H. specialize (H r I). apply existsb_exists in H.
  destruct H as (b & Ib & S). exists b. split; [exact Ib|]. unfold sub_rng, in_rng in *. destruct r as [lo [hi|]], b as [lo' [hi'|]]; cbn in *;
  rewrite ?andb_true_iff, ?N.leb_le in S; destruct S; try discriminate; destruct K; split; try exact I0; try lia; try exact Logic.I.
Qed.

Lemma disjoint_ok : forall l l' c, disjoint l l' = true -> in_rngs l c -> in_rngs l' c -> False.
Proof.
  intros l l' c H (a & Ia & Ka) (b & Ib & Kb). unfold disjoint in H. rewrite forallb_forall in H. specialize (H a Ia).
  rewrite forallb_forall in H. specialize (H b Ib). unfold apart, in_rng in *. destruct a as [lo [hi|]], b as [lo' [hi'|]]; cbn in *;
  rewrite ?orb_true_iff, ?N.ltb_lt in H; repeat (match goal with H : _ \/ _ |- _ => destruct H end); try discriminate; lia.
Qed.

Lemma in_rngs_app : forall l l' c, in_rngs (l ++ l') c <-> in_rngs l c \/ in_rngs l' c.
Proof.
  intros l l' c. split.
  - intros (r & I & K). apply in_app_or in I. destruct I; [left|right]; exists r; auto.
  - intros [(r & I & K)|(r & I & K)]; exists r; split; auto; apply in_or_app; auto.
Qed.

Hypothesis closed : forall n e, G n = Some e -> (nul e = true -> i_nul (T n) = true) /\ covers (i_first (T n)) (first e) = true.

Lemma nul_first : forall e w ts, derives G e w ts -> match w with [] => nul e = true | c :: _ => in_rngs (first e) c end.
Proof.
  intros e w ts D. induction D; cbn [nul first].
  - destruct l as [|c l]; [reflexivity|]. exists (c, Some c). split; [left; reflexivity|]. split; cbn; lia.
  - apply in_rngs_app. destruct H as [H|(lo & hi & H & B)]; [left; exists (c, Some c)|right; exists (lo, Some hi)].
    + split; [exact (in_map (fun c => (c, Some c)) _ _ H)|split; cbn; lia].
    + split; [exact (in_map (fun p : char * char => (fst p, Some (snd p))) _ _ H)|split; cbn; lia].
  - exists (0%N, None). split; [left; reflexivity|split; cbn; [lia|exact I]].
  - reflexivity.
  - reflexivity.
  - destruct w as [|c w]; cbn [app].
    + destruct v as [|c v].
      * cbn [forallb]. cbn [nul] in IHD2. rewrite IHD1, IHD2. reflexivity.
      * apply in_rngs_app. right. rewrite IHD1. exact IHD2.
    + apply in_rngs_app. left. exact IHD1.
  - destruct w as [|c w].
    + apply existsb_exists. exists e. split; assumption.
    + destruct IHD as (r & I & K). exists r. split; [|exact K]. apply in_flat_map. exists e. split; assumption.
  - reflexivity.
  - reflexivity.
  - destruct w as [|c w]; cbn [app].
    + destruct v as [|c v]; [rewrite IHD1; apply orb_true_r|exact IHD2].
    + exact IHD1.
  - destruct (closed n e H) as [C1 C2]. destruct w as [|c w]; [exact (C1 IHD)|]. eapply covers_ok; eassumption.
Qed.

Lemma nul_ok : forall e, empty G e -> nul e = true.
Proof. intros e [ts D]. exact (nul_first _ _ _ D). Qed.

Lemma first_ok : forall e c, starts G e c -> in_rngs (first e) c.
Proof. intros e c (w & ts & D). exact (nul_first _ _ _ D). Qed.

(** Chars, and whether the end is possible. *)
Definition nx : Type := list rng * bool.
Definition den (F : nx) : nexts := fun o => match o with Some c => in_rngs (fst F) c | None => snd F = true end.
Definition bef (e : expr) (F : nx) : nx := (first e ++ (if nul e then fst F else []), nul e && snd F).

Definition repeatsb (mx : option nat) : bool := match mx with Some m => 1 <? m | None => true end.

Fixpoint pred_check (e : expr) (F : nx) : bool :=
  match e with
  | Simple (AError _) => false
  | Simple AEOF => match fst F with [] => true | _ => false end
  | Simple _ => true
  | And es => (fix go l := match l with [] => true | x :: r => pred_check x (bef (And r) F) && go r end) es
  | Or es => (fix go l := match l with
                | [] => true
                | x :: r => pred_check x F && (match r with [] => true | _ => negb (nul x) end) && disjoint (first x) (fst (bef (Or r) F)) && go r
                end) es
  | Not _ => false
  | Repeat x _ mx => pred_check x ((if repeatsb mx then first x else []) ++ fst F, snd F) && negb (nul x) && disjoint (first x) (fst F)
  | RuleName n => match G n with None => false | Some _ => covers (i_next (T n)) (fst F) && implb (snd F) (i_end (T n)) end
  end.

Definition follow_of (n : str) : nexts := den (i_next (T n), i_end (T n)).

Lemma bef_ok : forall e F (P : nexts), (forall o, P o -> den F o) -> forall o, before_ G e P o -> den (bef e F) o.
Proof.
  intros e F P H o [(c & -> & S)|[E Q]].
  - cbn. apply in_rngs_app. left. apply first_ok. exact S.
  - specialize (H o Q). unfold bef. rewrite (nul_ok e E). destruct o as [c|]; cbn in *; [apply in_rngs_app; right; exact H|exact H].
Qed.

Lemma pred_check_ok : forall e F (P : nexts), pred_check e F = true -> (forall o, P o -> den F o) -> predictive G follow_of e P.
Proof.
  induction e as [a|es IH|es IH|x IH|x mn mx IH|n] using expr_ind'; intros F P C H.
  - destruct a; try exact I; [discriminate|]. cbn in C. destruct F as [[|r l] b]; [|discriminate]. intros [c|] Q; [|reflexivity].
    destruct (H _ Q) as (r & [] & _).
  - induction es as [|x r IHr]; [exact I|]. cbn [pred_check] in C. apply andb_true_iff in C. destruct C as [C1 C2].
    inversion IH as [|y1 y2 H1 H2]; subst. split; [|exact (IHr H2 C2)]. apply (H1 _ _ C1). apply bef_ok. exact H.
  - induction es as [|x r IHr]; [exact I|]. cbn [pred_check] in C. rewrite !andb_true_iff in C. destruct C as [[[C1 C2] C3] C4].
    inversion IH as [|y1 y2 H1 H2]; subst. split; [exact (H1 _ _ C1 H)|]. split; [|split; [|exact (IHr H2 C4)]].
    + intros NR E. destruct r; [congruence|]. rewrite (nul_ok x E) in C2. discriminate.
    + intros c Sx Bc. exact (disjoint_ok _ _ c C3 (first_ok x c Sx) (bef_ok _ F P H _ Bc)).
  - discriminate.
  - cbn [pred_check] in C. rewrite !andb_true_iff in C. destruct C as [[C1 C2] C3]. split; [|split].
    + apply (IH _ _ C1). intros o [(RM & c & -> & Sx)|Q].
      * cbn. apply in_rngs_app. left.
        replace (repeatsb mx) with true by (symmetry; destruct mx as [m|]; [apply Nat.ltb_lt; exact RM|reflexivity]). apply first_ok. exact Sx.
      * specialize (H o Q). destruct o; cbn in *; [apply in_rngs_app; right; exact H|exact H].
    + intro E. rewrite (nul_ok x E) in C2. discriminate.
    + intros c Sx Q. exact (disjoint_ok _ _ c C3 (first_ok x c Sx) (H _ Q)).
  - cbn in C. cbn. destruct (G n) as [e|]; [|discriminate]. split; [discriminate|]. apply andb_true_iff in C. destruct C as [C1 C2].
    intros o Q. specialize (H o Q). destruct o as [c|]; cbn in *; [eapply covers_ok; eassumption|]. rewrite H in C2. exact C2.
Qed.

End Check.

(** The whole check: [tables] lists the information of each rule. *)
Fixpoint lookup (tables : list (str * info)) (n : str) : info :=
  match tables with
  | [] => Info false [] [] false
  | (k, i) :: r => if str_eqb k n then i else lookup r n
  end.

Definition predictive_check (tables : list (str * info)) (rs : rules) : bool :=
  let T := lookup tables in
  i_end (T main) && match rules_get rs main with Some _ => true | None => false end &&
  forallb (fun p => implb (nul T (snd p)) (i_nul (T (fst p))) && covers (i_first (T (fst p))) (first T (snd p)) &&
                    pred_check rs T (snd p) (i_next (T (fst p)), i_end (T (fst p)))) rs.

Lemma rules_get_in : forall (l : rules) n e, rules_get l n = Some e -> In (n, e) l.
Proof.
  induction l as [|[k x] l IH]; intros n e H; [discriminate|]. cbn in H. destruct (str_eqb k n) eqn:E.
  - injection H as ->. left. apply str_eqb_eq in E. subst. reflexivity.
  - right. apply IH. exact H.
Qed.

Lemma predictive_check_ok : forall tables rs, predictive_check tables rs = true -> predictive_grammar (grammar_of rs).
Proof.
  intros tables rs H. unfold predictive_check in H. rewrite !andb_true_iff, forallb_forall in H. destruct H as [[H1 H2] H3].
  assert (CL : forall n e, rules_get rs n = Some e -> (nul (lookup tables) e = true -> i_nul (lookup tables n) = true) /\
               covers (i_first (lookup tables n)) (first (lookup tables) e) = true).
  { intros n e E. specialize (H3 _ (rules_get_in _ _ _ E)). cbn [fst snd] in H3. rewrite !andb_true_iff in H3. destruct H3 as [[A B] _].
    split; [|exact B]. intro N. rewrite N in A. exact A. }
  exists (follow_of (lookup tables)). split; [exact H1|]. split; [intro E; unfold grammar_of in E; rewrite E in H2; discriminate|].
  intros n e E. specialize (H3 _ (rules_get_in _ _ _ E)). cbn [fst snd] in H3. rewrite !andb_true_iff in H3. destruct H3 as [_ C].
  apply (pred_check_ok rs (lookup tables) CL _ _ _ C). intros o Q. exact Q.
Qed.

(** The choices of the rules cannot be empty. *)
Fixpoint solid_expr (T : str -> info) (e : expr) : bool :=
  match e with
  | Simple _ | RuleName _ => true
  | And es => forallb (solid_expr T) es
  | Or es => forallb (solid_expr T) es && ((length es <? 2) || forallb (fun x => negb (nul T x)) es)
  | Not x | Repeat x _ _ => solid_expr T x
  end.

Definition solid_check (tables : list (str * info)) (rs : rules) : bool :=
  let T := lookup tables in
  forallb (fun p => implb (nul T (snd p)) (i_nul (T (fst p))) && covers (i_first (T (fst p))) (first T (snd p)) && solid_expr T (snd p)) rs.

Lemma solid_check_ok : forall tables rs, solid_check tables rs = true -> solid_choices (grammar_of rs).
Proof.
  intros tables rs H n e es x E O L I EX. unfold solid_check in H. rewrite forallb_forall in H.
  assert (CL : forall n e, rules_get rs n = Some e -> (nul (lookup tables) e = true -> i_nul (lookup tables n) = true) /\
               covers (i_first (lookup tables n)) (first (lookup tables) e) = true).
  { intros m e2 E2. specialize (H _ (rules_get_in _ _ _ E2)). cbn [fst snd] in H. rewrite !andb_true_iff in H. destruct H as [[A B] _].
    split; [|exact B]. intro N. rewrite N in A. exact A. }
  specialize (H _ (rules_get_in _ _ _ E)). cbn [fst snd] in H. rewrite !andb_true_iff in H. destruct H as [_ H].
  assert (K : forall y, occurs y e -> solid_expr (lookup tables) y = true).
  { clear - H. intros y O. induction O as [|e l I O IH|e l I O IH|e O IH|e mn mx O IH]; cbn [solid_expr] in H; auto.
    - rewrite forallb_forall in H. auto.
    - apply andb_true_iff in H. destruct H as [H _]. rewrite forallb_forall in H. auto. }
  specialize (K _ O). cbn [solid_expr] in K. apply andb_true_iff in K. destruct K as [_ K]. apply orb_true_iff in K. destruct K as [K|K].
  - apply Nat.ltb_lt in K. lia.
  - rewrite forallb_forall in K. specialize (K x I). rewrite (nul_ok rs (lookup tables) CL x EX) in K. discriminate.
Qed.

(* ------------------------------------------------------------------------------------------- *)
(** * Examples *)

(** Rule by rule. *)
Lemma reordered_rules : forall rs rs' : rules, Forall2 (fun p q => fst p = fst q /\ reordered (snd p) (snd q)) rs rs' ->
  reordered_grammar (grammar_of rs) (grammar_of rs').
Proof.
  intros rs rs' F n. unfold grammar_of. induction F as [|[k x] [k' x'] l l' [E R] F IH]; cbn in *; [exact I|].
  subst k'. destruct (str_eqb k n); [exact R|exact IH].
Qed.

(** [main = 'a' / 'ab'] and the other way round. *)
Lemma prefixes_hide : exists rs rs' s t, sane_rules rs /\ sane_rules rs' /\
  well_formed (grammar_of rs) /\ well_formed (grammar_of rs') /\ reordered_grammar (grammar_of rs) (grammar_of rs') /\ ascii s /\
  derives (grammar_of rs) (RuleName main) s [t] /\ (forall fuel t', parse fuel s rs <> Ok t') /\ exists fuel, parse fuel s rs' = Ok t.
Proof.
  exists (rules_macro [(main, Or [lit (s_ "a"); lit (s_ "ab")])]), (rules_macro [(main, Or [lit (s_ "ab"); lit (s_ "a")])]), (s_ "ab"),
    (Rule main [Val (s_ "ab")]).
  split; [apply sane_rules_all; repeat constructor|]. split; [apply sane_rules_all; repeat constructor|].
  split; [apply wf_check_sound; vm_compute; reflexivity|]. split; [apply wf_check_sound; vm_compute; reflexivity|].
  split; [apply reordered_rules; constructor; [|constructor]; split; [reflexivity|]; eapply ro_or; [apply perm_swap|]; repeat constructor|].
  split; [repeat constructor|]. split; [|split].
  - eapply d_rule; [reflexivity|]. eapply d_or; [right; left; reflexivity|]. apply d_lit.
  - intros fuel t' H. assert (K : parse 9 (s_ "ab") (rules_macro [(main, Or [lit (s_ "a"); lit (s_ "ab")])]) <> Fuel) by (vm_compute; discriminate).
    pose proof (parse_mono fuel (Nat.max fuel 9) (s_ "ab") (rules_macro [(main, Or [lit (s_ "a"); lit (s_ "ab")])]) ltac:(lia)) as M1.
    pose proof (parse_mono 9 (Nat.max fuel 9) (s_ "ab") (rules_macro [(main, Or [lit (s_ "a"); lit (s_ "ab")])]) ltac:(lia) K) as M2.
    rewrite M1 in M2 by (rewrite H; discriminate). rewrite H in M2. vm_compute in M2. discriminate.
  - exists 9. vm_compute. reflexivity.
Qed.
