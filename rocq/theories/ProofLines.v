(** Proofs: texts that are read line by line. *)
From Verif Require Import Base ModelAst ModelParser ModelCost SpecPeg SpecPos SpecApi SpecReport SpecHang SpecLook SpecStuck SpecPower SpecLines.
From Verif Require Import ProofAst ProofParser ProofEngine ProofApi PegTools ProofReport ProofRun ProofRunDet ProofPower ProofLook ProofStuck.

(** The report stands in the text. *)
Definition stands (s : str) (q : report) : Prop := exists p, s = p ++ r_rest q.
Definition stands_in (s : str) (r : eresult) : Prop :=
  match r with EMatch _ rest p _ => (exists p0, s = p0 ++ rest) /\ match p with Some q => stands s q | None => True end | EFail q | EAbort q => stands s q end.
Lemma stands_after : forall s0 s ts p t r, (exists p0, s = p0 ++ s0) -> match p with Some q => stands s q | None => True end -> stands_in s0 r -> stands_in s (after ts p t r).
Proof.
  intros s0 s ts p t r [a ->] Hp H. destruct r as [us rest p' t'|q|q]; cbn [after stands_in] in *.
  - destruct H as [[b ->] Hp']. split; [exists (a ++ b); apply app_assoc|]. destruct p' as [q|]; [|exact Hp]. destruct Hp' as [b' E]. exists (a ++ b').
    cbn [shift r_rest]. rewrite E. apply app_assoc.
  - destruct H as [b E]. exists (a ++ b). cbn [shift r_rest]. rewrite E. apply app_assoc.
  - destruct H as [b E]. exists (a ++ b). cbn [shift r_rest]. rewrite E. apply app_assoc.
Qed.
Lemma pege_stands : forall G,
  (forall e s r, pege G e s r -> stands_in s r) /\
  (forall es s o r, choice G es s o r -> match o with Some q => stands s q | None => True end -> stands_in s r).
Proof.
  intro G. apply pege_choice_ind; intros; cbn [stands_in]; try (exists []; reflexivity); try (split; [exists []; reflexivity|exact I]).
  - split; [exists l; reflexivity|exact I].
  - unfold stands. cbn [r_rest]. induction H as [c l|c l d s N|c l s rest H [x IH]]; [exists []; reflexivity|exists [d]; reflexivity|].
    exists (c :: x). cbn. rewrite IH. reflexivity.
  - split; [exists [c]; reflexivity|exact I].
  - exists [c]; reflexivity.
  - split; [exists [c]; reflexivity|exact I].
  - exists [c]; reflexivity.
  - destruct H0 as [H0 Hp]. eapply stands_after; eassumption.
  - exact H0.
  - apply H0. exact I.
  - destruct H1 as [H1 Hp]. eapply stands_after; eassumption.
  - split; [exists []; reflexivity|exact H1].
  - exact H2.
  - exact H1.
  - destruct r as [us rest p t|q|q]; cbn [within stands_in] in *; [|exact H1|exact H1]. destruct H1 as [H1 H2]. split; [exact H1|]. destruct p as [q|]; exact H2.
  - exact H.
  - exact H0.
  - apply H2. unfold further. destruct o as [p|]; [|exact H0]. destruct (_ <? _); assumption.
Qed.

Section Stop.
Variable G : str -> option expr.
Variable c : char.
Notation str_c := (stranger G c).

Lemma sg_sub : forall e x, (forall a, has_atom a x -> has_atom a e) -> (forall n, has_ref n x -> has_ref n e) -> str_c e -> str_c x.
Proof.
  intros e x HA HR S a U. apply S. inversion U as [x' a' H|n x' e' a' H E U']; subst; [apply us_here, HA, H|eapply us_rule; [apply HR, H|exact E|exact U']].
Qed.
Lemma sg_and : forall e es, str_c (And (e :: es)) -> str_c e.
Proof. intros e es. apply sg_sub; intros a H; econstructor; [left; reflexivity|exact H|left; reflexivity|exact H]. Qed.
Lemma sg_ands : forall e es, str_c (And (e :: es)) -> str_c (And es).
Proof. intros e es. apply sg_sub; intros a H; inversion H; subst; econstructor; [right; eassumption|assumption|right; eassumption|assumption]. Qed.
Lemma sg_or : forall e es, str_c (Or (e :: es)) -> str_c e.
Proof. intros e es. apply sg_sub; intros a H; econstructor; [left; reflexivity|exact H|left; reflexivity|exact H]. Qed.
Lemma sg_ors : forall e es, str_c (Or (e :: es)) -> str_c (Or es).
Proof. intros e es. apply sg_sub; intros a H; inversion H; subst; econstructor; [right; eassumption|assumption|right; eassumption|assumption]. Qed.
Lemma sg_not : forall e, str_c (Not e) -> str_c e.
Proof. intros e. apply sg_sub; intros a H; constructor; exact H. Qed.
Lemma sg_rep : forall e mn mx, str_c (Repeat e mn mx) -> str_c e.
Proof. intros e mn mx. apply sg_sub; intros a H; constructor; exact H. Qed.
Lemma sg_rep' : forall e mn mx mn' mx', str_c (Repeat e mn mx) -> str_c (Repeat e mn' mx').
Proof. intros e mn mx mn' mx'. apply sg_sub; intros a H; inversion H; subst; constructor; assumption. Qed.
Lemma sg_rule : forall n e, G n = Some e -> str_c (RuleName n) -> str_c e.
Proof. intros n e E S a U. apply S. eapply us_rule; [constructor|exact E|exact U]. Qed.
Lemma sg_atom : forall a, str_c (Simple a) -> ~ minds c a.
Proof. intros a S. apply S. apply us_here. constructor. Qed.

Variable t : str.
Notation x := (c :: t).

Lemma front_prefix : forall l s rest, ~ In c l -> s ++ x = l ++ rest -> exists m, s = l ++ m /\ rest = m ++ x.
Proof.
  induction l as [|d l IH]; intros s rest N E; [exists s; split; [reflexivity|symmetry; exact E]|].
  destruct s as [|b s]; cbn in E; injection E as -> E; [destruct N; left; reflexivity|].
  destruct (IH s rest (fun I => N (or_intror I)) E) as (m & -> & ->). exists m. split; reflexivity.
Qed.

Lemma put_prepend : forall ts r, put_before x (prepend ts r) = prepend ts (put_before x r).
Proof. intros ts [us rest| |m rest]; reflexivity. Qed.
Lemma put_wrap : forall n r, put_before x (wrap n r) = wrap n (put_before x r).
Proof. intros n [us rest| |m rest]; reflexivity. Qed.
Lemma put_stops : forall r, stops (put_before x r) <-> stops r.
Proof. intros [us rest| |m rest]; reflexivity. Qed.
Lemma put_fail : forall r, put_before x r = PFail <-> r = PFail.
Proof. intros [us rest| |m rest]; cbn; split; congruence. Qed.

Lemma stop_there : forall e s r, peg G e s r -> str_c e -> peg G e (s ++ x) (put_before x r).
Proof.
  induction 1; intro S; cbn [put_before].
  - rewrite <- app_assoc. apply peg_lit_ok.
  - apply peg_lit_fail. intros rest E. destruct (front_prefix l s rest (sg_atom _ S) E) as (m & X & _). exact (H m X).
  - apply peg_class_ok. exact H.
  - apply peg_class_fail. intros d rest E. destruct s as [|b s]; cbn in E; injection E as <- E; [exact (sg_atom _ S)|exact (H b s eq_refl)].
  - destruct (sg_atom _ S I).
  - destruct (sg_atom _ S I).
  - destruct (sg_atom _ S I).
  - destruct (sg_atom _ S I).
  - apply peg_error.
  - apply peg_and_nil.
  - rewrite put_prepend. eapply peg_and_cons; [apply IHpeg1, (sg_and _ _ S)|apply IHpeg2, (sg_ands _ _ S)].
  - apply peg_and_stop; [apply IHpeg, (sg_and _ _ S)|]. apply put_stops. assumption.
  - apply peg_or_nil.
  - apply peg_or_first; [apply IHpeg, (sg_or _ _ S)|]. intro X. apply H0. apply put_fail. exact X.
  - apply peg_or_next; [apply (IHpeg1 (sg_or _ _ S))|apply IHpeg2, (sg_ors _ _ S)].
  - eapply peg_not_fail. exact (IHpeg (sg_not _ S)).
  - eapply peg_not_ok; [exact (IHpeg (sg_not _ S))|]. apply put_stops. assumption.
  - apply peg_rep_full.
  - rewrite put_prepend. eapply peg_rep_more; [assumption|exact (IHpeg1 (sg_rep _ _ _ S))|exact (IHpeg2 (sg_rep' _ _ _ _ _ S))].
  - apply peg_rep_done; [assumption|exact (IHpeg (sg_rep _ _ _ S))].
  - apply peg_rep_short; [assumption|assumption|exact (IHpeg (sg_rep _ _ _ S))].
  - apply peg_rep_abort; [assumption|exact (IHpeg (sg_rep _ _ _ S))].
  - rewrite put_wrap. eapply peg_rule; [eassumption|]. apply IHpeg. eapply sg_rule; eassumption.
  - apply peg_rule_missing. assumption.
Qed.

Lemma stop_back : forall e s' r', peg G e s' r' -> forall s, s' = s ++ x -> str_c e -> exists r, peg G e s r /\ r' = put_before x r.
Proof.
  induction 1; intros s0 E S.
  - destruct (front_prefix l s0 rest (sg_atom _ S) (eq_sym E)) as (m & -> & ->). exists (PMatch [Val l] m). split; [apply peg_lit_ok|reflexivity].
  - subst s. exists PFail. split; [|reflexivity]. apply peg_lit_fail. intros rest ->. apply (H (rest ++ x)). symmetry. apply app_assoc.
  - destruct s0 as [|b s0]; cbn in E; injection E as -> ->; [destruct (sg_atom _ S H)|].
    exists (PMatch [Val [b]] s0). split; [apply peg_class_ok; exact H|reflexivity].
  - subst s. exists PFail. split; [|reflexivity]. apply peg_class_fail. intros d rest ->. exact (H d (rest ++ x) eq_refl).
  - destruct (sg_atom _ S I).
  - destruct (sg_atom _ S I).
  - destruct (sg_atom _ S I).
  - destruct (sg_atom _ S I).
  - subst s. exists (PAbort m s0). split; [apply peg_error|reflexivity].
  - subst s. exists (PMatch [] s0). split; [apply peg_and_nil|reflexivity].
  - destruct (IHpeg1 s0 E (sg_and _ _ S)) as (r1 & P1 & X). destruct r1 as [us rest| |m rest]; cbn in X; try discriminate. injection X as -> ->.
    destruct (IHpeg2 rest eq_refl (sg_ands _ _ S)) as (r2 & P2 & ->). exists (prepend us r2). split; [eapply peg_and_cons; eassumption|symmetry; apply put_prepend].
  - destruct (IHpeg s0 E (sg_and _ _ S)) as (r1 & P1 & ->). exists r1. split; [|reflexivity]. apply peg_and_stop; [exact P1|]. apply put_stops. assumption.
  - exists PFail. split; [apply peg_or_nil|reflexivity].
  - destruct (IHpeg s0 E (sg_or _ _ S)) as (r1 & P1 & ->). exists r1. split; [|reflexivity]. apply peg_or_first; [exact P1|]. intros ->. apply H0. reflexivity.
  - destruct (IHpeg1 s0 E (sg_or _ _ S)) as (r1 & P1 & X). symmetry in X. apply (proj1 (put_fail _)) in X. subst r1.
    destruct (IHpeg2 s0 E (sg_ors _ _ S)) as (r2 & P2 & ->). exists r2. split; [|reflexivity]. apply peg_or_next; assumption.
  - destruct (IHpeg s0 E (sg_not _ S)) as (r1 & P1 & X). destruct r1; cbn in X; try discriminate. exists PFail. split; [eapply peg_not_fail; exact P1|reflexivity].
  - destruct (IHpeg s0 E (sg_not _ S)) as (r1 & P1 & ->). exists (PMatch [] s0). split; [eapply peg_not_ok; [exact P1|apply put_stops; assumption]|subst; reflexivity].
  - exists (PMatch [] s0). split; [apply peg_rep_full|subst; reflexivity].
  - destruct (IHpeg1 s0 E (sg_rep _ _ _ S)) as (r1 & P1 & X). destruct r1 as [us rest| |m rest]; cbn in X; try discriminate. injection X as -> ->.
    destruct (IHpeg2 rest eq_refl (sg_rep' _ _ _ _ _ S)) as (r2 & P2 & ->). exists (prepend us r2). split; [eapply peg_rep_more; eassumption|symmetry; apply put_prepend].
  - destruct (IHpeg s0 E (sg_rep _ _ _ S)) as (r1 & P1 & X). symmetry in X. apply (proj1 (put_fail _)) in X. subst r1. exists (PMatch [] s0). split; [apply peg_rep_done; assumption|subst; reflexivity].
  - destruct (IHpeg s0 E (sg_rep _ _ _ S)) as (r1 & P1 & X). symmetry in X. apply (proj1 (put_fail _)) in X. subst r1. exists PFail. split; [apply peg_rep_short; assumption|reflexivity].
  - destruct (IHpeg s0 E (sg_rep _ _ _ S)) as (r1 & P1 & X). destruct r1; cbn in X; try discriminate. injection X as -> ->. eexists. split; [apply peg_rep_abort; [assumption|exact P1]|reflexivity].
  - destruct (IHpeg s0 E (sg_rule _ _ H S)) as (r1 & P1 & ->). exists (wrap n r1). split; [eapply peg_rule; eassumption|symmetry; apply put_wrap].
  - subst s. exists (PAbort (missing_rule_msg n) s0). split; [apply peg_rule_missing; assumption|reflexivity].
Qed.

(** The same calls. *)
Definition oput (o : ending) : ending := match o with OM rest => OM (rest ++ x) | _ => o end.
Lemma oput_halts : forall o, halts o -> halts (oput o) /\ oput o = o.
Proof. intros o [-> | ->]; (split; [|reflexivity]); [left|right]; reflexivity. Qed.

Lemma stop_costs :
  (forall e s o k, costs G e s o k -> str_c e -> costs G e (s ++ x) (oput o) k) /\
  (forall es s o k, costs_and G es s o k -> str_c (And es) -> costs_and G es (s ++ x) (oput o) k) /\
  (forall es s o k, costs_or G es s o k -> str_c (Or es) -> costs_or G es (s ++ x) (oput o) k) /\
  (forall e mn mx s o k, costs_rep G e mn mx s o k -> str_c e -> costs_rep G e mn mx (s ++ x) (oput o) k).
Proof.
  apply costs_mind; cbn [oput]; intros.
  - apply c_none.
  - apply c_cut.
  - eapply c_match. exact (stop_there _ _ _ H H0).
  - apply c_fail. exact (stop_there _ _ _ H H0).
  - eapply c_abort. exact (stop_there _ _ _ H H0).
  - apply c_and. auto.
  - apply c_or. auto.
  - eapply c_not_fail. exact (H0 (sg_not _ H1)).
  - eapply c_not_ok; [exact (H0 (sg_not _ H2))|]. destruct H1 as [-> | ->]; [left|right]; reflexivity.
  - eapply c_not_cut. exact (H0 (sg_not _ H1)).
  - apply c_rep. apply H0. exact (sg_rep _ _ _ H1).
  - eapply c_rule; [eassumption|]. apply H1. exact (sg_rule _ _ H H2).
  - apply c_missing; [assumption|]. apply oput_halts. assumption.
  - apply ca_nil.
  - eapply ca_cons; [exact (H0 (sg_and _ _ H3))|exact (H2 (sg_ands _ _ H3))].
  - apply ca_fail. exact (H0 (sg_and _ _ H1)).
  - destruct (oput_halts o H1) as [X Y]. rewrite Y. apply ca_halt; [rewrite <- Y; exact (H0 (sg_and _ _ H2))|assumption].
  - apply co_nil.
  - apply co_cut.
  - apply co_match. exact (H0 (sg_or _ _ H1)).
  - destruct (oput_halts o H1) as [X Y]. rewrite Y. apply co_halt; [rewrite <- Y; exact (H0 (sg_or _ _ H2))|assumption].
  - apply co_next; [exact (H0 (sg_or _ _ H3))|exact (H2 (sg_ors _ _ H3))].
  - apply cr_cut.
  - apply cr_last. exact (H0 H1).
  - eapply cr_more; [assumption|exact (H1 H4)|exact (H3 H4)].
  - apply cr_done. exact (H0 H1).
  - apply cr_short; [assumption|exact (H1 H2)].
  - destruct (oput_halts o H1) as [X Y]. rewrite Y. apply cr_halt; [rewrite <- Y; exact (H0 H2)|assumption].
Qed.
End Stop.

(** Swapping what follows a strange char. *)
Section Swap.
Variable G : str -> option expr.
Variable c : char.
Variables x y : str.
Definition sB (e : expr) (q : str) : Prop := stranger G c e /\ exists m, q = m ++ [c].

Lemma compared_c : forall l m, ~ In c l -> compared l ((m ++ [c]) ++ x) <= length (m ++ [c]).
Proof.
  induction l as [|d l IH]; intros m N; [apply Nat.le_0_l|]. destruct m as [|b m]; cbn [app compared length].
  - destruct (N.eqb_spec d c) as [->|D]; [destruct N; left; reflexivity|]. apply le_n.
  - destruct (N.eqb d b); [|lia]. apply le_n_S, IH. intro I. apply N. right. exact I.
Qed.

Lemma rest_c : forall e ts p m, stranger G c e -> (exists l, p ++ m = l ++ [c]) -> peg G e ((p ++ m) ++ x) (PMatch ts (m ++ x)) -> exists l, m = l ++ [c].
Proof.
  intros e ts p m S [l E] P. rewrite E, <- app_assoc in P. destruct (stop_back G c x e _ _ P l eq_refl S) as (r & Q & X).
  destruct r as [us rest| |]; cbn in X; try discriminate. injection X as _ X. exists rest. apply (app_inv_tail x). rewrite <- app_assoc. exact X.
Qed.

Lemma swap_c : forall e l r, stranger G c e -> pege G e ((l ++ [c]) ++ x) r -> exists r', pege G e ((l ++ [c]) ++ y) r' /\ res_swap x y (l ++ [c]) r r'.
Proof.
  intros e l r S P. refine (proj1 (swap_both x y G sB _ _ _ _ _ _ _ _ _) e _ r P (l ++ [c]) eq_refl (conj S (ex_intro _ l eq_refl))).
  - intros a q [Sa [m ->]]. pose proof (sg_atom G c a Sa) as N. destruct a as [w|cs rg|w| |]; cbn [looks minds] in *; try tauto; try (rewrite app_length; cbn; lia).
    apply compared_c. exact N.
  - intros e1 es q [Se X]. split; [exact (sg_and _ _ _ _ Se)|exact X].
  - intros e1 es q [Se X]. split; [exact (sg_or _ _ _ _ Se)|exact X].
  - intros e1 q [Se X]. split; [exact (sg_not _ _ _ Se)|exact X].
  - intros e1 mn mx q _ [Se X]. split; [exact (sg_rep _ _ _ _ _ Se)|exact X].
  - intros n e1 q E [Se X]. split; [exact (sg_rule _ _ _ _ E Se)|exact X].
  - intros e1 es p m ts P1 _ [Se X]. split; [exact (sg_ands _ _ _ _ Se)|exact (rest_c e1 ts p m (sg_and _ _ _ _ Se) X P1)].
  - intros e1 es q _ _ [Se X]. split; [exact (sg_ors _ _ _ _ Se)|exact X].
  - intros e1 mn mx p m ts _ P1 _ [Se X]. split; [exact (sg_rep' _ _ _ _ _ _ _ Se)|exact (rest_c e1 ts p m (sg_rep _ _ _ _ _ Se) X P1)].
Qed.
End Swap.

Section CostsAgree.
Variables G G' : str -> option expr.
Hypothesis AG : forall n, n <> main -> G n = G' n.
Hypothesis NR : forall n e, n <> main -> G n = Some e -> ~ has_ref main e.

Lemma nr_and : forall e es, ~ has_ref main (And (e :: es)) -> ~ has_ref main e /\ ~ has_ref main (And es).
Proof. intros e es N. split; intro R; apply N; [|inversion R; subst]; econstructor; [left; reflexivity|exact R|right; eassumption|assumption]. Qed.
Lemma nr_or : forall e es, ~ has_ref main (Or (e :: es)) -> ~ has_ref main e /\ ~ has_ref main (Or es).
Proof. intros e es N. split; intro R; apply N; [|inversion R; subst]; econstructor; [left; reflexivity|exact R|right; eassumption|assumption]. Qed.

Lemma costs_agree :
  (forall e s o k, costs G e s o k -> ~ has_ref main e -> costs G' e s o k) /\
  (forall es s o k, costs_and G es s o k -> ~ has_ref main (And es) -> costs_and G' es s o k) /\
  (forall es s o k, costs_or G es s o k -> ~ has_ref main (Or es) -> costs_or G' es s o k) /\
  (forall e mn mx s o k, costs_rep G e mn mx s o k -> ~ has_ref main e -> costs_rep G' e mn mx s o k).
Proof.
  assert (PA : forall e s r, peg G e s r -> ~ has_ref main e -> peg G' e s r) by (intros e s r D N; exact (peg_agree G G' AG NR e s r D N)).
  apply costs_mind; intros.
  - apply c_none.
  - apply c_cut.
  - eapply c_match. eauto.
  - apply c_fail. eauto.
  - eapply c_abort. eauto.
  - apply c_and. auto.
  - apply c_or. auto.
  - eapply c_not_fail. apply H0. intro R. apply H1. constructor. exact R.
  - eapply c_not_ok; [|exact H1]. apply H0. intro R. apply H2. constructor. exact R.
  - eapply c_not_cut. apply H0. intro R. apply H1. constructor. exact R.
  - apply c_rep. apply H0. intro R. apply H1. constructor. exact R.
  - assert (X : n <> main) by (intros ->; apply H2; constructor). eapply c_rule; [rewrite <- AG by exact X; eassumption|]. apply H1. exact (NR _ _ X H).
  - assert (X : n <> main) by (intros ->; apply H1; constructor). apply c_missing; [rewrite <- AG by exact X; assumption|assumption].
  - apply ca_nil.
  - destruct (nr_and _ _ H3). eapply ca_cons; eauto.
  - destruct (nr_and _ _ H1). apply ca_fail; auto.
  - destruct (nr_and _ _ H2). apply ca_halt; auto.
  - apply co_nil.
  - apply co_cut.
  - destruct (nr_or _ _ H1). apply co_match; auto.
  - destruct (nr_or _ _ H2). apply co_halt; auto.
  - destruct (nr_or _ _ H3). apply co_next; auto.
  - apply cr_cut.
  - apply cr_last; auto.
  - eapply cr_more; eauto.
  - apply cr_done; auto.
  - apply cr_short; auto.
  - apply cr_halt; auto.
Qed.
End CostsAgree.

Section Lines.
Variable rs : rules.
Variable e : expr.
Variable c : char.
Hypothesis SR : sane_rules rs.
Hypothesis SE : sane e.
Hypothesis MU : main_unused rs [e].
Hypothesis ST : stranger (grammar_of rs) c e.

Notation body := (And [e; lit [c]]).
Notation loop := (Repeat body 0 None).
Notation L := (line_rules rs e c).
Notation G := (grammar_of L).
Notation Ge := (grammar_of (with_main rs e)).

Lemma NE : ~ has_ref main e.
Proof. destruct MU as [_ F]. inversion F; assumption. Qed.
Lemma MU2 : main_unused rs [e; e].
Proof. destruct MU as [H F]. split; [exact H|]. inversion F; subst. repeat constructor; assumption. Qed.

Lemma uses_same : forall x a, uses G x a -> ~ has_ref main x -> uses (grammar_of rs) x a.
Proof.
  induction 1 as [x a H|n x x' a H E U IH]; intro N; [apply us_here; exact H|].
  assert (X : n <> main) by (intros ->; exact (N H)). unfold grammar_of, line_rules in E. rewrite get_other in E by exact X.
  eapply us_rule; [exact H|exact E|]. apply IH. exact (proj1 MU _ _ X E).
Qed.
Lemma SG : stranger G c e.
Proof. intros a U. exact (ST a (uses_same e a U NE)). Qed.

Lemma sane_L : sane_rules L.
Proof. apply with_sane; [exact SR|]. cbn. repeat split. exact SE. Qed.
Lemma sane_e : sane_rules (with_main rs e).
Proof. apply with_sane; assumption. Qed.

Lemma to_L : forall s r, peg Ge e s r -> peg G e s r.
Proof. intros s r. exact (move rs e e s MU2 e _ e r NE). Qed.
Lemma from_L : forall s r, peg G e s r -> peg Ge e s r.
Proof. intros s r. exact (move rs e e s MU2 _ e e r NE). Qed.

Lemma main_e : forall s r, peg_main (with_main rs e) s (wrap main r) <-> peg G e s r.
Proof.
  intros s r. split.
  - intro D. apply to_L. unfold peg_main in D. inversion D as [| | | | | | | | | | | | | | | | | | | | | |n e' s' r' E D' X Y Z|n s' E X Y Z]; subst; unfold grammar_of in E; rewrite get_main in E; [|discriminate].
    injection E as <-. destruct r, r'; cbn in Z; try discriminate; try exact D'; injection Z as -> ->; exact D'.
  - intro D. exact (peg_rule Ge main e s r (get_main rs e) (from_L s r D)).
Qed.
Lemma main_L : forall s r, peg_main L s (wrap main r) <-> peg G loop s r.
Proof.
  intros s r. split.
  - intro D. unfold peg_main in D. inversion D as [| | | | | | | | | | | | | | | | | | | | | |n e' s' r' E D' X Y Z|n s' E X Y Z]; subst; unfold grammar_of in E; unfold line_rules in E; rewrite get_main in E; [|discriminate].
    injection E as <-. destruct r, r'; cbn in Z; try discriminate; try exact D'; injection Z as -> ->; exact D'.
  - intro D. exact (peg_rule G main loop s r (get_main rs _) D).
Qed.
Lemma wrapped : forall rs0 s r, rules_get rs0 main <> None -> peg_main rs0 s r -> exists r0, r = wrap main r0.
Proof.
  intros rs0 s r N D. unfold peg_main in D. inversion D as [| | | | | | | | | | | | | | | | | | | | | |n e' s' r' E D' X Y Z|n s' E X Y Z]; subst; [eexists; reflexivity|].
  destruct (N E).
Qed.

Lemma reads_iff : forall l ks, ascii l -> reads rs e l ks <-> peg G e l (PMatch ks []).
Proof.
  intros l ks A. unfold reads. rewrite <- main_e. exact (parse_accepts_iff l _ false sane_e A (Rule main ks)).
Qed.
Lemma takes_iff : forall l, ascii l -> takes (with_main rs e) l <-> exists ks, peg G e l (PMatch ks []).
Proof. intros l A. exact (with_accepts rs e e l SR MU2 A _ e SE NE). Qed.
Lemma finishes_iff : forall l, ascii l -> finishes (with_main rs e) l <-> exists r, peg G e l r.
Proof. intros l A. exact (with_finishes rs e e l SR MU2 A _ e SE NE). Qed.
Lemma complains_iff : forall l m k, ascii l -> complains (with_main rs e) l m k <-> exists rest, peg G e l (PAbort m rest) /\ k + length rest = length l.
Proof.
  intros l m k A. unfold complains. rewrite (parse_abort_iff l _ m k sane_e A). split; intros (rest & D & K); exists rest; (split; [|exact K]); apply (main_e l (PAbort m rest)); exact D.
Qed.
Lemma quiet_iff : forall l, ascii l -> quiet rs e l <-> exists r, peg G e l r /\ forall m rest, r <> PAbort m rest.
Proof.
  intros l A. split.
  - intros [fuel H]. pose proof (parse_sound fuel l (with_main rs e) false sane_e) as P. unfold parse in H.
    destruct (parse_with_debug fuel l (with_main rs e) false) as [ast|er| |]; try contradiction.
    + destruct P as [_ P]. destruct (wrapped (with_main rs e) l (PMatch [ast] [])) as [r0 E]; [rewrite get_main; discriminate|exact P|].
      rewrite E in P. apply main_e in P. exists r0. split; [exact P|]. intros m rest ->. discriminate.
    + rewrite H in P. destruct P as [_ [P|(ts & rest & P & _)]].
      * exists PFail. split; [apply main_e; exact P|discriminate].
      * destruct (wrapped (with_main rs e) l (PMatch ts rest)) as [r0 E]; [rewrite get_main; discriminate|exact P|].
        rewrite E in P. apply main_e in P. exists r0. split; [exact P|]. intros m rest' ->. discriminate.
  - intros (r & D & N). destruct (proj2 (finishes_iff l A) (ex_intro _ r D)) as [fuel F]. exists fuel.
    pose proof (parse_sound fuel l (with_main rs e) false sane_e) as P. unfold parse in *.
    destruct (parse_with_debug fuel l (with_main rs e) false) as [ast|er| |]; [exact I| |exact (P A)|destruct (F eq_refl)].
    destruct (e_priority er); [reflexivity|]. destruct P as [_ (rest & P & _)]. apply (main_e l (PAbort (e_descr er) rest)) in P.
    destruct (N _ _ (peg_det G e l _ D _ P)).
Qed.

(** * What the loop does *)

Definition kids (kss : list (list node)) : list node := flat_map (fun ks => ks ++ [Val [c]]) kss.
Definition good (l : str) (ks : list node) : Prop := peg G e l (PMatch ks []).

Lemma lit_c : forall s, peg G (lit [c]) (c :: s) (PMatch [Val [c]] s).
Proof. intro s. exact (peg_lit_ok G [c] s). Qed.
Lemma lit_not : forall s, (forall s', s <> c :: s') -> peg G (lit [c]) s PFail.
Proof. intros s N. apply peg_lit_fail. intros rest E. exact (N rest E). Qed.

Lemma good_body : forall l ks s, good l ks -> peg G body (l ++ c :: s) (PMatch (ks ++ [Val [c]]) s).
Proof.
  intros l ks s D. pose proof (stop_there G c s e l _ D SG) as P. cbn in P.
  exact (peg_and_cons G e _ _ ks (c :: s) (PMatch [Val [c]] s) P (peg_and_cons G _ [] _ [Val [c]] s (PMatch [] s) (lit_c s) (peg_and_nil G s))).
Qed.

Lemma ended_cons : forall l ls s, ended c (l :: ls) ++ s = l ++ c :: ended c ls ++ s.
Proof. intros l ls s. cbn [ended flat_map]. rewrite <- !app_assoc. reflexivity. Qed.

Lemma loop_lines : forall ls kss, Forall2 good ls kss -> forall s r, peg G loop s r -> peg G loop (ended c ls ++ s) (prepend (kids kss) r).
Proof.
  induction 1 as [|l ks ls kss D F IH]; intros s r P; [destruct r; exact P|]. rewrite ended_cons.
  pose proof (peg_rep_more G body 0 None _ _ _ _ ltac:(discriminate) (good_body l ks (ended c ls ++ s) D) (IH s r P)) as Q.
  destruct r; cbn in *; try exact Q. rewrite <- app_assoc in Q |- *. unfold kids. cbn [flat_map]. rewrite <- !app_assoc in *. exact Q.
Qed.

Lemma loop_inv : forall s r, peg G loop s r -> exists r1, peg G body s r1 /\
  match r1 with
  | PMatch ts s1 => exists r', peg G loop s1 r' /\ r = prepend ts r'
  | PFail => r = PMatch [] s
  | PAbort m rest => r = PAbort m rest
  end.
Proof.
  intros s r P. inversion P as [| | | | | | | | | | | | | | | | | |x mn mx s0 ts s1 r' M P1 P2|x mx s0 M P1|x mn mx s0 M Z P1|x mn mx s0 m rest M P1| |]; subst.
  - exists (PMatch ts s1). split; [exact P1|]. exists r'. split; [exact P2|reflexivity].
  - exists PFail. split; [exact P1|reflexivity].
  - lia.
  - exists (PAbort m rest). split; [exact P1|reflexivity].
Qed.

Lemma loop_step : forall l ks s r, good l ks -> peg G loop (l ++ c :: s) r -> exists r', peg G loop s r'.
Proof.
  intros l ks s r D P. destruct (loop_inv _ _ P) as (r1 & P1 & X). rewrite <- (peg_det G body _ _ (good_body l ks s D) _ P1) in X.
  destruct X as (r' & Q & _). exists r'. exact Q.
Qed.
Lemma loop_inner : forall ls kss, Forall2 good ls kss -> forall s r, peg G loop (ended c ls ++ s) r -> exists r', peg G loop s r'.
Proof.
  induction 1 as [|l ks ls kss D F IH]; intros s r P; [exists r; exact P|]. rewrite ended_cons in P.
  destruct (loop_step l ks _ _ D P) as [r' Q]. exact (IH s r' Q).
Qed.
Lemma loop_exact : forall ls kss, Forall2 good ls kss -> forall s r, peg G loop (ended c ls ++ s) r -> exists r', peg G loop s r' /\ r = prepend (kids kss) r'.
Proof.
  intros ls kss F s r P. destruct (loop_inner ls kss F s r P) as [r' Q]. exists r'. split; [exact Q|].
  exact (peg_det G loop _ _ P _ (loop_lines ls kss F s r' Q)).
Qed.

Lemma body_inv : forall s r, peg G body s r -> exists r1, peg G e s r1 /\
  match r1 with
  | PMatch ts s1 => r = match s1 with d :: s2 => if N.eqb d c then PMatch (ts ++ [Val [c]]) s2 else PFail | [] => PFail end
  | _ => r = r1
  end.
Proof.
  intros s r P. inversion P as [| | | | | | | | | |e1 es s0 ts s1 r2 P1 P2|e1 es s0 r1 P1 E| | | | | | | | | | | |]; subst.
  - exists (PMatch ts s1). split; [exact P1|]. assert (Q : peg G (And [lit [c]]) s1 (match s1 with d :: s2 => if N.eqb d c then PMatch [Val [c]] s2 else PFail | [] => PFail end)).
    { destruct s1 as [|d s2]; [apply peg_and_stop; [apply lit_not; discriminate|exact I]|]. destruct (N.eqb_spec d c) as [->|X].
      - exact (peg_and_cons G _ [] _ [Val [c]] s2 (PMatch [] s2) (lit_c s2) (peg_and_nil G s2)).
      - apply peg_and_stop; [apply lit_not; intros s' [= Y _]; exact (X Y)|exact I]. }
    rewrite (peg_det G _ _ _ P2 _ Q). destruct s1 as [|d s2]; [reflexivity|]. destruct (N.eqb d c); reflexivity.
  - exists r. split; [exact P1|]. destruct r; [contradiction|reflexivity|reflexivity].
Qed.

Lemma body_of : forall s r1, peg G e s r1 -> peg G body s
  match r1 with
  | PMatch ts s1 => match s1 with d :: s2 => if N.eqb d c then PMatch (ts ++ [Val [c]]) s2 else PFail | [] => PFail end
  | _ => r1
  end.
Proof.
  intros s [ts s1| |m rest] P; [|apply peg_and_stop; [exact P|exact I]..].
  assert (Q : peg G (And [lit [c]]) s1 (match s1 with d :: s2 => if N.eqb d c then PMatch [Val [c]] s2 else PFail | [] => PFail end)).
  { destruct s1 as [|d s2]; [apply peg_and_stop; [apply lit_not; discriminate|exact I]|]. destruct (N.eqb_spec d c) as [->|X].
    - exact (peg_and_cons G _ [] _ [Val [c]] s2 (PMatch [] s2) (lit_c s2) (peg_and_nil G s2)).
    - apply peg_and_stop; [apply lit_not; intros s' [= Y _]; exact (X Y)|exact I]. }
  pose proof (peg_and_cons G e _ _ _ _ _ P Q) as R. destruct s1 as [|d s2]; [exact R|]. destruct (N.eqb d c); exact R.
Qed.

(** Accepted texts. *)
Lemma no_c : forall l ks, good l ks -> ~ In c l.
Proof.
  intros l ks D I0. destruct (in_split c l I0) as (a & b & ->). destruct (stop_back G c b e _ _ D a eq_refl SG) as (r & _ & X).
  destruct r as [us rest| |]; cbn in X; try discriminate. injection X as _ X. destruct rest; discriminate.
Qed.

Lemma loop_ok : forall x s r, peg G x s r -> forall ts, x = loop -> r = PMatch ts [] ->
  (exists r0, peg G e [] r0 /\ forall m rest, r0 <> PAbort m rest) /\ exists ls kss, s = ended c ls /\ Forall2 good ls kss /\ ts = kids kss.
Proof.
  induction 1; intros us E X; try discriminate.
  - injection E as -> -> ->. destruct (body_inv _ _ H0) as (r1 & P1 & Y). destruct r1 as [vs s2| |]; try discriminate.
    destruct s2 as [|d s2]; [discriminate|]. destruct (N.eqb_spec d c) as [->|D]; [|discriminate]. injection Y as -> ->.
    destruct (peg_suffix G e _ _ P1) as [l ->]. destruct (stop_back G c s2 e _ _ P1 l eq_refl SG) as (r2 & P2 & Z).
    destruct r2 as [ws rest| |]; cbn in Z; try discriminate. injection Z as -> Z. destruct rest as [|d rest]; [|apply (f_equal (@length _)) in Z; rewrite app_length in Z; cbn in Z; lia].
    destruct r as [ts' rest'| |]; cbn in X; try discriminate. injection X as <- ->.
    destruct (IHpeg2 ts' eq_refl eq_refl) as (Q & ls & kss & -> & F & ->). split; [exact Q|]. exists (l :: ls), (ws :: kss).
    split; [cbn [ended flat_map]; rewrite <- app_assoc; reflexivity|]. split; [constructor; [exact P2|exact F]|]. reflexivity.
  - injection E as -> ->. injection X as <- ->. split; [|exists [], []; repeat split; constructor].
    destruct (body_inv _ _ H0) as (r1 & P1 & Y). exists r1. split; [exact P1|]. intros m rest ->. discriminate.
Qed.

Lemma loop_end : forall r0, peg G e [] r0 -> (forall m rest, r0 <> PAbort m rest) -> peg G loop [] (PMatch [] []).
Proof.
  intros r0 P N. apply peg_rep_done; [discriminate|]. pose proof (body_of [] r0 P) as Q. destruct r0 as [ts rest| |m rest]; [|exact Q|destruct (N _ _ eq_refl)].
  destruct (peg_suffix G e _ _ P) as [p E]. symmetry in E. apply app_eq_nil in E. destruct E as [_ ->]. exact Q.
Qed.

Lemma ascii_lines : forall ls s, ascii (ended c ls ++ s) -> Forall ascii ls /\ ascii s.
Proof.
  induction ls as [|l ls IH]; intros s A; [split; [constructor|exact A]|]. rewrite ended_cons in A. apply Forall_app in A. destruct A as [A1 A2].
  inversion A2 as [|? ? A3 A4]; subst. destruct (IH s A4). split; [constructor; assumption|assumption].
Qed.

Lemma good_reads : forall ls kss, Forall ascii ls -> Forall2 (reads rs e) ls kss <-> Forall2 good ls kss.
Proof.
  intros ls kss A. split; intro F; revert A; induction F; intro A; constructor; inversion A; subst; auto; apply reads_iff; assumption.
Qed.

Lemma accepted : forall s d ast, ascii s ->
  (exists fuel, parse_with_debug fuel s L d = Ok ast) <->
  quiet rs e [] /\ exists ls kss, s = ended c ls /\ Forall2 (reads rs e) ls kss /\ ast = Rule main (kids kss).
Proof.
  intros s d ast A. rewrite (parse_accepts_iff s L d sane_L A ast). split.
  - intro D. destruct (wrapped L s _ ltac:(unfold line_rules; rewrite get_main; discriminate) D) as [r E]. destruct r as [ts rest| |]; try discriminate.
    injection E as -> <-. change (PMatch [Rule main ts] []) with (wrap main (PMatch ts [])) in D. apply main_L in D.
    destruct (loop_ok _ _ _ D ts eq_refl eq_refl) as (Q & ls & kss & -> & F & ->). split; [apply quiet_iff; [constructor|exact Q]|].
    exists ls, kss. split; [reflexivity|]. split; [|reflexivity]. apply good_reads; [|exact F]. rewrite <- (app_nil_r (ended c ls)) in A. exact (proj1 (ascii_lines ls [] A)).
  - intros (Q & ls & kss & -> & F & ->). apply (main_L _ (PMatch (kids kss) [])).
    pose proof A as A'. rewrite <- (app_nil_r (ended c ls)) in A'. apply (good_reads ls kss (proj1 (ascii_lines ls [] A'))) in F.
    apply quiet_iff in Q; [|constructor]. destruct Q as (r0 & P & N). pose proof (loop_lines ls kss F [] _ (loop_end r0 P N)) as D.
    rewrite app_nil_r in D. cbn in D. rewrite app_nil_r in D. exact D.
Qed.

(** * The first line that is not accepted *)

Definition line_end (tail : str) : Prop := tail = [] \/ exists t, tail = c :: t.

Lemma e_there : forall l tail r, line_end tail -> peg G e l r -> peg G e (l ++ tail) (put_before tail r).
Proof.
  intros l tail r [-> | [t ->]] P; [|exact (stop_there G c t e l r P SG)]. rewrite app_nil_r. destruct r; cbn; rewrite ?app_nil_r; exact P.
Qed.
Lemma e_back : forall l tail r', line_end tail -> peg G e (l ++ tail) r' -> exists r, peg G e l r /\ r' = put_before tail r.
Proof.
  intros l tail r' [-> | [t ->]] P; [|exact (stop_back G c t e _ _ P l eq_refl SG)]. rewrite app_nil_r in P. exists r'. split; [exact P|].
  destruct r'; cbn; rewrite ?app_nil_r; reflexivity.
Qed.

(** A line that ends, and is not accepted, or a last line without end: the loop stops here. *)
Lemma bad_body : forall l tail r, line_end tail -> ~ In c l -> (tail <> [] -> forall ks, ~ good l ks) -> peg G e l r ->
  peg G body (l ++ tail) (match r with PAbort m rest => PAbort m (rest ++ tail) | _ => PFail end).
Proof.
  intros l tail r E N B P. pose proof (body_of _ _ (e_there l tail r E P)) as Q. destruct r as [ts rest| |m rest]; cbn [put_before] in Q; [|exact Q..].
  destruct (peg_suffix G e _ _ P) as [p X]. destruct rest as [|d rest].
  - cbn [app] in Q. destruct E as [-> | [t ->]]; [exact Q|]. destruct (B ltac:(discriminate) ts P).
  - cbn [app] in Q. destruct (N.eqb_spec d c) as [->|D]; [|exact Q]. destruct N. rewrite X. apply in_or_app. right. left. reflexivity.
Qed.

Lemma bad_loop : forall l tail r, line_end tail -> ~ In c l -> (tail <> [] -> forall ks, ~ good l ks) -> peg G e l r ->
  peg G loop (l ++ tail) (match r with PAbort m rest => PAbort m (rest ++ tail) | _ => PMatch [] (l ++ tail) end).
Proof.
  intros l tail r E N B P. pose proof (bad_body l tail r E N B P) as Q.
  destruct r; [apply peg_rep_done; [discriminate|exact Q]..|apply peg_rep_abort; [discriminate|exact Q]].
Qed.

Lemma loop_e : forall s r, peg G loop s r -> exists r1, peg G e s r1.
Proof. intros s r P. destruct (loop_inv _ _ P) as (r1 & P1 & _). destruct (body_inv _ _ P1) as (r2 & P2 & _). exists r2. exact P2. Qed.

Definition first_bad (ls : list str) (l tail : str) : Prop :=
  Forall (takes (with_main rs e)) ls /\ line_end tail /\ ~ In c l /\ (tail <> [] -> ~ takes (with_main rs e) l).

Lemma taken_good : forall ls, Forall ascii ls -> Forall (takes (with_main rs e)) ls -> exists kss, Forall2 good ls kss.
Proof.
  induction 1 as [|l ls A _ IH]; intro F; [exists []; constructor|]. inversion F as [|? ? T F']; subst.
  apply (takes_iff l A) in T. destruct T as [ks D]. destruct (IH F') as [kss H]. exists (ks :: kss). constructor; assumption.
Qed.

Lemma split_ascii : forall ls l tail, ascii (ended c ls ++ l ++ tail) -> Forall ascii ls /\ ascii l /\ ascii tail.
Proof. intros ls l tail A. apply ascii_lines in A. destruct A as [A1 A2]. apply Forall_app in A2. tauto. Qed.

Lemma stops_iff : forall ls l tail, ascii (ended c ls ++ l ++ tail) -> first_bad ls l tail ->
  finishes L (ended c ls ++ l ++ tail) <-> finishes (with_main rs e) l.
Proof.
  intros ls l tail A (F & E & N & B). destruct (split_ascii _ _ _ A) as (A1 & A2 & A3). destruct (taken_good ls A1 F) as [kss H].
  rewrite (finishes_iff l A2). unfold finishes. rewrite (parse_terminates_iff _ L false sane_L A). split.
  - intros [r D]. destruct (wrapped L _ _ ltac:(unfold line_rules; rewrite get_main; discriminate) D) as [r0 ->]. apply main_L in D.
    destruct (loop_inner ls kss H _ _ D) as [r1 D1]. destruct (loop_e _ _ D1) as [r2 D2]. destruct (e_back _ _ _ E D2) as (r3 & D3 & _). exists r3. exact D3.
  - intros [r P]. eexists. apply main_L. apply (loop_lines ls kss H). apply (bad_loop l tail r E N); [|exact P].
    intros X ks D. apply (B X). apply (takes_iff l A2). exists ks. exact D.
Qed.

Lemma complaint_iff : forall ls l tail m k, ascii (ended c ls ++ l ++ tail) -> first_bad ls l tail ->
  complains L (ended c ls ++ l ++ tail) m (length (ended c ls) + k) <-> complains (with_main rs e) l m k.
Proof.
  intros ls l tail m k A (F & E & N & B). destruct (split_ascii _ _ _ A) as (A1 & A2 & A3). destruct (taken_good ls A1 F) as [kss H].
  rewrite (complains_iff l m k A2). unfold complains. rewrite (parse_abort_iff _ L m _ sane_L A). split.
  - intros (rest & D & K). apply (main_L _ (PAbort m rest)) in D. destruct (loop_exact ls kss H _ _ D) as (r1 & D1 & X).
    destruct (loop_e _ _ D1) as [r2 D2]. destruct (e_back _ _ _ E D2) as (r3 & D3 & _).
    assert (Y : r1 = match r3 with PAbort m rest => PAbort m (rest ++ tail) | _ => PMatch [] (l ++ tail) end).
    { refine (peg_det G loop _ _ D1 _ (bad_loop l tail r3 E N _ D3)). intros Z ks D'. apply (B Z). apply (takes_iff l A2). exists ks. exact D'. }
    subst r1. destruct r3 as [ts r3| |m' r3]; cbn in X; try discriminate. injection X as -> ->. exists r3. split; [exact D3|]. rewrite !app_length in K. lia.
  - intros (rest & P & K). exists (rest ++ tail). split; [|rewrite !app_length; lia]. apply (main_L _ (PAbort m (rest ++ tail))).
    apply (loop_lines ls kss H _ (PAbort m (rest ++ tail))). apply (bad_loop l tail (PAbort m rest) E N); [|exact P].
    intros X ks D. apply (B X). apply (takes_iff l A2). exists ks. exact D.
Qed.

(** ** Where the error stands *)

Lemma lit_report : forall d s, d <> c -> pege G (lit [c]) (d :: s) (EFail (Report (lit_msg [c]) s [])).
Proof. intros d s N. apply ee_lit_fail. apply ls_differ. congruence. Qed.

(** The same report whatever comes after the line. *)
Lemma bad_report : forall l r, ~ In c l -> (forall ks, ~ good l ks) -> peg G e l r -> (forall m rest, r <> PAbort m rest) ->
  exists p m d tr, l ++ [c] = p ++ m /\ forall t, pege G body (l ++ c :: t) (EFail (Report d (m ++ t) tr)).
Proof.
  intros l r N B P Q. pose proof (stop_there G c [] e l r P SG) as P0. destruct (peg_pege G e _ _ P0) as (er & D0 & X).
  assert (SW : forall t, exists r', pege G e (l ++ c :: t) r' /\ res_swap [] t (l ++ [c]) er r').
  { intro t. destruct (swap_c G c [] t e l er SG) as (r' & D & S); [rewrite app_nil_r; exact D0|]. exists r'. split; [|exact S]. rewrite <- app_assoc in D. exact D. }
  destruct er as [ts rest p t0|q|q].
  - destruct r as [us rest0| |]; cbn in X; try discriminate. injection X as -> ->.
    destruct rest0 as [|d rest0]; [destruct (B us P)|]. destruct (peg_suffix G e _ _ P) as [p0 Z].
    assert (D : d <> c) by (intros ->; apply N; rewrite Z; apply in_or_app; right; left; reflexivity).
    exists (p0 ++ [d]), (rest0 ++ [c]), (lit_msg [c]), t0. split; [rewrite Z, <- !app_assoc; reflexivity|]. intro t.
    destruct (SW t) as (r' & D' & S). destruct r' as [ts' rest' p' t'|q'|q']; cbn in S; try contradiction.
    destruct S as (<- & <- & _ & pre & m & E1 & E2 & ->). rewrite app_nil_r in E2. subst m.
    assert (Y : (d :: rest0 ++ [c]) ++ t = d :: rest0 ++ c :: t) by (cbn [app]; rewrite <- app_assoc; reflexivity). rewrite Y in D'. clear Y. rewrite <- app_assoc. cbn [app].
    pose proof (ee_and_cons G e [lit [c]] _ _ _ _ _ _ D' (ee_and_stop G (lit [c]) [] _ _ (lit_report d (rest0 ++ c :: t) D) I)) as R.
    cbn [after] in R. unfold SpecReport.shift in R. cbn [r_descr r_rest r_trail] in R. rewrite app_nil_r in R. exact R.
  - destruct (SW []) as (r1 & _ & S1). destruct r1 as [|q1|]; cbn in S1; try contradiction. destruct S1 as (d & m & tr & p & E1 & E2 & _). subst q. rewrite app_nil_r in *.
    exists p, m, d, tr. split; [exact E1|]. intro t. destruct (SW t) as (r' & D' & S). destruct r' as [|q'|]; cbn in S; try contradiction.
    destruct S as (d' & m' & tr' & p' & E1' & E2' & ->). rewrite app_nil_r in E2'. injection E2' as <- <- <-. apply ee_and_stop; [exact D'|exact I].
  - destruct r; cbn in X; try discriminate. destruct (Q _ _ eq_refl).
Qed.

Lemma last_report : forall l r, ~ In c l -> peg G e l r -> (forall m rest, r <> PAbort m rest) ->
  exists p m d tr, l = p ++ m /\ pege G body l (EFail (Report d m tr)).
Proof.
  intros l r N P Q. pose proof (bad_body l [] r (or_introl eq_refl) N (fun X => match X eq_refl with end) P) as B. rewrite app_nil_r in B.
  assert (B' : peg G body l PFail) by (destruct r; [exact B|exact B|destruct (Q _ _ eq_refl)]). clear B.
  destruct (peg_pege G body _ _ B') as (er & D & X). destruct er as [ts rest p t0|[d m tr]|q]; cbn in X; try discriminate.
  destruct (proj1 (pege_stands G) _ _ _ D) as [p E]. exists p, m, d, tr. split; [exact E|exact D].
Qed.

Lemma names_kids : forall kss, flat_map names (kids kss) = flat_map (flat_map names) kss.
Proof.
  induction kss as [|ks kss IH]; [reflexivity|]. unfold kids in *. cbn [flat_map]. rewrite !flat_map_app, IH. cbn. rewrite app_nil_r. reflexivity.
Qed.

Lemma loop_report : forall ls kss, Forall2 good ls kss -> forall s q, pege G body s (EFail q) ->
  exists ts, pege G loop (ended c ls ++ s) (EMatch ts s (Some (shift (flat_map names (kids kss)) q)) (flat_map names (kids kss))).
Proof.
  induction 1 as [|l ks ls kss D F IH]; intros s q P.
  - exists []. cbn. destruct q as [d m tr]. apply ee_rep_done; [discriminate|exact P].
  - rewrite ended_cons. destruct (IH s q P) as [ts Q]. destruct (peg_pege G body _ _ (good_body l ks (ended c ls ++ s) D)) as (er & D0 & X).
    destruct er as [us rest p t0|q0|q0]; cbn in X; try discriminate. injection X as -> ->.
    assert (T : t0 = flat_map names (ks ++ [Val [c]])) by exact (proj1 (proj1 (all_truthful G) _ _ _ D0)). subst t0.
    exists ((ks ++ [Val [c]]) ++ ts). pose proof (ee_rep_more G body 0 None _ _ _ _ _ _ ltac:(discriminate) D0 Q) as R. cbn [after] in R.
    unfold kids in *. cbn [flat_map]. rewrite !flat_map_app in *. unfold SpecReport.shift in *. cbn [r_descr r_rest r_trail] in *. rewrite <- !app_assoc in *. exact R.
Qed.

Lemma parse_bad : forall ls kss s q debug, Forall2 good ls kss -> ascii (ended c ls ++ s) -> s <> [] -> pege G body s (EFail q) ->
  exists fuel, parse_with_debug fuel (ended c ls ++ s) L debug =
    Err (error_at (ended c ls ++ s) debug Normal (shift (main :: flat_map names (kids kss)) q)).
Proof.
  intros ls kss s q debug F A N P. destruct (loop_report ls kss F s q P) as [ts Q].
  apply (parse_report_iff (ended c ls ++ s) L debug _ sane_L A); [discriminate|]. eexists. split; [eapply ee_rule; [exact (get_main rs _)|exact Q]|].
  cbn [within option_map]. destruct s as [|d s]; [destruct (N eq_refl)|].
  replace (shift (main :: flat_map names (kids kss)) q) with (shift [main] (shift (flat_map names (kids kss)) q)) by reflexivity. apply an_pending.
Qed.

Lemma before_lines : forall a p m, before (a ++ p ++ m) m = a ++ p.
Proof.
  intros a p m. rewrite app_assoc. unfold before. rewrite app_length. replace (length (a ++ p) + length m - length m) with (length (a ++ p)) by lia.
  rewrite firstn_app, firstn_all, Nat.sub_diag, firstn_O, app_nil_r. reflexivity.
Qed.

Lemma first_bad_error : forall ls l, ~ In c l -> ascii (ended c (ls ++ [l])) -> Forall (takes (with_main rs e)) ls -> ~ takes (with_main rs e) l -> quiet rs e l ->
  exists p m d tr, l ++ [c] = p ++ m /\ forall t debug, ascii t -> exists fuel,
    parse_with_debug fuel (ended c ls ++ l ++ c :: t) L debug =
    Err (PError (pos_of (ended c ls ++ p)) d (tail_after is_nl (ended c ls ++ p)) (until_eol (m ++ t)) (if debug then tr else []) Normal).
Proof.
  intros ls l N A F B Q. unfold ended in A. rewrite flat_map_app in A. cbn [flat_map] in A. rewrite app_nil_r in A. change (ascii (ended c ls ++ l ++ [c])) in A.
  destruct (split_ascii _ _ _ A) as (A1 & A2 & A3). destruct (taken_good ls A1 F) as [kss H].
  apply (quiet_iff l A2) in Q. destruct Q as (r & P & Q). destruct (bad_report l r N) as (p & m & d & tr & E & R).
  { intros ks D. apply B. apply (takes_iff l A2). exists ks. exact D. }
  { exact P. } { exact Q. }
  exists p, m, d, (map (fun n => s_ "r:" ++ n) ((main :: flat_map names (kids kss)) ++ tr)). split; [exact E|]. intros t debug At.
  assert (A' : ascii (ended c ls ++ l ++ c :: t)) by (replace (ended c ls ++ l ++ c :: t) with ((ended c ls ++ l ++ [c]) ++ t) by (rewrite <- !app_assoc; reflexivity); apply Forall_app; split; assumption).
  destruct (parse_bad ls kss (l ++ c :: t) _ debug H A' ltac:(destruct l; discriminate) (R t)) as [fuel X]. exists fuel. rewrite X. f_equal.
  unfold error_at, SpecReport.shift. cbn [r_rest r_descr r_trail].
  assert (Y : ended c ls ++ l ++ c :: t = ended c ls ++ p ++ m ++ t) by (f_equal; change (c :: t) with ([c] ++ t); rewrite !app_assoc; f_equal; exact E).
  rewrite Y, before_lines. reflexivity.
Qed.

Lemma last_error : forall ls l, ~ In c l -> ascii (ended c ls ++ l) -> Forall (takes (with_main rs e)) ls -> quiet rs e l -> l <> [] ->
  exists p m d tr, l = p ++ m /\ forall debug, exists fuel,
    parse_with_debug fuel (ended c ls ++ l) L debug =
    Err (PError (pos_of (ended c ls ++ p)) d (tail_after is_nl (ended c ls ++ p)) (until_eol m) (if debug then tr else []) Normal).
Proof.
  intros ls l N A F Q Z. destruct (ascii_lines _ _ A) as (A1 & A2). destruct (taken_good ls A1 F) as [kss H].
  apply (quiet_iff l A2) in Q. destruct Q as (r & P & Q). destruct (last_report l r N P Q) as (p & m & d & tr & E & R).
  exists p, m, d, (map (fun n => s_ "r:" ++ n) ((main :: flat_map names (kids kss)) ++ tr)). split; [exact E|]. intro debug.
  destruct (parse_bad ls kss l _ debug H A Z R) as [fuel X]. exists fuel. rewrite X. f_equal.
  unfold error_at, SpecReport.shift. cbn [r_rest r_descr r_trail]. rewrite E, before_lines. reflexivity.
Qed.

(** * Calls *)

Lemma ended_cons_nil : forall l ls, ended c (l :: ls) = l ++ c :: ended c ls.
Proof.
  intros l ls. unfold ended. cbn [flat_map]. rewrite <- app_assoc. reflexivity.
Qed.

Notation taken := (takes (with_main rs e)).

Lemma e_costs : forall l k, ascii l -> makes_calls (with_main rs e) l k -> exists o, o <> OC /\ costs G e l o k.
Proof.
  intros l k A [fuel [NF K]].
  pose proof (expr_counts _ sane_e (S fuel) (status_init_debug l false) (RuleName main) I (inv_init l false)) as R.
  change (tally Nat.add (with_main rs e) (S fuel) (status_init_debug l false) (RuleName main)) with (S (parse_calls fuel l (with_main rs e) false)) in R.
  change (it_parsing (status_init_debug l false)) with l in R. rewrite K in R.
  set (o := ends (parse_expr (with_main rs e) (S fuel) (status_init_debug l false) (RuleName main))) in R.
  assert (N : o <> OC).
  { unfold o. rewrite expression_parse_expr. unfold parse in NF. pose proof (parse_no_panic fuel l (with_main rs e) false A) as NP. rewrite parse_unfold in NF, NP.
    destruct (expression_parse (with_main rs e) fuel (status_init_debug l false)) as [[st nd]|er| |]; cbn [bind ends] in *; [discriminate| |congruence|congruence].
    destruct (is_critical (e_priority er)); discriminate. }
  exists o. split; [exact N|]. clearbody o. inversion R as [| | | | | | | | | | |n x s o' k' E R'|n s o' E Hh]; subst.
  - unfold grammar_of in E. rewrite get_main in E. injection E as <-.
    refine (proj1 (costs_agree Ge G _ _) e l o _ R' NE).
    + intros n X. unfold grammar_of, line_rules. rewrite !get_other by exact X. reflexivity.
    + intros n x X. unfold grammar_of. rewrite get_other by exact X. exact (proj1 MU n x X).
  - unfold grammar_of in E. rewrite get_main in E. discriminate.
Qed.

Lemma good_costs : forall l ks k s, good l ks -> costs G e l (OM []) k -> costs G body (l ++ c :: s) (OM s) (S (k + (1 + 0))).
Proof.
  intros l ks k s D C. apply c_and. apply ca_cons with (s1 := c :: s); [exact (proj1 (stop_costs G c s) e l (OM []) k C SG)|].
  apply ca_cons with (s1 := s); [eapply c_match; exact (lit_c s)|apply ca_nil].
Qed.

Lemma ending_of : forall l r o k, peg G e l r -> costs G e l o k -> o <> OC ->
  o = match r with PMatch _ rest => OM rest | PFail => OF | PAbort _ _ => OA end.
Proof.
  intros l r o k P C N. pose proof (proj1 (costs_says G sane_L) e l o k C SE) as S.
  destruct o as [rest| | |]; cbn in S; [destruct S as [ts S]| |destruct S as (m & rest & S)|destruct (N eq_refl)]; rewrite (peg_det G e l _ P _ S); reflexivity.
Qed.

Lemma calls_add_up : forall ls ks k0, ascii (ended c ls) -> Forall taken ls -> quiet rs e [] ->
  Forall2 (makes_calls (with_main rs e)) ls ks -> makes_calls (with_main rs e) [] k0 ->
  exists b, (taken [] /\ b = 3 \/ ~ taken [] /\ b = 2) /\ makes_calls L (ended c ls) (list_sum (map (fun k => k + 2) ks) + k0 + b).
Proof.
  intros ls ks k0 A F Q H H0. assert (A1 : Forall ascii ls) by (rewrite <- (app_nil_r (ended c ls)) in A; exact (proj1 (ascii_lines ls [] A))).
  destruct (taken_good ls A1 F) as [kss D].
  apply quiet_iff in Q; [|constructor]. destruct Q as (r0 & P0 & Q0).
  destruct (e_costs [] k0 ltac:(constructor) H0) as (o0 & N0 & C0). pose proof (ending_of _ _ _ _ P0 C0 N0) as E0.
  assert (CB : exists b, (taken [] /\ b = 2 \/ ~ taken [] /\ b = 1) /\ costs G body [] OF (k0 + b)).
  { destruct r0 as [ts rest| |m rest]; [| |destruct (Q0 _ _ eq_refl)].
    - destruct (peg_suffix G e _ _ P0) as [p E]. symmetry in E. apply app_eq_nil in E. destruct E as [_ ->]. exists 2. split.
      + left. split; [|reflexivity]. apply takes_iff; [constructor|]. exists ts. exact P0.
      + replace (k0 + 2) with (S (k0 + 1)) by lia. apply c_and. apply ca_cons with (s1 := []); [rewrite <- E0; exact C0|]. apply ca_fail. apply c_fail. apply lit_not. discriminate.
    - exists 1. split.
      + right. split; [|reflexivity]. intro T. apply takes_iff in T; [|constructor]. destruct T as [ks' T]. discriminate (peg_det G e [] _ P0 _ T).
      + replace (k0 + 1) with (S k0) by lia. apply c_and. apply ca_fail. rewrite <- E0. exact C0. }
  destruct CB as (b & B & CB).
  assert (CL : costs_rep G body 0 None (ended c ls) (OM []) (list_sum (map (fun k => k + 2) ks) + (k0 + b))).
  { clear A F. revert ks H kss D A1. induction ls as [|l ls IH]; intros ks H kss D A1; inversion H as [|? k ? ks' K H']; subst; [apply cr_done; exact CB|].
    inversion D as [|? kk ? kss' G1 D']; subst. inversion A1 as [|? ? Al A1']; subst.
    destruct (e_costs l k Al K) as (o & No & C). rewrite (ending_of _ _ _ _ G1 C No) in C.
    rewrite ended_cons_nil. cbn [map]. replace (list_sum (k + 2 :: map (fun k1 => k1 + 2) ks') + (k0 + b)) with (S (k + (1 + 0)) + (list_sum (map (fun k1 => k1 + 2) ks') + (k0 + b))) by (unfold list_sum; cbn [fold_right]; lia).
    apply cr_more with (s1 := ended c ls); [discriminate|exact (good_costs l kk k (ended c ls) G1 C)|]. exact (IH ks' H' kss' D' A1'). }
  assert (CM : costs G (RuleName main) (ended c ls) (OM []) (S (S (list_sum (map (fun k => k + 2) ks) + (k0 + b))))).
  { eapply c_rule; [exact (get_main rs _)|]. apply c_rep. exact CL. }
  exists (S b). split; [destruct B as [[? ->]|[? ->]]; [left|right]; (split; [assumption|reflexivity])|].
  assert (FI : exists fuel, parse fuel (ended c ls) L <> Fuel).
  { apply (parse_terminates_iff _ L false sane_L A). pose proof (loop_lines ls kss D [] _ (loop_end r0 P0 Q0)) as X. rewrite app_nil_r in X.
    eexists. apply main_L. exact X. }
  destruct FI as [fuel FI]. exists fuel. split; [exact FI|]. pose proof (parse_calls_run L (ended c ls) fuel false _ _ sane_L A FI CM ltac:(discriminate)) as X. lia.
Qed.
End Lines.

(** * Rows *)

Lemma rows_of_lines : forall ls, Forall (fun l => ~ In ch_nl l) ls -> length (filter is_nl (ended ch_nl ls)) = length ls.
Proof.
  induction 1 as [|l ls N F IH]; [reflexivity|]. cbn [ended flat_map]. rewrite !filter_app, !app_length. fold (ended ch_nl ls). rewrite IH.
  replace (length (filter is_nl l)) with 0; [reflexivity|]. symmetry. clear - N. induction l as [|d l IH]; [reflexivity|]. cbn. unfold is_nl at 1.
  destruct (N.eqb_spec d ch_nl) as [->|D]; [destruct N; left; reflexivity|]. apply IH. intro I. apply N. right. exact I.
Qed.

Lemma row_of_prefix : forall ls l p m, Forall (fun x => ~ In ch_nl x) (l :: ls) -> l ++ [ch_nl] = p ++ m ->
  prow (pos_of (ended ch_nl ls ++ p)) = length ls \/
  p = l ++ [ch_nl] /\ prow (pos_of (ended ch_nl ls ++ p)) = S (length ls) /\ pcol (pos_of (ended ch_nl ls ++ p)) = 0.
Proof.
  intros ls l p m F E. inversion F as [|? ? Nl Fl]; subst. unfold pos_of. cbn [prow pcol]. rewrite filter_app, app_length, rows_of_lines by exact Fl.
  assert (Z : m = [] \/ exists m' x, m = m' ++ [x]) by (destruct m as [|y m]; [left; reflexivity|right; destruct (exists_last (l := y :: m) ltac:(discriminate)) as (l0 & w & E0); exists l0, w; exact E0]).
  destruct Z as [->|[m' [x ->]]].
  - right. rewrite app_nil_r in E. subst p. split; [reflexivity|]. rewrite filter_app, app_length. split.
    + pose proof (rows_of_lines [l] ltac:(constructor; [exact Nl|constructor])) as R. cbn [ended flat_map] in R. rewrite app_nil_r, filter_app, app_length in R. rewrite R. cbn. lia.
    + rewrite app_assoc, tail_after_snoc. reflexivity.
  - left. rewrite app_assoc in E. apply app_inj_tail in E. destruct E as [-> _].
    assert (N : ~ In ch_nl p) by (intro I; apply Nl; apply in_or_app; left; exact I).
    replace (length (filter is_nl p)) with 0; [lia|]. symmetry. clear - N. induction p as [|d l IH]; [reflexivity|]. cbn. unfold is_nl at 1.
    destruct (N.eqb_spec d ch_nl) as [->|D]; [destruct N; left; reflexivity|]. apply IH. intro I. apply N. right. exact I.
Qed.

Lemma split_unique : forall c ls ls' a a', ended c ls ++ a = ended c ls' ++ a' -> Forall (fun l => ~ In c l) (a :: ls) -> Forall (fun l => ~ In c l) (a' :: ls') -> ls = ls' /\ a = a'.
Proof.
  intros c. induction ls as [|l ls IH]; intros [|l' ls'] a a' E F F'; inversion F as [|? ? Na Fl]; inversion F' as [|? ? Na' Fl']; subst.
  - split; [reflexivity|exact E].
  - destruct Na. cbn [ended flat_map app] in E. rewrite E. apply in_or_app. left. apply in_or_app. left. apply in_or_app. right. left. reflexivity.
  - destruct Na'. cbn [ended flat_map app] in E. rewrite <- E. apply in_or_app. left. apply in_or_app. left. apply in_or_app. right. left. reflexivity.
  - inversion Fl as [|? ? N1 F1]; inversion Fl' as [|? ? N1' F1']; subst. rewrite !ended_cons in E.
    assert (X : l = l' /\ ended c ls ++ a = ended c ls' ++ a').
    { clear - E N1 N1'. revert l' E N1'. induction l as [|d l IH]; intros [|d' l'] E N1'; cbn in E.
      - injection E as E. split; [reflexivity|exact E].
      - injection E as E _. destruct N1'. left. symmetry. exact E.
      - injection E as E _. destruct N1. left. exact E.
      - injection E as -> E. destruct (IH (fun I => N1 (or_intror I)) l' E (fun I => N1' (or_intror I))) as [-> X]. split; [reflexivity|exact X]. }
    destruct X as [-> X]. destruct (IH ls' a a' X) as [-> ->]; [constructor; assumption|constructor; assumption|]. split; reflexivity.
Qed.

Lemma split_exists : forall c s, exists ls a, split_lines c s ls a.
Proof.
  intro c. induction s as [|d s (ls & a & E & F)]; [exists [], []; split; [reflexivity|repeat constructor; intros []]|].
  inversion F as [|? ? Na Fl]; subst. destruct (N.eq_dec d c) as [->|D].
  - exists ([] :: ls), a. split; [reflexivity|]. constructor; [exact Na|]. constructor; [intros []|exact Fl].
  - destruct ls as [|l ls].
    + exists [], (d :: a). split; [reflexivity|]. constructor; [|constructor]. intros [->|I]; [exact (D eq_refl)|exact (Na I)].
    + inversion Fl as [|? ? N1 F1]; subst. exists ((d :: l) :: ls), a. split; [reflexivity|]. constructor; [exact Na|]. constructor; [|exact F1].
      intros [->|I]; [exact (D eq_refl)|exact (N1 I)].
Qed.

(** A program for the condition, when it holds of all rules. *)
Definition minds_b (c : char) (a : atom) : bool :=
  match a with
  | Literal l => existsb (N.eqb c) l
  | Match cs rg => match_char cs rg c
  | Dot | AEOF => true
  | AError _ => false
  end.
Fixpoint strange_b (c : char) (e : expr) : bool :=
  match e with
  | Simple a => negb (minds_b c a)
  | And es | Or es => forallb (strange_b c) es
  | Not e0 | Repeat e0 _ _ => strange_b c e0
  | RuleName _ => true
  end.

Lemma strange_b_ok : forall c e, strange_b c e = true -> forall a, has_atom a e -> ~ minds c a.
Proof.
  intros c e B a H. induction H as [|e es I H IH|e es I H IH|e H IH|e mn mx H IH]; cbn [strange_b] in B; try (apply IH; first [exact B|exact (proj1 (forallb_forall _ _) B e I)]).
  apply Bool.negb_true_iff in B. destruct a as [l|cs rg|m| |]; cbn in *; try discriminate; [| |intros []].
  - intro X. assert (Y : existsb (N.eqb c) l = true) by (apply existsb_exists; exists c; split; [exact X|apply N.eqb_refl]). congruence.
  - intro X. apply match_char_iff in X. congruence.
Qed.

Lemma stranger_all : forall rs c e, strange_b c e = true -> forallb (fun p => strange_b c (snd p)) rs = true -> stranger (grammar_of rs) c e.
Proof.
  intros rs c e B F a U. induction U as [e a H|n e e' a R E U IH]; [exact (strange_b_ok c e B a H)|]. apply IH.
  unfold grammar_of in E. clear - F E. induction rs as [|[m x] rs IH]; [discriminate|]. cbn in F. apply andb_prop in F. destruct F as [F1 F2].
  cbn in E. destruct (str_eqb m n); [injection E as <-; exact F1|exact (IH F2 E)].
Qed.

Fixpoint refers_b (n : str) (e : expr) : bool :=
  match e with
  | Simple _ => false
  | And es | Or es => existsb (refers_b n) es
  | Not e0 | Repeat e0 _ _ => refers_b n e0
  | RuleName m => str_eqb m n
  end.
Lemma refers_b_ok : forall n e, has_ref n e -> refers_b n e = true.
Proof.
  intros n e H. induction H as [|e es I H IH|e es I H IH|e H IH|e mn mx H IH]; cbn [refers_b]; try exact IH; try (apply existsb_exists; exists e; split; assumption).
  apply str_eqb_eq. reflexivity.
Qed.
Lemma main_unused_all : forall rs e, refers_b main e = false -> forallb (fun p => negb (refers_b main (snd p))) rs = true -> main_unused rs [e].
Proof.
  intros rs e B F. split; [|constructor; [intro H; apply refers_b_ok in H; congruence|constructor]].
  intros n x _ E H. apply refers_b_ok in H. revert F E. induction rs as [|[m y] rs IH]; intros F E; [discriminate|]. cbn in F. apply andb_prop in F. destruct F as [F1 F2].
  cbn in E. destruct (str_eqb m n); [injection E as ->; rewrite H in F1; discriminate|exact (IH F2 E)].
Qed.
