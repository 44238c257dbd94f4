(** Every error stands for an obstacle. *)
From Verif Require Import Base ModelAst ModelParser SpecPeg SpecPos SpecApi SpecReport SpecStuck.
From Verif Require Import PegTools ProofParser ProofEngine ProofSim ProofApi ProofReport ProofLook.

Section Stuck.
Variable G : str -> option expr.

(** The report [q], with priority [p], is that of an obstacle in [e]. *)
Definition told (e : expr) (s : str) (p : prio) (q : report) : Prop :=
  exists o rest, stuck G e s (r_trail q) o rest /\ refuses G o rest (r_descr q) (r_rest q) p.

Definition truthful (e : expr) (s : str) (r : eresult) : Prop :=
  match r with
  | EMatch ts _ p t => t = flat_map names ts /\ forall q, p = Some q -> told e s Normal q
  | EFail q => told e s Normal q
  | EAbort q => told e s Critical q
  end.

Lemma told_and_first : forall e es s p q, told e s p q -> told (And (e :: es)) s p q.
Proof. intros e es s p q (o & rest & S & R). exists o, rest. split; [apply st_and_first; exact S|exact R]. Qed.

Lemma told_and_next : forall e es s ts s1 p q, peg G e s (PMatch ts s1) -> told (And es) s1 p q -> told (And (e :: es)) s p (shift (flat_map names ts) q).
Proof. intros e es s ts s1 p q D (o & rest & S & R). exists o, rest. split; [eapply st_and_next; eassumption|exact R]. Qed.

Lemma told_or : forall pre e es s p q, Forall (fun x => peg G x s PFail) pre -> told e s p q -> told (Or (pre ++ e :: es)) s p q.
Proof. intros pre e es s p q I (o & rest & S & R). exists o, rest. split; [apply st_or; assumption|exact R]. Qed.

Lemma told_rep_first : forall e mn mx s p q, mx <> Some 0 -> told e s p q -> told (Repeat e mn mx) s p q.
Proof. intros e mn mx s p q M (o & rest & S & R). exists o, rest. split; [apply st_rep_first; assumption|exact R]. Qed.

Lemma told_rep_next : forall e mn mx s ts s1 p q, mx <> Some 0 -> peg G e s (PMatch ts s1) -> told (Repeat e (pred mn) (option_map pred mx)) s1 p q ->
  told (Repeat e mn mx) s p (shift (flat_map names ts) q).
Proof. intros e mn mx s ts s1 p q M D (o & rest & S & R). exists o, rest. split; [eapply st_rep_next; eassumption|exact R]. Qed.

Lemma told_rule : forall n e s p q, G n = Some e -> told e s p q -> told (RuleName n) s p (shift [n] q).
Proof. intros n e s p q E (o & rest & S & R). exists o, rest. split; [eapply st_rule; eassumption|exact R]. Qed.

Lemma all_truthful :
  (forall e s r, pege G e s r -> truthful e s r) /\
  (forall es s o r, choice G es s o r -> forall pre, Forall (fun x => peg G x s PFail) pre ->
     (forall q, o = Some q -> told (Or (pre ++ es)) s Normal q) -> (o = None -> pre = []) -> truthful (Or (pre ++ es)) s r).
Proof.
  apply pege_choice_ind; unfold truthful; fold truthful; intros; try (split; [reflexivity|discriminate]).
  - eexists _, _. split; [apply st_atom|apply rf_lit; assumption].
  - eexists _, _. split; [apply st_atom|apply rf_class; assumption].
  - eexists _, _. split; [apply st_atom|apply rf_class_end].
  - eexists _, _. split; [apply st_atom|apply rf_dot].
  - eexists _, _. split; [apply st_atom|apply rf_eof].
  - eexists _, _. split; [apply st_atom|apply rf_error].
  - destruct H0 as [-> P]. pose proof (pege_plain G _ _ _ H) as D. cbn [plain] in D.
    destruct r as [us rest p' t'|q|q]; cbn [after truthful] in H2 |- *.
    + destruct H2 as [-> P']. split; [symmetry; apply flat_map_app|]. intros q E. destruct p' as [q'|].
      * injection E as <-. eapply told_and_next; [exact D|]. apply P'. reflexivity.
      * apply told_and_first, P, E.
    + eapply told_and_next; eassumption.
    + eapply told_and_next; eassumption.
  - destruct r as [us rest p' t'|q|q]; [contradiction| |]; apply told_and_first; exact H0.
  - apply (H0 []); [constructor|discriminate|reflexivity].
  - eexists _, _. split; [apply st_not|]. eapply rf_not. exact (pege_plain G _ _ _ H).
  - destruct H1 as [-> P]. pose proof (pege_plain G _ _ _ H0) as D. cbn [plain] in D.
    destruct r as [us rest p' t'|q|q]; cbn [after truthful] in H3 |- *.
    + destruct H3 as [-> P']. split; [symmetry; apply flat_map_app|]. intros q E. destruct p' as [q'|].
      * injection E as <-. eapply told_rep_next; [exact H|exact D|]. apply P'. reflexivity.
      * apply told_rep_first; [exact H|]. apply P, E.
    + eapply told_rep_next; eassumption.
    + eapply told_rep_next; eassumption.
  - split; [reflexivity|]. intros q' E. injection E as <-. apply told_rep_first; assumption.
  - apply told_rep_first; assumption.
  - apply told_rep_first; assumption.
  - destruct r as [us rest p' t'|q|q]; cbn [within truthful] in H1 |- *.
    + destruct H1 as [-> P]. split; [cbn [flat_map names]; rewrite app_nil_r; reflexivity|]. intros q E. destruct p' as [q'|]; [|discriminate].
      injection E as <-. eapply told_rule; [exact H|]. apply P. reflexivity.
    + eapply told_rule; eassumption.
    + eapply told_rule; eassumption.
  - eexists _, _. split; [apply st_missing; exact H|apply rf_missing; exact H].
  - rewrite (H1 eq_refl). eexists _, _. split; [apply st_choice|apply rf_choice].
  - apply H0. reflexivity.
  - destruct r as [us rest p' t'|q|q]; cbn [truthful] in H0 |- *.
    + destruct H0 as [-> P]. split; [reflexivity|]. intros q E. apply told_or; [assumption|]. apply P, E.
    + apply told_or; assumption.
    + apply told_or; assumption.
  - replace (pre ++ e :: es) with ((pre ++ [e]) ++ es) by (rewrite <- app_assoc; reflexivity).
    assert (N : told (Or (pre ++ e :: es)) s Normal q) by (apply told_or; assumption).
    apply H2; [apply Forall_app; split; [assumption|constructor; [exact (pege_plain G _ _ _ H)|constructor]]| |discriminate].
    rewrite <- app_assoc. cbn [app]. intros q' E. injection E as <-. unfold further. destruct o as [p0|]; [|exact N].
    destruct (_ <? _); [apply H4; reflexivity|exact N].
Qed.
End Stuck.

Lemma errors_truthful : forall rs fuel s debug er, sane_rules rs -> ascii s -> parse_with_debug fuel s rs debug = Err er ->
  (exists t o rest d place p, stuck (grammar_of rs) (RuleName main) s t o rest /\ refuses (grammar_of rs) o rest d place p /\
     er = error_at s debug p (Report d place t)) \/
  (exists ts c rest, peg_main rs s (PMatch ts (c :: rest)) /\
     er = error_at s debug Normal (Report (s_ "not consumed full input") (c :: rest) (flat_map names ts))).
Proof.
  intros rs fuel s debug er SR As E. destruct (proj1 (parse_report_iff s rs debug (Err er) SR As ltac:(discriminate)) (ex_intro _ fuel E)) as (r & D & A).
  pose proof (proj1 (all_truthful (grammar_of rs)) _ _ _ D) as T.
  inversion A; subst; cbn [truthful] in T.
  - left. destruct T as [_ T]. destruct (T q eq_refl) as (o & r & S & R). destruct q as [d place tr]. exists tr, o, r, d, place, Normal. auto.
  - right. exists ts, c, rest. split; [exact (pege_plain _ _ _ _ D)|]. destruct T as [-> _]. reflexivity.
  - left. destruct T as (o & r & S & R). destruct q as [d place tr]. exists tr, o, r, d, place, Normal. auto.
  - left. destruct T as (o & r & S & R). destruct q as [d place tr]. exists tr, o, r, d, place, Critical. auto.
Qed.

(** * Obstacles of the critical kind end the parse *)

Lemma critical_aborts : forall G e s t o rest, stuck G e s t o rest -> forall d place, refuses G o rest d place Critical ->
  pege G e s (EAbort (Report d place t)).
Proof.
  intros G e s t o rest H. induction H as [a s|e s|n s M|s|e es s t o rest H IH|e es s ts s1 t o rest D H IH|pre e post s t o rest F H IH
    |e mn mx s t o rest M H IH|e mn mx s ts s1 t o rest M D H IH|n e s t o rest E H IH]; intros d place R.
  - inversion R; subst. apply ee_error.
  - inversion R.
  - inversion R; subst. apply ee_rule_missing. exact M.
  - inversion R.
  - apply ee_and_stop; [apply IH; exact R|exact I].
  - destruct (peg_pege _ _ _ _ D) as ([us r1 p1 t1|q|q] & P & Q); try discriminate. injection Q as -> ->.
    assert (T : t1 = flat_map names ts) by exact (proj1 (proj1 (all_truthful G) _ _ _ P)). subst t1.
    exact (ee_and_cons G e es s ts s1 p1 _ _ P (IH d place R)).
  - apply ee_or. specialize (IH d place R). revert F. generalize (@None report) as acc. induction pre as [|x pre IHp]; intros acc F.
    + apply ch_first; [exact IH|intros []].
    + inversion F as [|y l F1 F2]; subst. destruct (peg_pege _ _ _ _ F1) as ([us r1 p1 t1|q|q] & P & Q); try discriminate.
      cbn [app]. eapply ch_next; [exact P|]. apply IHp. exact F2.
  - apply ee_rep_abort; [exact M|apply IH; exact R].
  - destruct (peg_pege _ _ _ _ D) as ([us r1 p1 t1|q|q] & P & Q); try discriminate. injection Q as -> ->.
    assert (T : t1 = flat_map names ts) by exact (proj1 (proj1 (all_truthful G) _ _ _ P)). subst t1.
    exact (ee_rep_more G e mn mx s ts s1 p1 _ _ M P (IH d place R)).
  - exact (ee_rule G n e s _ E (IH d place R)).
Qed.

Lemma critical_exact : forall rs s debug er, sane_rules rs -> ascii s -> e_priority er = Critical ->
  ((exists fuel, parse_with_debug fuel s rs debug = Err er) <->
   (exists t o rest d place, stuck (grammar_of rs) (RuleName main) s t o rest /\ refuses (grammar_of rs) o rest d place Critical /\
      er = error_at s debug Critical (Report d place t))).
Proof.
  intros rs s debug er SR As C. split.
  - intros [fuel E]. destruct (errors_truthful rs fuel s debug er SR As E) as [(t & o & rest & d & place & p & S & R & ->)|(ts & c & rest & _ & ->)]; cbn in C.
    + subst p. exists t, o, rest, d, place. auto.
    + discriminate.
  - intros (t & o & rest & d & place & S & R & ->).
    apply (parse_report_iff s rs debug _ SR As); [discriminate|]. exists (EAbort (Report d place t)). split; [|apply an_abort].
    eapply critical_aborts; eassumption.
Qed.
