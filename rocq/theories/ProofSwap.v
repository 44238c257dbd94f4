(** Exchanging equivalent parts of rules, at the level of parse. *)
From Verif Require Import Base ModelAst ModelParser SpecPeg SpecPos SpecApi SpecRefactor SpecLang SpecSwap.
From Verif Require Import ProofParser ProofEngine ProofApi ProofRefactor ProofLang PegTools.

Lemma replaced_mono : forall (E F : expr -> expr -> Prop), (forall a b, E a b -> F a b) ->
  forall e e', replaced E e e' -> replaced F e e'.
Proof.
  intros E F H. fix IH 3. intros e e' R. destruct R as [e e' K|e|es es' K|es es' K|e e' K|e e' mn mx K].
  - apply rp_here. apply H. exact K.
  - apply rp_same.
  - apply rp_and. induction K as [|x x' l l' X L IHL]; constructor; [apply IH; exact X|exact IHL].
  - apply rp_or. induction K as [|x x' l l' X L IHL]; constructor; [apply IH; exact X|exact IHL].
  - apply rp_not. apply IH. exact K.
  - apply rp_rep. apply IH. exact K.
Qed.

Lemma replaced_back : forall (E : expr -> expr -> Prop) e e', replaced E e e' -> replaced (fun a b => E b a) e' e.
Proof.
  intros E. fix IH 3. intros e e' R. destruct R as [e e' K|e|es es' K|es es' K|e e' K|e e' mn mx K].
  - apply rp_here. exact K.
  - apply rp_same.
  - apply rp_and. induction K as [|x x' l l' X L IHL]; constructor; [apply IH; exact X|exact IHL].
  - apply rp_or. induction K as [|x x' l l' X L IHL]; constructor; [apply IH; exact X|exact IHL].
  - apply rp_not. apply IH. exact K.
  - apply rp_rep. apply IH. exact K.
Qed.

Lemma swapped_back : forall e e' rs rs', swapped e e' rs rs' -> swapped e' e rs' rs.
Proof.
  intros e e' rs rs' H n. specialize (H n). destruct (rules_get rs n), (rules_get rs' n); try exact H.
  apply replaced_back in H. eapply replaced_mono; [|exact H]. cbn. tauto.
Qed.

Lemma rejects_peg : forall s rs, sane_rules rs -> ascii s ->
  ((exists fuel er, parse fuel s rs = Err er) <-> exists r, peg_main rs s r /\ forall ast, r <> PMatch [ast] []).
Proof.
  intros s rs S A. rewrite (parse_rejects s rs S A). split.
  - intros [[r D] N]. exists r. split; [exact D|]. intros ast ->. apply N.
    apply peg_main_shape in D. destruct D as (e & k & E & _ & D). eauto.
  - intros (r & D & N). split; [eauto|]. intros (e & ts & E & D2).
    apply (N (Rule main ts)). apply (peg_det _ _ _ _ D). change (PMatch [Rule main ts] []) with (wrap main (PMatch ts [])).
    eapply peg_rule; eassumption.
Qed.

Lemma same_of_peg : forall rs rs', sane_rules rs -> sane_rules rs' -> (forall s r, peg_main rs s r <-> peg_main rs' s r) -> same_answers rs rs'.
Proof.
  intros rs rs' S S' H s A. split; [|split].
  - intro ast. pose proof (parse_accepts_iff s rs false S A ast) as P. pose proof (parse_accepts_iff s rs' false S' A ast) as P'.
    unfold parse. rewrite P, P'. apply H.
  - rewrite (rejects_peg s rs S A), (rejects_peg s rs' S' A). split; intros (r & D & N); exists r; (split; [apply H; exact D|exact N]).
  - intros msg k. unfold aborts. rewrite (parse_abort_iff s rs msg k S A), (parse_abort_iff s rs' msg k S' A).
    split; intros (r & D & N); exists r; (split; [apply H; exact D|exact N]).
Qed.

Lemma swapped_refactored : forall e e' rs rs', swapped e e' rs rs' -> equiv (grammar_of rs) e e' -> refactored (grammar_of rs) (grammar_of rs').
Proof.
  intros e e' rs rs' H Q n. specialize (H n). unfold grammar_of in *. destruct (rules_get rs n), (rules_get rs' n); try exact H.
  eapply replaced_mono; [|exact H]. cbn. intros a b [-> ->]. exact Q.
Qed.

Lemma swap_exact : forall e e' rs rs', sane_rules rs -> sane_rules rs' -> swapped e e' rs rs' ->
  equiv (grammar_of rs) e e' -> equiv (grammar_of rs') e e' -> same_answers rs rs'.
Proof.
  intros e e' rs rs' S S' W Q Q'. apply same_of_peg; [exact S|exact S'|]. intros s r. split.
  - apply refactored_sound. apply (swapped_refactored e' e); [apply swapped_back; exact W|apply equiv_sym; exact Q'].
  - apply refactored_sound. apply (swapped_refactored e e'); [exact W|exact Q].
Qed.

Lemma law_interchangeable : forall e e', (forall G, equiv G e e') -> interchangeable e e'.
Proof. intros e e' H rs rs' S S' W. apply (swap_exact e e'); auto. Qed.

(** * Languages *)

Lemma swapped_rewritten : forall e e' rs rs', swapped e e' rs rs' -> same_language (grammar_of rs) e e' -> rewritten (grammar_of rs) (grammar_of rs').
Proof.
  intros e e' rs rs' H Q n. specialize (H n). unfold grammar_of in *. destruct (rules_get rs n), (rules_get rs' n); try exact H.
  eapply replaced_mono; [|exact H]. cbn. intros a b [-> ->]. exact Q.
Qed.

Lemma same_language_back : forall G e e', same_language G e e' -> same_language G e' e.
Proof. intros G e e' H s o. symmetry. apply H. Qed.

Lemma same_of_lang : forall rs rs', sane_rules rs -> sane_rules rs' ->
  (forall s o, lang (grammar_of rs) (RuleName main) s o <-> lang (grammar_of rs') (RuleName main) s o) -> same_texts rs rs'.
Proof.
  assert (ACC : forall rs s, sane_rules rs -> ascii s ->
    ((exists fuel ast, parse fuel s rs = Ok ast) <-> lang (grammar_of rs) (RuleName main) s (PMatch [] []))).
  { intros rs s S A. split.
    - intros (f & ast & F). exists (PMatch [ast] []). split; [|reflexivity]. apply (parse_accepts_iff s rs false S A). exists f. exact F.
    - intros (r & D & B). destruct r as [ts rest| |]; try discriminate. cbn in B. injection B as ->.
      destruct (peg_main_shape _ _ _ _ D) as (e & k & _ & -> & _). destruct (proj2 (parse_accepts_iff s rs false S A _) D) as [f F].
      exists f. eexists. exact F. }
  assert (REJ : forall rs s, sane_rules rs -> ascii s ->
    ((exists fuel er, parse fuel s rs = Err er) <-> exists o, lang (grammar_of rs) (RuleName main) s o /\ o <> PMatch [] [])).
  { intros rs s S A. rewrite (rejects_peg s rs S A). split.
    - intros (r & D & N). exists (bare r). split; [exists r; auto|]. intro B. destruct r as [ts rest| |]; try discriminate. cbn in B. injection B as ->.
      destruct (peg_main_shape _ _ _ _ D) as (e & k & _ & -> & _). exact (N _ eq_refl).
    - intros (o & (r & D & <-) & N). exists r. split; [exact D|]. intros ast ->. apply N. reflexivity. }
  intros rs rs' S S' H s A. split; [|split].
  - rewrite !ACC by assumption. apply H.
  - rewrite !REJ by assumption. split; intros (o & D & N); exists o; (split; [apply H; exact D|exact N]).
  - intros msg k. unfold aborts. rewrite (parse_abort_iff s rs msg k S A), (parse_abort_iff s rs' msg k S' A).
    assert (AB : forall G rest, peg G (RuleName main) s (PAbort msg rest) <-> lang G (RuleName main) s (PAbort msg rest)).
    { intros G rest. split; [intro D; eexists; split; [exact D|reflexivity]|]. intros (r & D & B). destruct r; try discriminate. cbn in B. congruence. }
    unfold peg_main. split; intros (r & D & N); exists r; (split; [apply AB; apply H; apply AB; exact D|exact N]).
Qed.

Lemma rewritten_lang : forall G G', rewritten G G' -> forall e s o, lang G' e s o -> lang G e s o.
Proof. intros G G' R e s o (r & D & <-). exact (rewritten_sound G G' R e s r D). Qed.

Lemma swap_texts : forall e e' rs rs', sane_rules rs -> sane_rules rs' -> swapped e e' rs rs' ->
  same_language (grammar_of rs) e e' -> same_language (grammar_of rs') e e' -> same_texts rs rs'.
Proof.
  intros e e' rs rs' S S' W Q Q'. apply same_of_lang; [exact S|exact S'|]. intros s o. split.
  - apply rewritten_lang. apply (swapped_rewritten e' e); [apply swapped_back; exact W|apply same_language_back; exact Q'].
  - apply rewritten_lang. apply (swapped_rewritten e e'); [exact W|exact Q].
Qed.
