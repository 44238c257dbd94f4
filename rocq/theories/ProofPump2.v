(** Three equal numbers do not survive a repetition of two parts. *)
From Verif Require Import Base ModelAst ModelParser SpecPeg SpecPos SpecApi SpecWf SpecLang SpecBnf SpecPower ProofParser ProofEngine ProofApi ProofWf ProofBnf ProofDocs ProofPump.

Section Three.
Variables x y z : char.
Hypothesis XY : x <> y.
Hypothesis YZ : y <> z.
Hypothesis XZ : x <> z.

Definition three (n : nat) : str := times n [x] ++ times n [y] ++ times n [z].

(** How often a char stands in a text. *)
Fixpoint count (c : char) (s : str) : nat := match s with [] => 0 | d :: r => (if N.eqb d c then 1 else 0) + count c r end.

Lemma count_app : forall c s t, count c (s ++ t) = count c s + count c t.
Proof. intros c s t. induction s as [|d s IH]; cbn [app count]; [reflexivity|]. rewrite IH. lia. Qed.

Lemma count_same : forall c n, count c (times n [c]) = n.
Proof. intros c n. induction n as [|n IH]; cbn [times app count]; [reflexivity|]. rewrite N.eqb_refl, IH. lia. Qed.

Lemma count_other : forall c d n, d <> c -> count c (times n [d]) = 0.
Proof. intros c d n H. induction n as [|n IH]; cbn [times app count]; [reflexivity|]. apply N.eqb_neq in H. rewrite H, IH. reflexivity. Qed.

Lemma count_in : forall c s, 0 < count c s -> In c s.
Proof.
  intros c s. induction s as [|d s IH]; cbn [count]; [lia|]. destruct (N.eqb d c) eqn:E.
  - apply N.eqb_eq in E. intros _. left. exact E.
  - intro H. right. apply IH. lia.
Qed.

Lemma three_counts : forall n, count x (three n) = n /\ count y (three n) = n /\ count z (three n) = n.
Proof.
  intro n. unfold three. rewrite !count_app, !count_same, !count_other by congruence. lia.
Qed.

Lemma in_times : forall c d n, In c (times n [d]) -> c = d.
Proof. intros c d n. induction n as [|n IH]; cbn [times app In]; [tauto|]. intros [E|E]; [congruence|exact (IH E)]. Qed.

(** The place of a char. *)
Definition rank (c : char) : nat := if N.eqb c x then 0 else if N.eqb c y then 1 else 2.
Lemma rank_x : rank x = 0. Proof. unfold rank. rewrite N.eqb_refl. reflexivity. Qed.
Lemma rank_y : rank y = 1.
Proof. unfold rank. replace (N.eqb y x) with false by (symmetry; apply N.eqb_neq; congruence). rewrite N.eqb_refl. reflexivity. Qed.
Lemma rank_z : rank z = 2.
Proof.
  unfold rank. replace (N.eqb z x) with false by (symmetry; apply N.eqb_neq; congruence).
  replace (N.eqb z y) with false by (symmetry; apply N.eqb_neq; congruence). reflexivity.
Qed.

Inductive sorted : str -> Prop :=
| so_nil : sorted []
| so_cons c s : Forall (fun d => rank c <= rank d) s -> sorted s -> sorted (c :: s).

Lemma sorted_block : forall c n s, sorted s -> Forall (fun d => rank c <= rank d) s -> sorted (times n [c] ++ s).
Proof.
  intros c n s S F. induction n as [|n IH]; [exact S|]. cbn [times app]. constructor; [|exact IH].
  apply Forall_app. split; [|exact F]. apply Forall_forall. intros d D. apply in_times in D. subst. lia.
Qed.

Lemma three_sorted : forall n, sorted (three n).
Proof.
  intro n. unfold three. apply sorted_block; [apply sorted_block|].
  - rewrite <- (app_nil_r (times n [z])). apply sorted_block; constructor.
  - apply Forall_forall. intros d D. apply in_times in D. subst. rewrite rank_y, rank_z. lia.
  - apply Forall_forall. intros d D. rewrite rank_x. lia.
Qed.

Lemma sorted_app : forall s t, sorted (s ++ t) -> forall c d, In c s -> In d t -> rank c <= rank d.
Proof.
  intros s t. induction s as [|e s IH]; intros S c d C D; [destruct C|]. cbn [app] in S. inversion S as [|? ? F S']; subst.
  destruct C as [<-|C]; [|exact (IH S' c d C D)]. rewrite Forall_forall in F. apply F, in_or_app. right. exact D.
Qed.

Lemma sorted_twice : forall a u b, sorted (a ++ u ++ u ++ b) -> forall c d, In c u -> In d u -> rank c = rank d.
Proof.
  intros a u b S c d C D. assert (Q : forall c d, In c u -> In d u -> rank c <= rank d).
  { intros c' d' C' D'. rewrite app_assoc in S. apply (sorted_app _ _ S); [apply in_or_app; right; exact C'|apply in_or_app; left; exact D']. }
  apply Nat.le_antisymm; apply Q; assumption.
Qed.

Lemma three_do_not_repeat : forall a u w v b k m n, a ++ u ++ w ++ v ++ b = three n -> u ++ v <> [] ->
  a ++ w ++ b = three k -> a ++ (u ++ u) ++ w ++ (v ++ v) ++ b = three m -> False.
Proof.
  intros a u w v b k m n E N E0 E2.
  assert (C : forall c, count c (three n) = count c (three k) + count c (u ++ v)).
  { intro c. rewrite <- E, <- E0, !count_app. lia. }
  destruct (three_counts n) as (NX & NY & NZ). destruct (three_counts k) as (KX & KY & KZ).
  assert (CX := C x). assert (CY := C y). assert (CZ := C z).
  assert (D : n <> k).
  { intro Q. subst k. apply N. rewrite <- E in E0. apply (f_equal (@length char)) in E0. rewrite !app_length in E0.
    apply length_zero_iff_nil. rewrite app_length. unfold str, char in *. lia. }
  assert (IX : In x (u ++ v)) by (apply count_in; unfold str, char in *; lia).
  assert (IY : In y (u ++ v)) by (apply count_in; unfold str, char in *; lia).
  assert (IZ : In z (u ++ v)) by (apply count_in; unfold str, char in *; lia).
  assert (S := three_sorted m). rewrite <- E2 in S.
  assert (SU : forall c d, In c u -> In d u -> rank c = rank d).
  { apply (sorted_twice a u (w ++ (v ++ v) ++ b)). rewrite <- (app_assoc u u) in S. exact S. }
  assert (SV : forall c d, In c v -> In d v -> rank c = rank d).
  { apply (sorted_twice (a ++ (u ++ u) ++ w) v b). rewrite <- !app_assoc in S. rewrite <- !app_assoc. exact S. }
  assert (RX := rank_x). assert (RY := rank_y). assert (RZ := rank_z).
  apply in_app_or in IX, IY, IZ.
  destruct IX as [IX|IX], IY as [IY|IY], IZ as [IZ|IZ];
    repeat match goal with
    | H1 : In ?c u, H2 : In ?d u |- _ => lazymatch c with d => fail | _ => assert (Q := SU c d H1 H2); rewrite RX, RY in Q || rewrite RX, RZ in Q || rewrite RY, RZ in Q || rewrite RY, RX in Q || rewrite RZ, RX in Q || rewrite RZ, RY in Q; discriminate Q end
    | H1 : In ?c v, H2 : In ?d v |- _ => lazymatch c with d => fail | _ => assert (Q := SV c d H1 H2); rewrite RX, RY in Q || rewrite RX, RZ in Q || rewrite RY, RZ in Q || rewrite RY, RX in Q || rewrite RZ, RX in Q || rewrite RZ, RY in Q; discriminate Q end
    end.
Qed.

Lemma three_length : forall n, length (three n) = 3 * n.
Proof. intro n. assert (Q : forall c : char, length (times n [c]) = n) by (intro c; induction n as [|i IH]; cbn; [reflexivity|rewrite IH; reflexivity]). unfold three. rewrite !app_length, !Q. lia. Qed.

Lemma three_dec : forall s, (exists n, 1 <= n /\ s = three n) \/ ~ exists n, 1 <= n /\ s = three n.
Proof.
  intro s. destruct (list_eq_dec N.eq_dec s (three (length s / 3))) as [E|E].
  - destruct (le_lt_dec 1 (length s / 3)) as [L|L]; [left; exists (length s / 3); split; assumption|].
    right. intros (n & N & E'). subst s. rewrite three_length, Nat.mul_comm, Nat.div_mul in L; lia.
  - right. intros (n & _ & E'). apply E. rewrite E' at 2. rewrite three_length, Nat.mul_comm, Nat.div_mul by lia. exact E'.
Qed.

(** A set of texts that has all [three n], with parts that can be repeated in long texts, has other texts too. *)
Lemma three_and_more : forall (P : str -> Prop) p, (forall n, 1 <= n -> P (three n)) ->
  (forall s, P s -> p < length s -> exists a u w v b, s = a ++ u ++ w ++ v ++ b /\ u ++ v <> [] /\ forall n, P (a ++ times n u ++ w ++ times n v ++ b)) ->
  exists s, P s /\ ~ exists n, 1 <= n /\ s = three n.
Proof.
  intros P p A R. destruct (R (three (S p)) (A (S p) ltac:(lia))) as (a & u & w & v & b & E & N & Q); [rewrite three_length; lia|].
  destruct (three_dec (a ++ times 0 u ++ w ++ times 0 v ++ b)) as [(k & _ & Ek)|X]; [|eexists; split; [exact (Q 0)|exact X]].
  destruct (three_dec (a ++ times 2 u ++ w ++ times 2 v ++ b)) as [(m & _ & Em)|X]; [|eexists; split; [exact (Q 2)|exact X]].
  exfalso. cbn [times app] in Ek, Em. rewrite !app_nil_r in Em.
  exact (three_do_not_repeat a u w v b k m (S p) (eq_sym E) N Ek Em).
Qed.

End Three.

Lemma taken_ascii : forall rs s, takes rs s -> ascii s.
Proof.
  intros rs s (fuel & ast & T). destruct (Forall_dec ascii_char ascii_char_dec s) as [A|A]; [exact A|].
  exfalso. exact (parse_non_ascii fuel s rs false ast A T).
Qed.

Lemma ascii_times : forall n s, ascii s -> ascii (times n s).
Proof. intros n s H. induction n as [|n IH]; [constructor|]. apply Forall_app. split; assumption. Qed.

Lemma ascii_repeated : forall a u w v b n, ascii (a ++ u ++ w ++ v ++ b) -> ascii (a ++ times n u ++ w ++ times n v ++ b).
Proof.
  intros a u w v b n H. unfold ascii in *. rewrite !Forall_app in *. destruct H as (A & U & W & V & B).
  repeat split; try assumption; apply ascii_times; assumption.
Qed.

Lemma generated_taken : forall rs s t, sane_rules rs -> well_formed (grammar_of rs) -> predictive_grammar (grammar_of rs) ->
  ascii s -> derives (grammar_of rs) (RuleName main) s [t] -> takes rs s.
Proof.
  intros rs s t SR WF PG A D. exists (depth_factor rs * (length s + 1)), t. apply (predictive_parse rs _ false _ t SR WF PG A (le_n _)). exact D.
Qed.

Lemma predictive_pump : forall rs, sane_rules rs -> well_formed (grammar_of rs) -> predictive_grammar (grammar_of rs) ->
  exists p, forall s, takes rs s -> p < length s ->
  exists a u w v b, s = a ++ u ++ w ++ v ++ b /\ u ++ v <> [] /\ forall n, takes rs (a ++ times n u ++ w ++ times n v ++ b).
Proof.
  intros rs SR WF PG. destruct (generated_pump rs (RuleName main)) as (p & H). exists p. intros s T L. assert (A := taken_ascii rs s T).
  destruct T as (fuel & ast & T). destruct (H s [ast] (accepted_derives rs fuel s false ast SR T) L) as (a & u & w & v & b & E & N & P).
  exists a, u, w, v, b. split; [exact E|]. split; [exact N|]. intro n. destruct (P n) as (us & D).
  assert (A' : ascii (a ++ times n u ++ w ++ times n v ++ b)) by (apply ascii_repeated; rewrite <- E; exact A).
  assert (U : exists t, us = [t]) by (inversion D; subst; eexists; reflexivity). destruct U as (t & ->).
  exact (generated_taken rs _ t SR WF PG A' D).
Qed.
