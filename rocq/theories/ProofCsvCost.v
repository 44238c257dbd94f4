(** CSV files: calls. *)
From Verif Require Import Base ModelAst ModelParser ModelCost SpecPeg SpecPos SpecApi SpecWf SpecComments SpecTable SpecCsv.
From Verif Require Import PegTools ProofParser ProofEngine ProofApi ProofRun ProofRunDet ProofCsv ProofElse2 Examples.

(** Calls for a read that goes on, or that stops the whole text at a quote without an end. *)
Definition within (Q : char) (a b c : nat) (s rest : str) (k : nat) : Prop :=
  length rest <= length s /\ (k + a * length rest <= a * length s + b \/ (exists r, rest = Q :: r) /\ k <= a * length s + c).

Section Separated.
Variable G : str -> option expr.
Variable X : expr.
Variables C Q : char.
Hypothesis CQ : C <> Q.
Variables a b c : nat.
Hypothesis BC : b <= c.
Hypothesis TOT : forall s, exists rest k, costs G X s (OM rest) k /\ within Q a b c s rest k.
Notation more := (And [lit [C]; X]).

Lemma k_end : forall s, starts_not_with C s -> costs_rep G more 0 None s (OM s) 2.
Proof. intros s N. apply cr_done. apply (c_and G _ _ _ 1). apply ca_fail. apply q_nolit. intros (r & E). exact (N r E). Qed.
Lemma k_loop : forall s, exists rest k, costs_rep G more 0 None s (OM rest) k /\ within Q (a + b + 2) 2 (c + 2) s rest k.
Proof.
  intro s. remember (length s) as n eqn:K. assert (L : length s <= n) by lia. clear K. revert s L. induction n as [n IH] using lt_wf_ind. intros s L.
  destruct (head_dec C s) as [(s1 & ->)|N].
  - cbn [length] in L. destruct (TOT s1) as (r & k1 & D & LR & W). assert (M : costs G more (C :: s1) (OM r) (S (1 + (k1 + 0)))).
    { apply c_and. eapply ca_cons; [exact (q_lit G [C] s1)|]. eapply ca_cons; [exact D|apply ca_nil]. }
    assert (P1 := Nat.mul_le_mono_l _ _ a LR). assert (P2 := Nat.mul_le_mono_l _ _ b LR).
    destruct (IH (length r) ltac:(lia) r (Nat.le_refl _)) as (rest & k2 & D2 & LR2 & W2).
    assert (P3 := Nat.mul_le_mono_l _ _ a LR2). assert (P4 := Nat.mul_le_mono_l _ _ b LR2).
    destruct W as [W|((r' & ->) & W)].
    + exists rest, (S (1 + (k1 + 0)) + k2). split; [eapply cr_more; [discriminate|exact M|exact D2]|]. split; [cbn [length]; lia|]. cbn [length].
      destruct W2 as [W2|(EQ & W2)]; [left|right; split; [exact EQ|]]; lia.
    + exists (Q :: r'), (S (1 + (k1 + 0)) + 2). split; [eapply cr_more; [discriminate|exact M|]|].
      { apply k_end. intros r E. injection E as E _. exact (CQ (eq_sym E)). }
      split; [cbn [length] in *; lia|]. right. split; [eexists; reflexivity|]. cbn [length] in *. lia.
  - exists s, 2. split; [exact (k_end s N)|]. split; [lia|]. left. lia.
Qed.
Lemma k_list : forall s, exists rest k, costs G (And [X; Repeat more 0 None]) s (OM rest) k /\ within Q (a + b + 2) (b + 4) (c + b + 4) s rest k.
Proof.
  intro s. destruct (TOT s) as (r & k1 & D & LR & W). destruct (k_loop r) as (rest & k2 & D2 & LR2 & W2).
  assert (P1 := Nat.mul_le_mono_l _ _ a LR). assert (P2 := Nat.mul_le_mono_l _ _ b LR).
  assert (P3 := Nat.mul_le_mono_l _ _ a LR2). assert (P4 := Nat.mul_le_mono_l _ _ b LR2).
  assert (M : forall rest k2, costs_rep G more 0 None r (OM rest) k2 -> costs G (And [X; Repeat more 0 None]) s (OM rest) (S (k1 + (S k2 + 0)))).
  { intros rest' k' D'. apply c_and. eapply ca_cons; [exact D|]. eapply ca_cons; [apply c_rep; exact D'|apply ca_nil]. }
  destruct W as [W|((r' & ->) & W)].
  - exists rest, (S (k1 + (S k2 + 0))). split; [exact (M _ _ D2)|]. split; [lia|]. destruct W2 as [W2|(EQ & W2)]; [left|right; split; [exact EQ|]]; lia.
  - exists (Q :: r'), (S (k1 + (S 2 + 0))). split; [apply M, k_end; intros r E; injection E as E _; exact (CQ (eq_sym E))|]. split; [exact LR|]. right. split; [eexists; reflexivity|]. lia.
Qed.
End Separated.

Section Csv.
Variables Q F R : char.
Hypothesis QF : Q <> F.
Hypothesis QR : Q <> R.
Hypothesis FR : F <> R.
Notation G := (grammar_of (csv_rules Q F R)).
Notation run := (costs G).
Notation qitem := (Or [lit [Q; Q]; And [Not (lit [Q]); dot_]]).
Notation pitem := (And [Not (lit [Q]); Not (lit [F]); Not (lit [R]); dot_]).

Lemma k_not : forall c s, starts_not_with c s -> run (Not (lit [c])) s (OM s) 2.
Proof. intros c s N. apply (c_not_ok G _ _ OF 1); [|left; reflexivity]. apply q_nolit. intros (r & E). exact (N r E). Qed.
Lemma k_here : forall c s, run (Not (lit [c])) (c :: s) OF 2.
Proof. intros c s. apply (c_not_fail G _ _ s 1). exact (q_lit G [c] s). Qed.
Lemma k_dot : forall x s, run dot_ (x :: s) (OM s) 1.
Proof. intros x s. eapply c_match. apply peg_dot_ok. Qed.
Lemma k_nodot : run dot_ [] OF 1.
Proof. apply c_fail. apply peg_dot_fail. Qed.

Lemma k_pitem : forall x s, x <> Q /\ x <> F /\ x <> R -> run pitem (x :: s) (OM s) 8.
Proof.
  intros x s (N1 & N2 & N3). apply (c_and G _ _ _ (2 + (2 + (2 + (1 + 0))))).
  eapply ca_cons; [apply k_not, other_head, N1|]. eapply ca_cons; [apply k_not, other_head, N2|]. eapply ca_cons; [apply k_not, other_head, N3|].
  eapply ca_cons; [apply k_dot|apply ca_nil].
Qed.
Lemma k_pend : forall s, ends_plain Q F R s -> exists k, run pitem s OF k /\ k <= 8.
Proof.
  intros s H. destruct (head_dec Q s) as [(r & ->)|N1]; [exists 3; split; [apply (c_and G _ _ _ 2), ca_fail, k_here|lia]|].
  destruct (head_dec F s) as [(r & ->)|N2]; [exists 5; split; [apply (c_and G _ _ _ (2 + 2)); eapply ca_cons; [exact (k_not Q _ N1)|apply ca_fail, k_here]|lia]|].
  destruct (head_dec R s) as [(r & ->)|N3].
  - exists 7. split; [|lia]. apply (c_and G _ _ _ (2 + (2 + 2))). eapply ca_cons; [exact (k_not Q _ N1)|]. eapply ca_cons; [exact (k_not F _ N2)|]. apply ca_fail, k_here.
  - destruct s as [|x s]; [|exfalso; destruct (H x s eq_refl) as [->|[->| ->]]; [exact (N1 s eq_refl)|exact (N2 s eq_refl)|exact (N3 s eq_refl)]].
    exists 8. split; [|lia]. apply (c_and G _ _ _ (2 + (2 + (2 + 1)))). eapply ca_cons; [exact (k_not Q _ N1)|]. eapply ca_cons; [exact (k_not F _ N2)|]. eapply ca_cons; [exact (k_not R _ N3)|].
    apply ca_fail, k_nodot.
Qed.
Lemma k_plain : forall w rest, Forall (fun x => x <> Q /\ x <> F /\ x <> R) w -> ends_plain Q F R rest ->
  exists k, run (RuleName nm_plain) (w ++ rest) (OM rest) k /\ k <= 8 * length w + 10.
Proof.
  intros w rest K E. assert (L : exists k, costs_rep G pitem 0 None (w ++ rest) (OM rest) k /\ k <= 8 * length w + 8).
  { induction K as [|x w Kx K (k & D & B)]; [destruct (k_pend rest E) as (k & D & B); exists k; split; [exact (cr_done G _ _ _ _ D)|lia]|].
    exists (8 + k). split; [|cbn [length]; lia]. cbn [app]. eapply cr_more; [discriminate|exact (k_pitem x _ Kx)|exact D]. }
  destruct L as (k & D & B). exists (S (S k)). split; [|lia]. eapply c_rule; [reflexivity|]. apply c_rep. exact D.
Qed.

Lemma k_qitem : forall x s, exists k, run qitem (twice Q x ++ s) (OM s) k /\ k <= 6.
Proof.
  intros x s. destruct (N.eq_dec x Q) as [->|N].
  - rewrite twice_q. exists 2. split; [|lia]. apply (c_or G _ _ _ 1). apply co_match. exact (q_lit G [Q; Q] s).
  - rewrite (twice_other Q x N). exists 6. split; [|lia]. apply (c_or G _ _ _ (1 + 4)). apply co_next.
    + apply q_nolit. intros (r & E). injection E as E _. congruence.
    + apply co_match. apply (c_and G _ _ _ (2 + (1 + 0))). eapply ca_cons; [apply k_not, other_head, N|]. eapply ca_cons; [apply k_dot|apply ca_nil].
Qed.
Lemma k_qend : forall s, s = [] \/ (exists r, s = Q :: r /\ starts_not_with Q r) -> exists k, run qitem s OF k /\ k <= 6.
Proof.
  intros s [->|(r & -> & N)].
  - exists 6. split; [|lia]. apply (c_or G _ _ _ (1 + (4 + 0))). apply co_next; [apply q_nolit; intros (r & E); discriminate|]. apply co_next; [|apply co_nil].
    apply (c_and G _ _ _ (2 + 1)). eapply ca_cons; [apply k_not; intros r E; discriminate|]. apply ca_fail, k_nodot.
  - exists 5. split; [|lia]. apply (c_or G _ _ _ (1 + (3 + 0))). apply co_next; [apply q_nolit; intros (r' & E); injection E as E; exact (N r' E)|]. apply co_next; [|apply co_nil].
    apply (c_and G _ _ _ 2), ca_fail, k_here.
Qed.
Lemma k_qloop : forall w s, s = [] \/ (exists r, s = Q :: r /\ starts_not_with Q r) ->
  exists k, costs_rep G qitem 0 None (flat_map (twice Q) w ++ s) (OM s) k /\ k <= 6 * length w + 6.
Proof.
  intros w s E. induction w as [|x w (k & D & B)]; [destruct (k_qend s E) as (k & D & B); exists k; split; [exact (cr_done G _ _ _ _ D)|lia]|].
  destruct (k_qitem x (flat_map (twice Q) w ++ s)) as (k1 & D1 & B1). exists (k1 + k). split; [|cbn [length]; lia]. cbn [flat_map]. rewrite <- app_assoc.
  eapply cr_more; [discriminate|exact D1|exact D].
Qed.
Lemma twice_len : forall w, length w <= length (flat_map (twice Q) w).
Proof. induction w as [|x w IH]; [cbn; lia|]. cbn [flat_map length]. rewrite app_length. unfold twice at 1. destruct (x =? Q)%N; cbn [length]; lia. Qed.
Lemma k_quoted : forall w rest, starts_not_with Q rest ->
  exists k, run (RuleName nm_quoted) (Q :: flat_map (twice Q) w ++ Q :: rest) (OM rest) k /\ k <= 6 * length w + 11.
Proof.
  intros w rest N. destruct (k_qloop w (Q :: rest) ltac:(right; eauto)) as (k & D & B). exists (S (S (1 + (S k + (1 + 0))))). split; [|lia].
  eapply c_rule; [reflexivity|]. apply c_and. eapply ca_cons; [exact (q_lit G [Q] _)|]. eapply ca_cons; [apply c_rep; exact D|]. eapply ca_cons; [exact (q_lit G [Q] rest)|apply ca_nil].
Qed.
Lemma k_open : forall w, exists k, run (RuleName nm_quoted) (Q :: flat_map (twice Q) w) OF k /\ k <= 6 * length w + 11.
Proof.
  intro w. destruct (k_qloop w [] ltac:(left; reflexivity)) as (k & D & B). rewrite app_nil_r in D. exists (S (S (1 + (S k + 1)))). split; [|lia].
  eapply c_rule; [reflexivity|]. apply c_and. eapply ca_cons; [exact (q_lit G [Q] _)|]. eapply ca_cons; [apply c_rep; exact D|]. apply ca_fail, q_nolit. intros (r & E). discriminate.
Qed.
Lemma k_noquote : forall s, starts_not_with Q s -> run (RuleName nm_quoted) s OF 3.
Proof. intros s N. apply (c_rule G nm_quoted _ _ _ 2 eq_refl). apply (c_and G _ _ _ 1), ca_fail, q_nolit. intros (r & E). exact (N r E). Qed.

Lemma k_field : forall s, exists rest k, run (RuleName nm_field) s (OM rest) k /\ within Q 8 15 23 s rest k.
Proof.
  intro s. destruct (head_dec Q s) as [(s1 & ->)|N].
  - destruct (split_quoted Q F R QF QR FR s1) as (w & r & -> & [->|(rest & -> & N)]); pose proof (twice_len w) as TL.
    + rewrite app_nil_r. destruct (k_open w) as (k & D & B). destruct (k_plain [] (Q :: flat_map (twice Q) w)) as (k' & D' & B');
        [constructor|intros x r E; injection E as <- _; left; reflexivity|].
      exists (Q :: flat_map (twice Q) w), (S (S (k + k'))). split.
      * eapply c_rule; [reflexivity|]. apply c_or. apply co_next; [exact D|]. apply co_match. exact D'.
      * split; [lia|]. right. split; [eexists; reflexivity|]. cbn [length] in *. lia.
    + destruct (k_quoted w rest N) as (k & D & B). exists rest, (S (S k)). split.
      * eapply c_rule; [reflexivity|]. apply c_or. apply co_match. exact D.
      * unfold within. cbn [length]. rewrite app_length. cbn [length]. split; [lia|]. left. lia.
  - destruct (split_plain Q F R s) as (w & rest & -> & K & E). destruct (k_plain w rest K E) as (k & D & B). exists rest, (S (S (3 + k))). split.
    + eapply c_rule; [reflexivity|]. apply c_or. apply co_next; [exact (k_noquote _ N)|]. apply co_match. exact D.
    + unfold within. rewrite app_length. split; [lia|]. left. lia.
Qed.
Lemma k_row : forall s, exists rest k, run (RuleName nm_row) s (OM rest) k /\ within Q 25 20 43 s rest k.
Proof.
  intro s. destruct (k_list G (RuleName nm_field) F Q ltac:(congruence) 8 15 23 ltac:(lia) k_field s) as (rest & k & D & L & W).
  exists rest, (S k). split; [eapply c_rule; [reflexivity|exact D]|]. split; [exact L|]. destruct W as [W|(E & W)]; [left|right; split; [exact E|]]; lia.
Qed.
Lemma k_main : forall s, exists rest k, run (RuleName main) s (OM rest) k /\ k <= 47 * length s + 68.
Proof.
  intro s. destruct (k_list G (RuleName nm_row) R Q ltac:(congruence) 25 20 43 ltac:(lia) k_row s) as (rest & k & D & L & W).
  exists rest, (S k). split; [eapply c_rule; [reflexivity|exact D]|]. destruct W as [W|(E & W)]; lia.
Qed.
Lemma csv_calls : forall s fuel debug, ascii s -> parse_with_debug fuel s (csv_rules Q F R) debug <> Fuel ->
  parse_calls fuel s (csv_rules Q F R) debug <= 47 * length s + 67.
Proof.
  intros s fuel debug A N. destruct (k_main s) as (rest & k & D & B).
  pose proof (parse_calls_run _ s fuel debug (OM rest) k (csv_sane Q F R) A N D ltac:(discriminate)). lia.
Qed.
End Csv.
