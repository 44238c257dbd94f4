(** Bounds on the calls that the rules of the PEG grammar make: the lexical rules. *)
From Verif Require Import Base ModelAst ModelParser ModelCost ModelPegRules SpecPeg ProofParser ProofEngine ProofPegApi PegTools PegNames PegLeaf ProofRun.

Notation run := (costs PG).

Lemma PG_sane : forall n e, PG n = Some e -> sane e.
Proof. exact parse_peg_sane. Qed.

Lemma run_says : forall e s o k, run e s o k -> sane e -> says PG e s o.
Proof. exact (proj1 (costs_says PG PG_sane)). Qed.

Lemma run_le : forall e s r k, run e s (OM r) k -> sane e -> length r <= length s.
Proof. intros e s r k H S. destruct (run_says _ _ _ _ H S) as [ts P]. exact (match_le _ _ _ _ P). Qed.

Lemma run_lt : forall e s r k, run e s (OM r) k -> sane e -> consumes e -> length r < length s.
Proof. intros e s r k H S C. destruct (run_says _ _ _ _ H S) as [ts P]. exact (C _ _ _ P). Qed.

(* ------------------------------------------------------------------------------------------- *)
(** * Taking runs apart *)

Lemma i_simple : forall a s o k, run (Simple a) s o k -> k <= 1.
Proof. intros a s o k H. inversion H; lia. Qed.

Lemma i_and : forall es s o k, run (And es) s o k -> (o = OC /\ k = 0) \/ exists k', k = S k' /\ costs_and PG es s o k'.
Proof. intros es s o k H. inversion H; subst; eauto. Qed.

Lemma i_or : forall es s o k, run (Or es) s o k -> (o = OC /\ k = 0) \/ exists k', k = S k' /\ costs_or PG es s o k'.
Proof. intros es s o k H. inversion H; subst; eauto. Qed.

Lemma i_rep : forall e mn mx s o k, run (Repeat e mn mx) s o k -> (o = OC /\ k = 0) \/ exists k', k = S k' /\ costs_rep PG e mn mx s o k'.
Proof. intros e mn mx s o k H. inversion H; subst; eauto. Qed.

Lemma i_rule : forall n e s o k, PG n = Some e -> run (RuleName n) s o k -> (o = OC /\ k = 0) \/ exists k', k = S k' /\ run e s o k'.
Proof.
  intros n e s o k E H. inversion H as [| | | | | | | | | | |? e' ? ? ? E'|? ? ? E']; subst; eauto; [|congruence].
  rewrite E in E'. injection E' as <-. eauto.
Qed.

Lemma i_not : forall e s o k, run (Not e) s o k -> (o = OC /\ k = 0) \/ exists k' o', k = S k' /\ run e s o' k' /\
  (o = OM s \/ o = OC \/ (o = OF /\ exists r, o' = OM r)).
Proof. intros e s o k H. inversion H; subst; [auto|right..]; do 2 eexists; (split; [reflexivity|]); split; eauto 7. Qed.

Lemma i_and_nil : forall s o k, costs_and PG [] s o k -> o = OM s /\ k = 0.
Proof. intros s o k H. inversion H; subst; auto. Qed.

Lemma i_and_cons : forall e es s o k, costs_and PG (e :: es) s o k ->
  (exists s1 k1 k2, run e s (OM s1) k1 /\ costs_and PG es s1 o k2 /\ k = k1 + k2) \/ (o = OF /\ run e s OF k) \/ (halts o /\ run e s o k).
Proof. intros e es s o k H. inversion H; subst; eauto 9. Qed.

Lemma i_or_nil : forall s o k, costs_or PG [] s o k -> (o = OF \/ o = OC) /\ k = 0.
Proof. intros s o k H. inversion H; subst; auto. Qed.

Lemma i_or_cons : forall e es s o k, costs_or PG (e :: es) s o k ->
  (exists s1, o = OM s1 /\ run e s (OM s1) k) \/ (halts o /\ run e s o k) \/
  (exists k1 k2, run e s OF k1 /\ costs_or PG es s o k2 /\ k = k1 + k2).
Proof. intros e es s o k H. inversion H; subst; eauto 9. Qed.

Lemma i_opt : forall e s o k, costs_rep PG e 0 (Some 1) s o k ->
  (o = OC /\ k = 0) \/ (exists s1, o = OM s1 /\ run e s (OM s1) k) \/ (o = OM s /\ run e s OF k) \/ (halts o /\ run e s o k).
Proof. intros e s o k H. inversion H; subst; eauto 7; try congruence. lia. Qed.

(** Repetitions without a maximum. *)
Lemma rep_ind : forall e (P : nat -> str -> ending -> nat -> Prop),
  (forall mn s, P mn s OC 0) ->
  (forall mn s s1 o k k', run e s (OM s1) k -> P (pred mn) s1 o k' -> P mn s o (k + k')) ->
  (forall s k, run e s OF k -> P 0 s (OM s) k) ->
  (forall mn s k, 0 < mn -> run e s OF k -> P mn s OF k) ->
  (forall mn s o k, run e s o k -> halts o -> P mn s o k) ->
  forall mn s o k, costs_rep PG e mn None s o k -> P mn s o k.
Proof.
  intros e P H1 H2 H3 H4 H5 mn s o k H. remember None as mx eqn:X. induction H; subst; eauto; discriminate.
Qed.

(* ------------------------------------------------------------------------------------------- *)
(** * Constant, linear and coarse costs *)

Definition Const (e : expr) : Prop := sane e /\ exists A, forall s o k, run e s o k -> k <= A.

(** What a run consumes: the whole text, when it does not match. *)
Definition used (s : str) (o : ending) : nat := match o with OM r => length s - length r | _ => length s end.
Definition Lin (e : expr) : Prop := sane e /\ exists A, forall s o k, run e s o k -> k <= A * S (used s o).
Definition Coarse (e : expr) : Prop := sane e /\ exists A, forall s o k, run e s o k -> k <= A * S (length s).

Lemma used_le : forall s o, used s o <= length s.
Proof. intros s [r| | |]; cbn; lia. Qed.

Lemma Lin_const : forall e, Const e -> Lin e.
Proof. intros e [S [A H]]. split; [exact S|]. exists A. intros s o k R. specialize (H _ _ _ R). nia. Qed.
Lemma Coarse_lin : forall e, Lin e -> Coarse e.
Proof. intros e [S [A H]]. split; [exact S|]. exists A. intros s o k R. specialize (H _ _ _ R). pose proof (used_le s o). nia. Qed.
Lemma Coarse_const : forall e, Const e -> Coarse e.
Proof. intros e C. apply Coarse_lin, Lin_const, C. Qed.

Lemma Const_simple : forall a, Const (Simple a).
Proof. intro a. split; [exact I|]. exists 1. intros s o k H. exact (i_simple _ _ _ _ H). Qed.

Lemma sane_and : forall (P : expr -> Prop) es, (forall e, P e -> sane e) -> Forall P es -> sane (And es).
Proof. intros P es H F. cbn. apply sane_list. eapply Forall_impl; [exact H|exact F]. Qed.
Lemma sane_or : forall (P : expr -> Prop) es, (forall e, P e -> sane e) -> Forall P es -> sane (Or es).
Proof. exact sane_and. Qed.

Lemma Const_and : forall es, Forall Const es -> Const (And es).
Proof.
  intros es F. split; [apply (sane_and Const); [intros e [S _]; exact S|exact F]|].
  assert (X : exists A, forall s o k, costs_and PG es s o k -> k <= A).
  { induction F as [|e es [Se [A Ha]] F IH].
    - exists 0. intros s o k H. apply i_and_nil in H. lia.
    - destruct IH as [B Hb]. exists (A + B). intros s o k H. apply i_and_cons in H.
      destruct H as [(s1 & k1 & k2 & H1 & H2 & ->)|[[_ H]|[_ H]]].
      + apply Ha in H1. apply Hb in H2. lia.
      + apply Ha in H. lia.
      + apply Ha in H. lia. }
  destruct X as [A X]. exists (S A). intros s o k H. apply i_and in H. destruct H as [[_ ->]|(k' & -> & H)]; [lia|]. apply X in H. lia.
Qed.

Lemma Const_or : forall es, Forall Const es -> Const (Or es).
Proof.
  intros es F. split; [apply (sane_or Const); [intros e [S _]; exact S|exact F]|].
  assert (X : exists A, forall s o k, costs_or PG es s o k -> k <= A).
  { induction F as [|e es [Se [A Ha]] F IH].
    - exists 0. intros s o k H. apply i_or_nil in H. lia.
    - destruct IH as [B Hb]. exists (A + B). intros s o k H. apply i_or_cons in H.
      destruct H as [(s1 & _ & H)|[[_ H]|(k1 & k2 & H1 & H2 & ->)]].
      + apply Ha in H. lia.
      + apply Ha in H. lia.
      + apply Ha in H1. apply Hb in H2. lia. }
  destruct X as [A X]. exists (S A). intros s o k H. apply i_or in H. destruct H as [[_ ->]|(k' & -> & H)]; [lia|]. apply X in H. lia.
Qed.

Lemma Const_not : forall e, Const e -> Const (Not e).
Proof.
  intros e [S [A H]]. split; [exact S|]. exists (Datatypes.S A). intros s o k R. apply i_not in R.
  destruct R as [[_ ->]|(k' & o' & -> & R & _)]; [lia|]. apply H in R. lia.
Qed.

Lemma Const_opt : forall e, Const e -> Const (Repeat e 0 (Some 1)).
Proof.
  intros e [S [A H]]. split; [split; [exact S|lia]|]. exists (Datatypes.S A). intros s o k R. apply i_rep in R.
  destruct R as [[_ ->]|(k' & -> & R)]; [lia|]. apply i_opt in R.
  destruct R as [[_ ->]|[(s1 & _ & R)|[[_ R]|[_ R]]]]; [lia|apply H in R; lia..].
Qed.

Lemma Const_rule : forall n e, PG n = Some e -> Const e -> Const (RuleName n).
Proof.
  intros n e E [S [A H]]. split; [exact I|]. exists (Datatypes.S A). intros s o k R. eapply i_rule in R; [|exact E].
  destruct R as [[_ ->]|(k' & -> & R)]; [lia|]. apply H in R. lia.
Qed.

Lemma Lin_rule : forall n e, PG n = Some e -> Lin e -> Lin (RuleName n).
Proof.
  intros n e E [S [A H]]. split; [exact I|]. exists (Datatypes.S A). intros s o k R. eapply i_rule in R; [|exact E].
  destruct R as [[_ ->]|(k' & -> & R)]; [lia|]. apply H in R. lia.
Qed.

Lemma Coarse_rule : forall n e, PG n = Some e -> Coarse e -> Coarse (RuleName n).
Proof.
  intros n e E [S [A H]]. split; [exact I|]. exists (Datatypes.S A). intros s o k R. eapply i_rule in R; [|exact E].
  destruct R as [[_ ->]|(k' & -> & R)]; [lia|]. apply H in R. lia.
Qed.

Lemma Lin_and : forall es, Forall Lin es -> Lin (And es).
Proof.
  intros es F. split; [apply (sane_and Lin); [intros e [S _]; exact S|exact F]|].
  assert (X : exists A, forall s o k, costs_and PG es s o k -> k <= A * S (used s o) /\ match o with OM r => length r <= length s | _ => True end).
  { induction F as [|e es [Se [A Ha]] F IH].
    - exists 0. intros s o k H. apply i_and_nil in H. destruct H as [-> ->]. cbn. lia.
    - destruct IH as [B Hb]. exists (A + B). intros s o k H. apply i_and_cons in H.
      destruct H as [(s1 & k1 & k2 & H1 & H2 & ->)|[[-> H]|[L H]]].
      + pose proof (run_le _ _ _ _ H1 Se) as L1. apply Ha in H1. apply Hb in H2. destruct H2 as [H2 L2]. cbn in H1.
        destruct o as [r| | |]; cbn [used] in *; (split; [|lia || exact I]).
        * assert (length s - length s1 <= length s - length r) by lia. assert (length s1 - length r <= length s - length r) by lia. nia.
        * nia.
        * nia.
        * nia.
      + apply Ha in H. cbn [used] in *. split; [nia|exact I].
      + apply Ha in H. destruct L as [->| ->]; cbn [used] in *; (split; [nia|exact I]). }
  destruct X as [A X]. exists (S A). intros s o k H. apply i_and in H. destruct H as [[_ ->]|(k' & -> & H)]; [lia|]. apply X in H. lia.
Qed.

Lemma Lin_or_nil : Lin (Or []).
Proof. apply Lin_const, Const_or. constructor. Qed.

Lemma Lin_or : forall e es, Const e -> Lin (Or es) -> Lin (Or (e :: es)).
Proof.
  intros e es [Se [A Ha]] [Ss [B Hb]]. split; [split; [exact Se|exact Ss]|]. exists (S (A + B)). intros s o k H.
  apply i_or in H. destruct H as [[_ ->]|(k' & -> & H)]; [lia|]. apply i_or_cons in H.
  destruct H as [(s1 & -> & H)|[[_ H]|(k1 & k2 & H1 & H2 & ->)]].
  - apply Ha in H. cbn [used]. nia.
  - apply Ha in H. nia.
  - apply Ha in H1. apply (c_or PG) in H2. apply Hb in H2. nia.
Qed.

Lemma Lin_or_one : forall e, Lin e -> Lin (Or [e]).
Proof.
  intros e [Se [A Ha]]. split; [split; [exact Se|exact I]|]. exists (S A). intros s o k H.
  apply i_or in H. destruct H as [[_ ->]|(k' & -> & H)]; [lia|]. apply i_or_cons in H.
  destruct H as [(s1 & -> & H)|[[_ H]|(k1 & k2 & H1 & H2 & ->)]].
  - apply Ha in H. lia.
  - apply Ha in H. lia.
  - apply Ha in H1. apply i_or_nil in H2. destruct H2 as [[->| ->] ->]; cbn [used] in *; lia.
Qed.

Lemma Lin_rep : forall e mn, Const e -> consumes e -> Lin (Repeat e mn None).
Proof.
  intros e mn [Se [A Ha]] C. split; [split; [exact Se|exact I]|]. exists (S A). intros s o k H.
  apply i_rep in H. destruct H as [[_ ->]|(k' & -> & H)]; [lia|].
  assert (X : k' <= A * S (used s o) /\ match o with OM r => length r <= length s | _ => True end); [|lia]. revert mn s o k' H.
  apply (rep_ind e (fun mn s o k' => k' <= A * S (used s o) /\ match o with OM r => length r <= length s | _ => True end)).
  - intros _ s. split; [lia|exact I].
  - intros _ s s1 o k k' H [H' L']. pose proof (run_lt _ _ _ _ H Se C) as L. apply Ha in H.
    destruct o as [r| | |]; cbn [used] in *; (split; [|lia || exact I]).
    + replace (length s - length r) with (S (length s1 - length r) + (length s - S (length s1))) by lia. nia.
    + assert (A * S (length s) >= A * S (S (length s1))) by (apply Nat.mul_le_mono_l; lia). lia.
    + assert (A * S (length s) >= A * S (S (length s1))) by (apply Nat.mul_le_mono_l; lia). lia.
    + assert (A * S (length s) >= A * S (S (length s1))) by (apply Nat.mul_le_mono_l; lia). lia.
  - intros s k H. apply Ha in H. cbn [used]. split; [nia|lia].
  - intros _ s k _ H. apply Ha in H. cbn [used]. split; [nia|exact I].
  - intros _ s o k H L. apply Ha in H. destruct L as [->| ->]; cbn [used]; (split; [nia|exact I]).
Qed.

Lemma Coarse_and : forall es, Forall Coarse es -> Coarse (And es).
Proof.
  intros es F. split; [apply (sane_and Coarse); [intros e [S _]; exact S|exact F]|].
  assert (X : exists A, forall s o k, costs_and PG es s o k -> k <= A * S (length s)).
  { induction F as [|e es [Se [A Ha]] F IH].
    - exists 0. intros s o k H. apply i_and_nil in H. lia.
    - destruct IH as [B Hb]. exists (A + B). intros s o k H. apply i_and_cons in H.
      destruct H as [(s1 & k1 & k2 & H1 & H2 & ->)|[[-> H]|[_ H]]].
      + pose proof (run_le _ _ _ _ H1 Se) as L1. apply Ha in H1. apply Hb in H2. nia.
      + apply Ha in H. nia.
      + apply Ha in H. nia. }
  destruct X as [A X]. exists (S A). intros s o k H. apply i_and in H. destruct H as [[_ ->]|(k' & -> & H)]; [lia|]. apply X in H. lia.
Qed.

Lemma Coarse_or : forall es, Forall Coarse es -> Coarse (Or es).
Proof.
  intros es F. split; [apply (sane_or Coarse); [intros e [S _]; exact S|exact F]|].
  assert (X : exists A, forall s o k, costs_or PG es s o k -> k <= A * S (length s)).
  { induction F as [|e es [Se [A Ha]] F IH].
    - exists 0. intros s o k H. apply i_or_nil in H. lia.
    - destruct IH as [B Hb]. exists (A + B). intros s o k H. apply i_or_cons in H.
      destruct H as [(s1 & _ & H)|[[_ H]|(k1 & k2 & H1 & H2 & ->)]].
      + apply Ha in H. nia.
      + apply Ha in H. nia.
      + apply Ha in H1. apply Hb in H2. nia. }
  destruct X as [A X]. exists (S A). intros s o k H. apply i_or in H. destruct H as [[_ ->]|(k' & -> & H)]; [lia|]. apply X in H. lia.
Qed.

Lemma Coarse_not : forall e, Coarse e -> Coarse (Not e).
Proof.
  intros e [S [A H]]. split; [exact S|]. exists (Datatypes.S A). intros s o k R. apply i_not in R.
  destruct R as [[_ ->]|(k' & o' & -> & R & _)]; [lia|]. apply H in R. lia.
Qed.

Lemma Coarse_rep : forall e mn, Lin e -> consumes e -> Coarse (Repeat e mn None).
Proof.
  intros e mn [Se [A Ha]] C. split; [split; [exact Se|exact I]|]. exists (S (3 * A)). intros s o k H.
  apply i_rep in H. destruct H as [[_ ->]|(k' & -> & H)]; [lia|].
  assert (X : k' <= 3 * A * S (length s)); [|lia]. revert mn s o k' H.
  apply (rep_ind e (fun mn s o k' => k' <= 3 * A * S (length s))).
  - intros _ s. lia.
  - intros _ s s1 o k k' H H'. pose proof (run_lt _ _ _ _ H Se C) as L. apply Ha in H. cbn [used] in H.
    replace (length s) with (S (length s1) + (length s - S (length s1))) in * by lia.
    generalize dependent (length s - S (length s1)). intros d H. replace (S (length s1) + d - length s1) with (S d) in H by lia. nia.
  - intros s k H. apply Ha in H. pose proof (used_le s OF). nia.
  - intros _ s k _ H. apply Ha in H. pose proof (used_le s OF). nia.
  - intros _ s o k H _. apply Ha in H. pose proof (used_le s o). nia.
Qed.

(* ------------------------------------------------------------------------------------------- *)
(** * Runs that are settled by the first char *)

Lemma looks_cost : forall f e h, looks PG f e h <> None -> exists B, forall s o k, head_is h s -> sane e -> run e s o k -> k <= B.
Proof.
  induction f as [|f IH]; intros e h N; [contradiction|]. destruct e as [a|es|es|e1|e1 mn mx|n]; cbn [looks] in N.
  - exists 1. intros s o k _ _ H. exact (i_simple _ _ _ _ H).
  - assert (X : exists B, forall s o k, head_is h s -> Forall sane es -> costs_and PG es s o k -> k <= B).
    { induction es as [|x es IHl].
      - exists 0. intros s o k _ _ H. apply i_and_nil in H. lia.
      - assert (Nx : looks PG f x h <> None) by (intro E; rewrite E in N; contradiction).
        destruct (IH x h Nx) as [B1 H1]. destruct (looks PG f x h) as [[|]|] eqn:E; [| |contradiction].
        + destruct (IHl N) as [B2 H2]. exists (B1 + B2). intros s o k Hd Sn H. inversion Sn; subst. apply i_and_cons in H.
          destruct H as [(s1 & k1 & k2 & R1 & R2 & ->)|[[_ H]|[_ H]]].
          * destruct (run_says _ _ _ _ R1 ltac:(assumption)) as [ts P]. destruct (looks_empty PG f x h s Hd E) as [us Q].
            pose proof (peg_det _ _ _ _ P _ Q) as D. injection D as _ ->.
            pose proof (H1 _ _ _ Hd ltac:(assumption) R1). pose proof (H2 _ _ _ Hd ltac:(assumption) R2). lia.
          * pose proof (H1 _ _ _ Hd ltac:(assumption) H). lia.
          * pose proof (H1 _ _ _ Hd ltac:(assumption) H). lia.
        + exists B1. intros s o k Hd Sn H. inversion Sn; subst. apply i_and_cons in H.
          destruct H as [(s1 & k1 & k2 & R1 & R2 & ->)|[[_ H]|[_ H]]]; [|exact (H1 _ _ _ Hd ltac:(assumption) H)..].
          destruct (run_says _ _ _ _ R1 ltac:(assumption)) as [ts P]. pose proof (looks_fail PG f x h s Hd E) as Q.
          pose proof (peg_det _ _ _ _ P _ Q). discriminate. }
    destruct X as [B X]. exists (S B). intros s o k Hd Sn H. apply i_and in H. destruct H as [[_ ->]|(k' & -> & H)]; [lia|].
    apply X in H; [lia|exact Hd|apply sane_list; exact Sn].
  - assert (X : exists B, forall s o k, head_is h s -> Forall sane es -> costs_or PG es s o k -> k <= B).
    { induction es as [|x es IHl].
      - exists 0. intros s o k _ _ H. apply i_or_nil in H. lia.
      - assert (Nx : looks PG f x h <> None) by (intro E; rewrite E in N; contradiction).
        destruct (IH x h Nx) as [B1 H1]. destruct (looks PG f x h) as [[|]|] eqn:E; [| |contradiction].
        + exists B1. intros s o k Hd Sn H. inversion Sn; subst. apply i_or_cons in H.
          destruct H as [(s1 & -> & H)|[[_ H]|(k1 & k2 & R1 & R2 & ->)]]; [exact (H1 _ _ _ Hd ltac:(assumption) H)..|].
          pose proof (run_says _ _ _ _ R1 ltac:(assumption)) as P. destruct (looks_empty PG f x h s Hd E) as [us Q].
          pose proof (peg_det _ _ _ _ P _ Q). discriminate.
        + destruct (IHl N) as [B2 H2]. exists (B1 + B2). intros s o k Hd Sn H. inversion Sn; subst. apply i_or_cons in H.
          destruct H as [(s1 & -> & H)|[[_ H]|(k1 & k2 & R1 & R2 & ->)]]; try (pose proof (H1 _ _ _ Hd ltac:(assumption) H); lia).
          pose proof (H1 _ _ _ Hd ltac:(assumption) R1). pose proof (H2 _ _ _ Hd ltac:(assumption) R2). lia. }
    destruct X as [B X]. exists (S B). intros s o k Hd Sn H. apply i_or in H. destruct H as [[_ ->]|(k' & -> & H)]; [lia|].
    apply X in H; [lia|exact Hd|apply sane_list; exact Sn].
  - destruct (IH e1 h) as [B X]. { intro E. rewrite E in N. contradiction. }
    exists (S B). intros s o k Hd Sn H. apply i_not in H. destruct H as [[_ ->]|(k' & o' & -> & H & _)]; [lia|]. apply X in H; [lia|exact Hd|exact Sn].
  - assert (E : looks PG f e1 h = Some false).
    { destruct mx as [[|m]|], (looks PG f e1 h) as [[|]|]; try contradiction; reflexivity. }
    destruct (IH e1 h) as [B X]; [congruence|].
    exists (S B). intros s o k Hd Sn H. apply i_rep in H. destruct H as [[_ ->]|(k' & -> & H)]; [lia|]. destruct Sn as [Sn _].
    inversion H; subst; try lia; try (match goal with R : run e1 s _ _ |- _ => pose proof (X _ _ _ Hd Sn R); lia end);
      match goal with R : run e1 s (OM _) _ |- _ => destruct (run_says _ _ _ _ R Sn) as [ts P]; pose proof (looks_fail PG f e1 h s Hd E) as Q;
        pose proof (peg_det _ _ _ _ P _ Q); discriminate end.
  - destruct (PG n) as [e1|] eqn:E; [|contradiction]. destruct (IH e1 h N) as [B X]. exists (S B). intros s o k Hd _ H.
    eapply i_rule in H; [|exact E]. destruct H as [[_ ->]|(k' & -> & H)]; [lia|]. apply X in H; [lia|exact Hd|exact (PG_sane _ _ E)].
Qed.

(* ------------------------------------------------------------------------------------------- *)
(** * The lexical rules *)

Ltac con := repeat first
  [ apply Const_simple | apply Const_and; fa | apply Const_or; fa | apply Const_not | apply Const_opt ].

Lemma C_eol : Const (RuleName (s_ "eol")).
Proof. eapply Const_rule; [exact g_eol|]. con. Qed.
Lemma C_one : Const (RuleName (s_ "_1")).
Proof. eapply Const_rule; [exact g_one|]. con. exact C_eol. Qed.

Lemma L_line : Lin (RuleName (s_ "line_comment")).
Proof.
  eapply Lin_rule; [exact g_line_comment|]. apply Lin_and. fa.
  - apply Lin_const. con.
  - apply Lin_rep; [con; exact C_eol|apply consumes_not_dot].
  - apply Lin_const, C_eol.
Qed.

Lemma L_mline : Lin (RuleName (s_ "mline_comment")).
Proof.
  eapply Lin_rule; [exact g_mline_comment|]. apply Lin_and. fa.
  - apply Lin_const. con.
  - apply Lin_rep; [con|apply consumes_not_dot].
  - apply Lin_const. con.
Qed.

(** A text that does not start like a comment costs little. *)
Lemma line_other : forall s o k, (forall r, s <> s_ "//" ++ r) -> run (RuleName (s_ "line_comment")) s o k -> k <= 3.
Proof.
  intros s o k N H. eapply i_rule in H; [|exact g_line_comment]. destruct H as [[_ ->]|(k' & -> & H)]; [lia|].
  apply i_and in H. destruct H as [[_ ->]|(k2 & -> & H)]; [lia|]. apply i_and_cons in H.
  destruct H as [(s1 & k1 & k3 & R1 & R2 & ->)|[[_ H]|[_ H]]]; [|apply i_simple in H; lia..].
  destruct (run_says _ _ _ _ R1 I) as [ts P]. apply inv_lit in P. destruct P as [_ P]. destruct (N s1 P).
Qed.
Lemma mline_other : forall s o k, (forall r, s <> s_ "/*" ++ r) -> run (RuleName (s_ "mline_comment")) s o k -> k <= 3.
Proof.
  intros s o k N H. eapply i_rule in H; [|exact g_mline_comment]. destruct H as [[_ ->]|(k' & -> & H)]; [lia|].
  apply i_and in H. destruct H as [[_ ->]|(k2 & -> & H)]; [lia|]. apply i_and_cons in H.
  destruct H as [(s1 & k1 & k3 & R1 & R2 & ->)|[[_ H]|[_ H]]]; [|apply i_simple in H; lia..].
  destruct (run_says _ _ _ _ R1 I) as [ts P]. apply inv_lit in P. destruct P as [_ P]. destruct (N s1 P).
Qed.

Lemma L_comment : Lin (RuleName (s_ "comment")).
Proof.
  eapply Lin_rule; [exact g_comment|]. destruct L_line as [S1 [A Ha]], L_mline as [S2 [B Hb]].
  split; [cbn; tauto|]. exists (A + B + 10). intros s o k H.
  apply i_or in H. destruct H as [[_ ->]|(k' & -> & H)]; [lia|]. apply i_or_cons in H.
  destruct H as [(s1 & -> & H)|[[_ H]|(k1 & k2 & R1 & H & ->)]]; [apply Ha in H; lia..|].
  apply i_or_cons in H.
  assert (H' : (o = OF \/ o = OC) /\ k2 <= B * S (length s) \/ run (RuleName (s_ "mline_comment")) s o k2).
  { destruct H as [(s1 & -> & H)|[[_ H]|(k3 & k4 & R2 & H & ->)]]; [auto..|]. left. apply i_or_nil in H. destruct H as [O ->]. split; [exact O|].
    apply Hb in R2. cbn [used] in R2. lia. }
  destruct (str_prefix_dec (s_ "//") s) as [[r E]|E].
  - assert (N : forall r', s <> s_ "/*" ++ r') by (intros r' X; rewrite E in X; discriminate).
    assert (O : o <> OC -> o = OF).
    { intro X. destruct H' as [[[O|O] _]|H']; [exact O|congruence|]. pose proof (run_says _ _ _ _ H' I) as Y.
      destruct o as [q| | |]; [|reflexivity| |congruence].
      - destruct Y as [ts Y]. eapply inv_nt in Y; [|exact g_mline_comment]. destruct Y as (x & _ & Y). apply inv_and_cons in Y.
        destruct Y as (t1 & s1 & t2 & _ & Y & _). apply inv_lit in Y. destruct Y as [_ Y]. destruct (N _ Y).
      - destruct Y as (m & rest & Y). assert (Z : peg PG (RuleName (s_ "mline_comment")) s PFail).
        { eapply mk_rule_fail; [exact g_mline_comment|]. apply mk_and_fail1. apply peg_lit_fail. exact N. }
        pose proof (peg_det _ _ _ _ Y _ Z). discriminate. }
    assert (U : used s o = length s) by (destruct o; try reflexivity; discriminate O; discriminate).
    apply Ha in R1. cbn [used] in R1. rewrite U. destruct H' as [[_ H']|H']; [lia|]. apply (mline_other s o k2 N) in H'. lia.
  - apply (line_other s OF k1 E) in R1. destruct H' as [[O H']|H'].
    + assert (U : used s o = length s) by (destruct O as [->| ->]; reflexivity). rewrite U. lia.
    + apply Hb in H'. lia.
Qed.

Lemma L_unit : Lin b_unit.
Proof. apply Lin_or; [con|]. apply Lin_or; [exact C_eol|]. apply Lin_or_one, L_comment. Qed.
Lemma L_eunit : Lin e_unit.
Proof. apply Lin_or; [con|]. apply Lin_or_one, L_comment. Qed.

Lemma O_blank : Coarse (RuleName (s_ "_")).
Proof. eapply Coarse_rule; [exact g_blank|]. apply Coarse_rep; [exact L_unit|exact consumes_unit]. Qed.
Lemma O_end : Coarse (RuleName (s_ "_eol")).
Proof.
  eapply Coarse_rule; [exact g_eolr|]. apply Coarse_and. fa; [|apply Coarse_const, C_eol].
  apply Coarse_rep; [exact L_eunit|exact consumes_eunit].
Qed.

Lemma L_symbol : Lin (RuleName (s_ "symbol")).
Proof.
  eapply Lin_rule; [exact g_symbol|]. apply Lin_and. fa; [apply Lin_const; con|]. apply Lin_rep; [con|apply consumes_class].
Qed.
Lemma O_mod_name : Coarse (RuleName (s_ "mod_name")).
Proof. eapply Coarse_rule; [exact g_mod_name|]. apply Coarse_lin, L_symbol. Qed.
Lemma O_name : Coarse (RuleName (s_ "rule_name")).
Proof.
  eapply Coarse_rule; [exact g_rule_name|]. apply Coarse_and. fa.
  - apply Coarse_const. con.
  - apply Coarse_lin, L_symbol.
  - apply Coarse_rep; [|exact consumes_dot_sym]. apply Lin_and. fa; [apply Lin_const; con|exact L_symbol].
Qed.

Lemma C_q1 : Const (RuleName (s_ "_'")).
Proof. eapply Const_rule; [exact g_q1|]. con. Qed.
Lemma C_q2 : Const (RuleName (s_ "_""")).
Proof. eapply Const_rule; [exact g_q2|]. con. Qed.
Lemma C_esc : Const (RuleName (s_ "esc_char")).
Proof. eapply Const_rule; [exact g_esc_char|]. con. Qed.
Lemma C_hex : Const (RuleName (s_ "hex_char")).
Proof. eapply Const_rule; [exact g_hex_char|]. con. Qed.

Lemma O_literal : Coarse (RuleName (s_ "literal")).
Proof.
  eapply Coarse_rule; [exact g_literal|]. apply Coarse_or. fa; apply Coarse_lin.
  - eapply Lin_rule; [exact g_lit_noesc|]. apply Lin_and. fa; [apply Lin_const, C_q1| |apply Lin_const, C_q1].
    apply Lin_rep; [con; exact C_q1|apply consumes_not_dot].
  - eapply Lin_rule; [exact g_lit_esc|]. apply Lin_and. fa; [apply Lin_const, C_q2| |apply Lin_const, C_q2].
    apply Lin_rep; [con; [exact C_esc|exact C_hex|exact C_q2]|exact consumes_dunit].
Qed.

Lemma C_between : Const (RuleName (s_ "mbetween")).
Proof. eapply Const_rule; [exact g_mbetween|]. con. Qed.

Lemma O_class : Coarse (RuleName (s_ "match")).
Proof.
  eapply Coarse_rule; [exact g_class|]. apply Coarse_and. fa; [apply Coarse_const; con| |apply Coarse_const; con].
  apply Coarse_or. fa.
  - apply Coarse_and. fa; apply Coarse_lin.
    + eapply Lin_rule; [exact g_mchars|]. apply Lin_rep; [con|exact consumes_munit].
    + apply Lin_rep; [exact C_between|exact consumes_mrange].
  - apply Coarse_lin, Lin_rep; [exact C_between|exact consumes_mrange].
Qed.

Lemma O_error : Coarse (RuleName (s_ "error")).
Proof.
  eapply Coarse_rule; [exact g_error|]. apply Coarse_and. fa; try (apply Coarse_const, Const_simple); try exact O_blank. exact O_literal.
Qed.

Lemma O_atom : Coarse (RuleName (s_ "atom")).
Proof.
  eapply Coarse_rule; [exact g_atom|]. apply Coarse_or. fa; [exact O_literal|exact O_class|exact O_name|].
  apply Coarse_const. eapply Const_rule; [exact g_dot|]. con.
Qed.

(** The start of a rule or a module, which a sequence must not run into. *)
Definition look_next : expr := Not (And [RuleName (s_ "rule_name"); RuleName (s_ "_"); Or [Simple (Literal (s_ "=")); Simple (Literal (s_ "{"))]]).
Lemma O_next : Coarse look_next.
Proof. apply Coarse_not, Coarse_and. fa; [exact O_name|exact O_blank|]. apply Coarse_const. con. Qed.
