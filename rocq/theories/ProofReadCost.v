(** Reading a grammar text takes at most quadratically many calls (C54). *)
From Verif Require Import Base ModelAst ModelParser ModelCost ModelPegRules SpecPeg ProofParser ProofEngine ProofApi ProofPegApi PegTools PegNames PegLeaf ProofRun ProofRunCost.

Definition x_expr := RuleName (s_ "expr").
Definition x_or := RuleName (s_ "or").
Definition x_and := RuleName (s_ "and").
Definition x_rep := RuleName (s_ "rep_or_neg").
Definition x_aop := RuleName (s_ "atom_or_par").
Definition x_par := RuleName (s_ "parenth").
Definition x_atom := RuleName (s_ "atom").
Definition x_err := RuleName (s_ "error").
Definition x_blank := RuleName (s_ "_").
Definition x_one := RuleName (s_ "_1").
Definition x_name := RuleName (s_ "rule_name").
Definition x_mod := RuleName (s_ "mod_name").
Definition x_end := RuleName (s_ "_eol").
Definition x_rule := RuleName (s_ "rule").
Definition x_module := RuleName (s_ "module").
Definition x_grammar := RuleName (s_ "grammar").

(* ------------------------------------------------------------------------------------------- *)
(** * One constant for all lexical rules *)

Definition coarse_by (A : nat) (e : expr) : Prop := forall s o k, run e s o k -> k <= A * S (length s).
Definition quick_by (B : nat) (p : expr * char) : Prop := forall s o k, run (fst p) (snd p :: s) o k -> k <= B.

Lemma coarse_all : forall es, Forall Coarse es -> exists A, Forall (coarse_by A) es.
Proof.
  intros es F. induction F as [|e es [_ [A H]] F [B IH]]; [exists 0; constructor|]. exists (A + B). constructor.
  - intros s o k R. apply H in R. nia.
  - eapply Forall_impl; [|exact IH]. intros x X s o k R. apply X in R. nia.
Qed.

Lemma quick_all : forall l, Forall (fun p => sane (fst p) /\ looks PG 20 (fst p) (Some (snd p)) <> None) l -> exists B, Forall (quick_by B) l.
Proof.
  intros l F. induction F as [|[e c] l [Se L] F [B IH]]; [exists 0; constructor|]. destruct (looks_cost 20 e (Some c) L) as [A H].
  exists (A + B). constructor.
  - intros s o k R. apply H in R; [lia|reflexivity|exact Se].
  - eapply Forall_impl; [|exact IH]. intros x X s o k R. apply X in R. lia.
Qed.

(** Blanks: what they consume, and the rest if it starts like a comment. *)
Definition blank_by (A : nat) : Prop := forall s r k, run x_blank s (OM r) k ->
  k <= A * S (length s - length r) + (if match r with c :: _ => N.eqb c 47 | [] => false end then A * S (length r) else 0).

Lemma unit_other : forall s o k, match s with c :: _ => N.eqb c 47 | [] => false end = false -> run b_unit s o k ->
  k <= 20.
Proof.
  intros s o k N H.
  assert (N1 : forall r, s <> s_ "//" ++ r) by (intros r ->; discriminate).
  assert (N2 : forall r, s <> s_ "/*" ++ r) by (intros r ->; discriminate).
  apply i_or in H. destruct H as [[_ ->]|(k1 & -> & H)]; [lia|]. apply i_or_cons in H.
  destruct H as [(s1 & -> & H)|[[_ H]|(k2 & k3 & R1 & H & ->)]]; [apply i_simple in H; lia..|]. apply i_simple in R1.
  assert (E : forall o k, run (RuleName (s_ "eol")) s o k -> k <= 6).
  { intros o0 k0 R. eapply i_rule in R; [|exact g_eol]. destruct R as [[_ ->]|(k' & -> & R)]; [lia|]. apply i_or in R.
    destruct R as [[_ ->]|(q & -> & R)]; [lia|].
    do 3 (let j := fresh "j" in let j' := fresh "j" in let R0 := fresh "R" in apply i_or_cons in R;
      destruct R as [(? & _ & R)|[[_ R]|(j & j' & R0 & R & ->)]]; [apply i_simple in R; lia..|apply i_simple in R0]).
    apply i_or_nil in R. lia. }
  assert (C : forall o k, run (RuleName (s_ "comment")) s o k -> k <= 8).
  { intros o0 k0 R. eapply i_rule in R; [|exact g_comment]. destruct R as [[_ ->]|(k' & -> & R)]; [lia|]. apply i_or in R.
    destruct R as [[_ ->]|(q & -> & R)]; [lia|].
    apply i_or_cons in R; destruct R as [(z & _ & R)|[[_ R]|(j1 & j2 & R0 & R & ->)]]; [apply (line_other _ _ _ N1) in R; lia..|apply (line_other _ _ _ N1) in R0].
    apply i_or_cons in R; destruct R as [(z & _ & R)|[[_ R]|(j3 & j4 & R2 & R & ->)]]; [apply (mline_other _ _ _ N2) in R; lia..|apply (mline_other _ _ _ N2) in R2].
    apply i_or_nil in R. lia. }
  apply i_or_cons in H. destruct H as [(s1 & -> & H)|[[_ H]|(k4 & k5 & R2 & H & ->)]]; [apply E in H; lia..|]. apply E in R2.
  apply i_or_cons in H. destruct H as [(s1 & -> & H)|[[_ H]|(k6 & k7 & R3 & H & ->)]]; [apply C in H; lia..|]. apply C in R3.
  apply i_or_nil in H. lia.
Qed.

Lemma blank_fine : exists A, blank_by A.
Proof.
  destruct L_unit as [Su [A Ha]]. exists (2 * A + 22). intros s r k H. eapply i_rule in H; [|exact g_blank].
  destruct H as [[X _]|(k' & -> & H)]; [discriminate|]. apply i_rep in H. destruct H as [[X _]|(k2 & -> & H)]; [discriminate|].
  set (F := fun r : str => if match r with c :: _ => N.eqb c 47 | [] => false end then A * S (length r) else 0).
  assert (X : k2 <= 2 * A * (length s - length r) + 20 + F r /\ length r <= length s).
  { enough (Q : forall mn s o k2, costs_rep PG b_unit mn None s o k2 -> mn = 0 ->
      forall r, o = OM r -> k2 <= 2 * A * (length s - length r) + 20 + F r /\ length r <= length s) by exact (Q _ _ _ _ H eq_refl r eq_refl).
    clear s r k2 H. apply (rep_ind b_unit (fun mn s o k2 => mn = 0 -> forall r, o = OM r -> k2 <= 2 * A * (length s - length r) + 20 + F r /\ length r <= length s)).
    - intros _ s _ r X. discriminate.
    - intros mn s s1 o k k2 R IH -> r ->. destruct (IH eq_refl r eq_refl) as [I1 I2].
      pose proof (run_lt _ _ _ _ R Su consumes_unit) as L. apply Ha in R. cbn [used] in R. split; [|lia].
      replace (length s - length r) with ((length s1 - length r) + (length s - length s1)) by lia.
      assert (1 <= length s - length s1) by lia. generalize dependent (length s - length s1). intros d R D. nia.
    - intros s k R _ r X. injection X as <-. split; [|lia]. rewrite Nat.sub_diag. unfold F.
      destruct (match s with [] => false | c :: _ => (c =? 47)%N end) eqn:E.
      + apply Ha in R. cbn [used] in R. lia.
      + apply (unit_other _ _ _ E) in R. lia.
    - intros mn s k P _ ->. lia.
    - intros mn s o k _ P _ r ->. destruct P; discriminate. }
  destruct X as [X L]. unfold F in X. destruct (match r with [] => false | c :: _ => (c =? 47)%N end); nia.
Qed.

Definition leaves : list expr := [x_atom; x_err; x_blank; x_one; x_name; x_mod; x_end; look_next].
Definition quick : list (expr * char) :=
  [(x_expr, 47%N); (x_atom, 40%N); (x_err, 40%N); (x_err, 33%N); (x_aop, 33%N)].

Lemma leaves_coarse : Forall Coarse leaves.
Proof.
  unfold leaves. fa; [exact O_atom|exact O_error|exact O_blank|apply Coarse_const, C_one|exact O_name|exact O_mod_name|exact O_end|exact O_next].
Qed.
Lemma quick_looks : Forall (fun p => sane (fst p) /\ looks PG 20 (fst p) (Some (snd p)) <> None) quick.
Proof. unfold quick. fa; (split; [exact I|vm_compute; discriminate]). Qed.

(** One constant for everything above. *)
Definition basic (A : nat) : Prop :=
  10 <= A /\ Forall (coarse_by A) leaves /\ blank_by A /\ Forall (quick_by A) quick.

Lemma basic_ex : exists A, basic A.
Proof.
  destruct (coarse_all _ leaves_coarse) as [A1 H1]. destruct blank_fine as [A2 H2]. destruct (quick_all _ quick_looks) as [A3 H3].
  exists (10 + A1 + A2 + A3). split; [lia|]. split; [|split].
  - eapply Forall_impl; [|exact H1]. intros e H s o k R. apply H in R. nia.
  - intros s r k R. apply H2 in R. destruct (match r with [] => false | c :: _ => (c =? 47)%N end); nia.
  - eapply Forall_impl; [|exact H3]. intros e H s o k R. apply H in R. lia.
Qed.

(** Opening a rule. *)
Ltac into H g k' := eapply i_rule in H; [|exact g]; destruct H as [[? ?]|(k' & ? & H)]; [try discriminate|subst].

Section Bounds.
Variable A : nat.
Hypothesis BA : basic A.

Lemma b_ge : 10 <= A. Proof. exact (proj1 BA). Qed.
Lemma b_leaf : forall e s o k, In e leaves -> run e s o k -> k <= A * S (length s).
Proof. intros e s o k I R. destruct BA as (_ & F & _). rewrite Forall_forall in F. exact (F e I s o k R). Qed.
Lemma b_blank : blank_by A. Proof. exact (proj1 (proj2 (proj2 BA))). Qed.
Lemma b_quick : forall e c s o k, In (e, c) quick -> run e (c :: s) o k -> k <= A.
Proof. intros e c s o k I R. destruct BA as (_ & _ & _ & F). rewrite Forall_forall in F. exact (F (e, c) I s o k R). Qed.

Ltac leaf := unfold leaves, quick; cbn [In]; tauto.

(* ------------------------------------------------------------------------------------------- *)
(** * Failures are linear *)

Lemma rep0_never_fails : forall e s k, ~ costs_rep PG e 0 None s OF k.
Proof.
  intros e s k R. enough (Q : forall mn s o k, costs_rep PG e mn None s o k -> o = OF -> mn <> 0) by exact (Q _ _ _ _ R eq_refl eq_refl).
  clear. apply (rep_ind e (fun mn s o k => o = OF -> mn <> 0)); try discriminate.
  - intros mn s s1 o k k2 _ IH O ->. exact (IH O eq_refl).
  - intros mn s k L _ _ ->. lia.
  - intros mn s o k _ [->| ->] X; discriminate.
Qed.

Lemma blank_never_fails : forall s k, ~ run x_blank s OF k.
Proof.
  intros s k R. into R g_blank k'. apply i_rep in R. destruct R as [[X _]|(k2 & -> & R)]; [discriminate|]. exact (rep0_never_fails _ _ _ R).
Qed.

Lemma par_other : forall s o k, (forall r, s <> 40%N :: r) -> run x_par s o k -> k <= 3.
Proof.
  intros s o k N R. eapply i_rule in R; [|exact g_parenth]. destruct R as [[_ ->]|(k1 & -> & R)]; [lia|].
  apply i_and in R. destruct R as [[_ ->]|(k2 & -> & R)]; [lia|]. apply i_and_cons in R.
  destruct R as [(s1 & j1 & j2 & R1 & R2 & ->)|[[_ R]|[_ R]]]; [|apply i_simple in R; lia..].
  destruct (run_says _ _ _ _ R1 I) as [ts P]. apply inv_lit in P. destruct P as [_ P]. destruct (N s1 P).
Qed.

Lemma lit_rest : forall c s r k, run (Simple (Literal [c])) s (OM r) k -> s = c :: r.
Proof. intros c s r k R. destruct (run_says _ _ _ _ R I) as [ts P]. apply inv_lit in P. destruct P as [_ P]. exact P. Qed.

Lemma close_never_fails : forall l m s, ~ peg PG (Or [Simple (Literal l); Simple (AError m)]) s PFail.
Proof.
  intros l m s H. inversion H; subst; [congruence|].
  match goal with X : peg PG (Or [_]) _ _ |- _ => inversion X; subst; [congruence|] end.
  match goal with X : peg PG (Simple (AError _)) _ _ |- _ => inversion X end.
Qed.

Section Fail.
Variable a : nat.
Hypothesis Ha : 20 * A <= a.
Variable s : str.
Hypothesis IH : forall s' k, length s' < length s -> run x_expr s' OF k -> k <= a * S (length s').

Lemma par_fail : forall s0 k, length s0 <= length s -> run x_par s0 OF k -> k <= a * length s0 + 4 * A.
Proof.
  intros s0 k L0 R. pose proof b_ge as GE. eapply i_rule in R; [|exact g_parenth]. destruct R as [[X _]|(k1 & -> & R)]; [discriminate|].
  apply i_and in R. destruct R as [[X _]|(k2 & -> & R)]; [discriminate|]. apply i_and_cons in R.
  destruct R as [(s1 & j1 & j2 & R1 & R & ->)|[[_ R]|[[X|X] _]]]; [|apply i_simple in R; lia|discriminate..].
  pose proof (i_simple _ _ _ _ R1) as K1. apply lit_rest in R1. subst s0. cbn [length] in *.
  apply i_and_cons in R. destruct R as [(s2 & j3 & j4 & R2 & R & ->)|[[_ R]|[[X|X] _]]]; [|destruct (blank_never_fails _ _ R)|discriminate..].
  pose proof (run_le _ _ _ _ R2 I) as L2. apply b_blank in R2.
  apply i_and_cons in R. destruct R as [(s3 & j5 & j6 & R3 & R & ->)|[[_ R3]|[[X|X] _]]]; [| |discriminate..].
  - exfalso. apply i_and_cons in R. destruct R as [(s4 & j7 & j8 & R4 & R & ->)|[[_ R]|[[X|X] _]]]; [|destruct (blank_never_fails _ _ R)|discriminate..].
    apply i_and_cons in R. destruct R as [(s5 & j9 & j0 & R5 & R & ->)|[[_ R]|[[X|X] _]]]; [|clear R4|discriminate..].
    + apply i_and_nil in R. destruct R as [X _]. discriminate.
    + pose proof (run_says _ _ _ _ R ltac:(cbn; tauto)) as P. exact (close_never_fails _ _ _ P).
  - destruct s2 as [|c s2].
    + apply IH in R3; [|cbn; lia]. cbn [length] in *. nia.
    + destruct (N.eqb_spec c 47) as [->|N].
      * apply (b_quick x_expr 47%N) in R3; [|leaf]. cbn [length] in *. nia.
      * apply IH in R3; [|lia]. cbn [length] in *. replace (length s1 - S (length s2)) with (length s1 - S (length s2)) in R2 by lia.
        assert (E : length s1 = S (length s2) + (length s1 - S (length s2))) by lia.
        generalize dependent (length s1 - S (length s2)). intros d R2 E. rewrite E in *. nia.
Qed.

Lemma aop_fail : forall s0 k, length s0 <= length s -> run x_aop s0 OF k ->
  k <= a * length s0 + 6 * A /\ ((forall r, s0 <> 40%N :: r) -> k <= A * S (length s0) + 6).
Proof.
  intros s0 k L R. pose proof b_ge as GE. eapply i_rule in R; [|exact g_atom_or_par]. destruct R as [[X _]|(k1 & -> & R)]; [discriminate|].
  apply i_or in R. destruct R as [[X _]|(k2 & -> & R)]; [discriminate|].
  apply i_or_cons in R. destruct R as [(z & X & _)|[[[X|X] _]|(j1 & j2 & R1 & R & ->)]]; try discriminate.
  apply i_or_cons in R. destruct R as [(z & X & _)|[[[X|X] _]|(j3 & j4 & R2 & R & ->)]]; try discriminate.
  apply i_or_nil in R. destruct R as [_ ->]. pose proof (b_leaf x_atom _ _ _ ltac:(leaf) R1) as K1.
  assert (D : (exists r, s0 = 40%N :: r) \/ (forall r, s0 <> 40%N :: r)).
  { destruct s0 as [|c s0]; [right; discriminate|]. destruct (N.eq_dec c 40) as [->|N]; [left; eauto|right; intros r E; congruence]. }
  destruct D as [[r ->]|D].
  - split; [|intro N; destruct (N r eq_refl)]. apply (b_quick x_atom 40%N) in R1; [|leaf]. apply (par_fail _ _ L) in R2. lia.
  - apply (par_other _ _ _ D) in R2. split; [|intros _; lia]. nia.
Qed.

Lemma rep_fail : forall s0 k, length s0 <= length s -> run x_rep s0 OF k ->
  k <= a * length s0 + 8 * A /\ ((forall r, s0 <> 40%N :: r) -> (forall r, s0 <> 33%N :: r) -> k <= A * S (length s0) + 12).
Proof.
  intros s0 k L R. pose proof b_ge as GE. eapply i_rule in R; [|exact g_rep_or_neg]. destruct R as [[X _]|(k1 & -> & R)]; [discriminate|].
  apply i_or in R. destruct R as [[X _]|(k2 & -> & R)]; [discriminate|].
  apply i_or_cons in R. destruct R as [(z & X & _)|[[[X|X] _]|(j1 & j2 & R1 & R & ->)]]; try discriminate.
  apply i_or_cons in R. destruct R as [(z & X & _)|[[[X|X] _]|(j3 & j4 & R2 & R & ->)]]; try discriminate.
  apply i_or_nil in R. destruct R as [_ ->].
  (* the first alternative fails in its first part *)
  apply i_and in R1. destruct R1 as [[X _]|(k3 & -> & R1)]; [discriminate|]. apply i_and_cons in R1.
  assert (R1' : run x_aop s0 OF k3).
  { destruct R1 as [(s1 & h1 & h2 & Q1 & Q & ->)|[[_ R1]|[[X|X] _]]]; [|exact R1|discriminate..]. exfalso.
    apply i_and_cons in Q. destruct Q as [(s2 & h3 & h4 & Q2 & Q & _)|[[_ Q]|[[X|X] _]]]; [|clear Q1|discriminate..].
    - apply i_and_nil in Q. destruct Q as [X _]. discriminate.
    - apply i_rep in Q. destruct Q as [[X _]|(h5 & -> & Q)]; [discriminate|]. apply i_opt in Q.
      destruct Q as [[X _]|[(s3 & X & _)|[[X _]|[[X|X] _]]]]; discriminate. }
  clear R1. pose proof (aop_fail _ _ L R1') as [K1 K1'].
  apply i_and in R2. destruct R2 as [[X _]|(k4 & -> & R2)]; [discriminate|]. apply i_and_cons in R2.
  destruct R2 as [(s1 & h1 & h2 & Q1 & Q & ->)|[[_ R2]|[[X|X] _]]]; [| |discriminate..].
  - pose proof (i_simple _ _ _ _ Q1) as K2. apply lit_rest in Q1. subst s0. cbn [length] in *.
    split; [|intros _ N; destruct (N s1 eq_refl)]. apply (b_quick x_aop 33%N) in R1'; [|leaf].
    apply i_and_cons in Q. destruct Q as [(s2 & h3 & h4 & Q2 & Q & _)|[[_ Q]|[[X|X] _]]]; [| |discriminate..].
    + apply i_and_nil in Q. destruct Q as [X _]. discriminate.
    + apply aop_fail in Q; [|lia]. destruct Q as [Q _]. nia.
  - apply i_simple in R2. split; [lia|]. intros N _. specialize (K1' N). lia.
Qed.

Lemma and_fail : forall s0 k, length s0 <= length s -> run x_and s0 OF k -> k <= a * length s0 + 10 * A.
Proof.
  intros s0 k L R. pose proof b_ge as GE. eapply i_rule in R; [|exact g_and]. destruct R as [[X _]|(k1 & -> & R)]; [discriminate|].
  apply i_or in R. destruct R as [[X _]|(k2 & -> & R)]; [discriminate|].
  apply i_or_cons in R. destruct R as [(z & X & _)|[[[X|X] _]|(j1 & j2 & R1 & R & ->)]]; try discriminate.
  apply i_or_cons in R. destruct R as [(z & X & _)|[[[X|X] _]|(j3 & j4 & R2 & R & ->)]]; try discriminate.
  apply i_or_nil in R. destruct R as [_ ->].
  apply i_and in R2. destruct R2 as [[X _]|(k3 & -> & R2)]; [discriminate|]. apply i_and_cons in R2.
  assert (R2' : run x_rep s0 OF k3).
  { destruct R2 as [(s1 & h1 & h2 & Q1 & Q & ->)|[[_ R2]|[[X|X] _]]]; [|exact R2|discriminate..]. exfalso.
    apply i_and_cons in Q. destruct Q as [(s2 & h3 & h4 & Q2 & Q & _)|[[_ Q]|[[X|X] _]]]; [|clear Q1|discriminate..].
    - apply i_and_nil in Q. destruct Q as [X _]. discriminate.
    - apply i_rep in Q. destruct Q as [[X _]|(h5 & -> & Q)]; [discriminate|]. exact (rep0_never_fails _ _ _ Q). }
  clear R2. pose proof (rep_fail _ _ L R2') as [K2 K2']. pose proof (b_leaf x_err _ _ _ ltac:(leaf) R1) as K1.
  assert (D : (exists r, s0 = 40%N :: r) \/ (exists r, s0 = 33%N :: r) \/ (forall r, s0 <> 40%N :: r) /\ (forall r, s0 <> 33%N :: r)).
  { destruct s0 as [|c s0]; [right; right; split; discriminate|]. destruct (N.eq_dec c 40) as [->|N]; [left; eauto|].
    destruct (N.eq_dec c 33) as [->|N']; [right; left; eauto|right; right; split; intros r E; congruence]. }
  destruct D as [[r ->]|[[r ->]|[D1 D2]]].
  - apply (b_quick x_err 40%N) in R1; [|leaf]. lia.
  - apply (b_quick x_err 33%N) in R1; [|leaf]. lia.
  - specialize (K2' D1 D2). nia.
Qed.

Lemma or_fail : forall s0 k, length s0 <= length s -> run x_or s0 OF k -> k <= a * length s0 + 11 * A.
Proof.
  intros s0 k L R. pose proof b_ge as GE. eapply i_rule in R; [|exact g_or]. destruct R as [[X _]|(k1 & -> & R)]; [discriminate|].
  apply i_and in R. destruct R as [[X _]|(k2 & -> & R)]; [discriminate|]. apply i_and_cons in R.
  destruct R as [(s1 & h1 & h2 & Q1 & Q & ->)|[[_ R]|[[X|X] _]]]; [|apply (and_fail _ _ L) in R; lia|discriminate..]. exfalso.
  apply i_and_cons in Q. destruct Q as [(s2 & h3 & h4 & Q2 & Q & _)|[[_ Q]|[[X|X] _]]]; [|clear Q1|discriminate..].
  - apply i_and_nil in Q. destruct Q as [X _]. discriminate.
  - apply i_rep in Q. destruct Q as [[X _]|(h5 & -> & Q)]; [discriminate|]. apply i_opt in Q.
    destruct Q as [[X _]|[(s3 & X & _)|[[X _]|[[X|X] _]]]]; discriminate.
Qed.

Lemma expr_fail : forall s0 k, length s0 <= length s -> run x_expr s0 OF k -> k <= a * S (length s0).
Proof.
  intros s0 k L R. pose proof b_ge as GE. eapply i_rule in R; [|exact g_expr]. destruct R as [[X _]|(k1 & -> & R)]; [discriminate|].
  apply (or_fail _ _ L) in R. nia.
Qed.

End Fail.

Lemma expr_fails : forall s k, run x_expr s OF k -> k <= 20 * A * S (length s).
Proof.
  intro s. remember (length s) as n eqn:E. revert s E. induction n as [n IH] using lt_wf_ind. intros s -> k R.
  apply (expr_fail (20 * A) (le_n _) s); [|lia|exact R]. intros s' k' L R'. exact (IH (length s') L s' eq_refl k' R').
Qed.

(** All failures within an expression. *)
Lemma fails : forall e s k, In e [x_expr; x_or; x_and; x_rep; x_aop; x_par] -> run e s OF k -> k <= 40 * A * S (length s).
Proof.
  intros e s k I R. pose proof b_ge as GE.
  assert (H : forall s' k, length s' < length s -> run x_expr s' OF k -> k <= 20 * A * S (length s')) by (intros; apply expr_fails; assumption).
  cbn in I. destruct I as [<-|[<-|[<-|[<-|[<-|[<-|[]]]]]]].
  - apply expr_fails in R. nia.
  - apply (or_fail (20 * A) (le_n _) s H s) in R; [nia|lia].
  - apply (and_fail (20 * A) (le_n _) s H s) in R; [nia|lia].
  - apply (rep_fail (20 * A) (le_n _) s H s) in R; [nia|lia].
  - apply (aop_fail (20 * A) (le_n _) s H s) in R; [nia|lia].
  - apply (par_fail (20 * A) (le_n _) s H s) in R; [nia|lia].
Qed.

(* ------------------------------------------------------------------------------------------- *)
(** * Expressions: every char is paid for with a multiple of the cost of a lexical rule *)

Section Pay.
Variable N : nat.
Let L := 40 * A * S N.
Let U := 100 * L.

Lemma L_ge : 400 <= L.
Proof. pose proof b_ge. unfold L. nia. Qed.
Lemma U_eq : U = 100 * L.
Proof. reflexivity. Qed.
Lemma l_leaf : forall e s o k, length s <= N -> In e leaves -> run e s o k -> k <= L.
Proof. intros e s o k Hs I R. apply (b_leaf e s o k I) in R. unfold L. nia. Qed.
Lemma l_fail : forall e s k, length s <= N -> In e [x_expr; x_or; x_and; x_rep; x_aop; x_par] -> run e s OF k -> k <= L.
Proof. intros e s k Hs I R. apply (fails e s k I) in R. unfold L. nia. Qed.

Opaque L U.

Definition w (s : str) (o : ending) : nat := match o with OM r => length s - length r | _ => S (length s) end.

Lemma w_halt : forall s o, halts o -> w s o = S (length s).
Proof. intros s o [->| ->]; reflexivity. Qed.

Ltac wh H := repeat match goal with
  | |- context [w ?x ?o] => rewrite (w_halt x o H)
  | X : context [w ?x ?o] |- _ => rewrite (w_halt x o H) in X
  end.

Lemma U_le : forall x y, x <= y -> U * x <= U * y.
Proof. intros. apply Nat.mul_le_mono_l. assumption. Qed.
Lemma U_S : forall x, U * S x = U + U * x.
Proof. intro x. lia. Qed.

(** [pays n e s]: a run of [e] on [s] that does not fail is paid for by what it consumes, with [n] to spare. *)
Definition pays (n : nat) (e : expr) (s : str) : Prop := forall o k, run e s o k -> o <> OF -> k + n * L <= U * w s o.

Lemma pays_cut : forall n s, n <= 100 -> 0 + n * L <= U * w s OC.
Proof. intros n s H. cbn [w]. rewrite U_S, U_eq. nia. Qed.

Lemma consumes_atom : consumes x_atom.
Proof.
  eapply consumes_rule; [exact g_atom|]. apply consumes_or. fa.
  - eapply consumes_rule; [exact g_literal|]. apply consumes_or. fa.
    + eapply consumes_rule; [exact g_lit_noesc|]. apply consumes_and. apply Exists_cons_hd.
      eapply consumes_rule; [exact g_q1|]. apply consumes_lit.
    + eapply consumes_rule; [exact g_lit_esc|]. apply consumes_and. apply Exists_cons_hd.
      eapply consumes_rule; [exact g_q2|]. apply consumes_lit.
  - eapply consumes_rule; [exact g_class|]. apply consumes_and. apply Exists_cons_hd. apply consumes_lit.
  - exact consumes_name.
  - eapply consumes_rule; [exact g_dot|]. apply consumes_lit.
Qed.
Lemma consumes_err : consumes x_err.
Proof. eapply consumes_rule; [exact g_error|]. apply consumes_and. apply Exists_cons_hd. apply consumes_lit. Qed.
Lemma consumes_one : consumes x_one.
Proof. eapply consumes_rule; [exact g_one|]. apply consumes_or. fa; [apply consumes_lit|exact consumes_eol]. Qed.

Lemma opt_suffix : forall s o k, run (Repeat (Or [Simple (Literal (s_ "*")); Simple (Literal (s_ "+")); Simple (Literal (s_ "?"))]) 0 (Some 1)) s o k -> k <= 5.
Proof.
  intros s o k R. apply i_rep in R. destruct R as [[_ ->]|(k1 & -> & R)]; [lia|]. apply i_opt in R.
  assert (E : forall o k, run (Or [Simple (Literal (s_ "*")); Simple (Literal (s_ "+")); Simple (Literal (s_ "?"))]) s o k -> k <= 4).
  { clear. intros o k R. apply i_or in R. destruct R as [[_ ->]|(q & -> & R)]; [lia|].
    do 3 (let j := fresh "j" in let j' := fresh "j" in let R0 := fresh "R" in apply i_or_cons in R;
      destruct R as [(? & _ & R)|[[_ R]|(j & j' & R0 & R & ->)]]; [apply i_simple in R; lia..|apply i_simple in R0]).
    apply i_or_nil in R. lia. }
  destruct R as [[_ ->]|[(s1 & _ & R)|[[_ R]|[_ R]]]]; [lia|apply E in R; lia..].
Qed.

Section Step.
Variable s : str.
Hypothesis Ls : length s <= N.
Hypothesis IH : forall s', length s' < length s -> pays 2 x_expr s' /\ pays 4 x_or s' /\ pays 8 x_and s'.

Lemma par_pays : forall s0, length s0 <= length s -> pays 90 x_par s0.
Proof.
  intros s0 L0 o k R NF. pose proof L_ge as GE. pose proof U_eq as UE.
  eapply i_rule in R; [|exact g_parenth]. destruct R as [[-> ->]|(k1 & -> & R)]; [apply pays_cut; lia|].
  apply i_and in R. destruct R as [[-> ->]|(k2 & -> & R)]; [cbn [w]; rewrite U_S; lia|]. apply i_and_cons in R.
  destruct R as [(s1 & j1 & j2 & R1 & R & ->)|[[X _]|[H R]]]; [|congruence|apply i_simple in R; rewrite (w_halt _ _ H), U_S; lia].
  pose proof (i_simple _ _ _ _ R1) as K1. apply lit_rest in R1. subst s0. cbn [length] in L0.
  apply i_and_cons in R. destruct R as [(s2 & j3 & j4 & R2 & R & ->)|[[X _]|[H R]]]; [|congruence|].
  2: { apply l_leaf in R; [|lia|leaf]. rewrite (w_halt _ _ H), U_S. lia. }
  pose proof (run_le _ _ _ _ R2 I) as L2. apply l_leaf in R2; [|lia|leaf].
  apply i_and_cons in R. destruct R as [(s3 & j5 & j6 & R3 & R & ->)|[[X _]|[H R3]]]; [|congruence|].
  2: { apply (proj1 (IH s2 ltac:(lia))) in R3; specialize (R3 ltac:(exact NF)). wh H. cbn [length].
       pose proof (U_le (S (length s2)) (S (length s1)) ltac:(lia)). rewrite U_S. lia. }
  pose proof (run_le _ _ _ _ R3 I) as L3. apply (proj1 (IH s2 ltac:(lia))) in R3; specialize (R3 ltac:(discriminate)). cbn [w] in R3.
  apply i_and_cons in R. destruct R as [(s4 & j7 & j8 & R4 & R & ->)|[[X _]|[H R]]]; [|congruence|].
  2: { apply l_leaf in R; [|lia|leaf]. wh H. cbn [length].
       pose proof (U_le (length s2 - length s3) (S (length s1)) ltac:(lia)). rewrite U_S. lia. }
  pose proof (run_le _ _ _ _ R4 I) as L4. apply l_leaf in R4; [|lia|leaf].
  assert (CL : forall o k, run (Or [Simple (Literal (s_ ")")); Simple (AError (s_ "unbalanced parethesis: missing ')'"))]) s4 o k -> k <= 3).
  { clear. intros o k R. apply i_or in R. destruct R as [[_ ->]|(q & -> & R)]; [lia|].
    do 2 (let j := fresh "j" in let j' := fresh "j" in let R0 := fresh "R" in apply i_or_cons in R;
      destruct R as [(? & _ & R)|[[_ R]|(j & j' & R0 & R & ->)]]; [apply i_simple in R; lia..|apply i_simple in R0]).
    apply i_or_nil in R. lia. }
  apply i_and_cons in R. destruct R as [(s5 & j9 & j0 & R5 & R & ->)|[[X _]|[H R]]]; [|congruence|].
  2: { apply CL in R. wh H. cbn [length].
       pose proof (U_le (length s2 - length s3) (S (length s1)) ltac:(lia)). rewrite U_S. lia. }
  pose proof (run_le _ _ _ _ R5 ltac:(cbn; tauto)) as L5. apply CL in R5.
  apply i_and_nil in R. destruct R as [-> ->]. cbn [w length].
  pose proof (U_le (S (length s2 - length s3)) (S (length s1) - length s5) ltac:(lia)) as W. rewrite U_S in W. lia.
Qed.

Lemma aop_pays : forall s0, length s0 <= length s -> pays 20 x_aop s0.
Proof.
  intros s0 L0 o k R NF. pose proof L_ge as GE. pose proof U_eq as UE.
  eapply i_rule in R; [|exact g_atom_or_par]. destruct R as [[-> ->]|(k1 & -> & R)]; [apply pays_cut; lia|].
  apply i_or in R. destruct R as [[-> ->]|(k2 & -> & R)]; [cbn [w]; rewrite U_S; lia|].
  apply i_or_cons in R. destruct R as [(s1 & -> & R)|[[H R]|(j1 & j2 & R1 & R & ->)]].
  - pose proof (run_lt _ _ _ _ R I consumes_atom) as C. apply l_leaf in R; [|lia|leaf]. cbn [w].
    pose proof (U_le 1 (length s0 - length s1) ltac:(lia)). lia.
  - apply l_leaf in R; [|lia|leaf]. rewrite (w_halt _ _ H), U_S. lia.
  - apply l_leaf in R1; [|lia|leaf]. apply i_or_cons in R. destruct R as [(s1 & -> & R)|[[H R]|(j3 & j4 & R2 & R & ->)]].
    + apply (par_pays _ L0) in R; specialize (R ltac:(discriminate)). lia.
    + apply (par_pays _ L0) in R; specialize (R ltac:(exact NF)). lia.
    + apply i_or_nil in R. destruct R as [[X|X] ->]; [congruence|]. subst o. apply l_fail in R2; [|lia|cbn; tauto]. cbn [w]. rewrite U_S. lia.
Qed.

Lemma rep_pays : forall s0, length s0 <= length s -> pays 18 x_rep s0.
Proof.
  intros s0 L0 o k R NF. pose proof L_ge as GE. pose proof U_eq as UE.
  eapply i_rule in R; [|exact g_rep_or_neg]. destruct R as [[-> ->]|(k1 & -> & R)]; [apply pays_cut; lia|].
  apply i_or in R. destruct R as [[-> ->]|(k2 & -> & R)]; [cbn [w]; rewrite U_S; lia|].
  (* the first alternative *)
  assert (F1 : forall o k, run (And [x_aop; Repeat (Or [Simple (Literal (s_ "*")); Simple (Literal (s_ "+")); Simple (Literal (s_ "?"))]) 0 (Some 1)]) s0 o k ->
    match o with OF => k <= L + 10 | _ => k + 19 * L <= U * w s0 o end).
  { clear o k2 R NF. intros o k R. apply i_and in R. destruct R as [[-> ->]|(k3 & -> & R)]; [cbn [w]; rewrite U_S; lia|].
    apply i_and_cons in R. destruct R as [(s1 & h1 & h2 & Q1 & Q & ->)|[[-> R]|[H R]]].
    - pose proof (run_le _ _ _ _ Q1 I) as L1. apply (aop_pays _ L0) in Q1; specialize (Q1 ltac:(discriminate)). cbn [w] in Q1.
      apply i_and_cons in Q. destruct Q as [(s2 & h3 & h4 & Q2 & Q & ->)|[[-> Q]|[H Q]]].
      + pose proof (run_le _ _ _ _ Q2 ltac:(cbn; tauto || (repeat split; lia))) as L2. apply opt_suffix in Q2. apply i_and_nil in Q. destruct Q as [-> ->].
        cbn [w]. pose proof (U_le (length s0 - length s1) (length s0 - length s2) ltac:(lia)). lia.
      + exfalso. apply i_rep in Q. destruct Q as [[X _]|(h5 & -> & Q)]; [discriminate|]. apply i_opt in Q.
        destruct Q as [[X _]|[(s3 & X & _)|[[X _]|[[X|X] _]]]]; discriminate.
      + apply opt_suffix in Q. destruct H as [->| ->]; cbn [w]; pose proof (U_le (length s0 - length s1) (S (length s0)) ltac:(lia)); lia.
    - apply l_fail in R; [|lia|cbn; tauto]. lia.
    - apply (aop_pays _ L0) in R; specialize (R ltac:(destruct H as [->| ->]; discriminate)). destruct H as [->| ->]; lia. }
  assert (F2 : forall o k, run (And [Simple (Literal (s_ "!")); x_aop]) s0 o k -> o <> OF -> k + 20 * L <= U * w s0 o).
  { clear o k2 R NF F1. intros o k R NF. apply i_and in R. destruct R as [[-> ->]|(k3 & -> & R)]; [cbn [w]; rewrite U_S; lia|].
    apply i_and_cons in R. destruct R as [(s1 & h1 & h2 & Q1 & Q & ->)|[[-> R]|[H R]]]; [|congruence|].
    2: { apply i_simple in R. rewrite (w_halt _ _ H), U_S. lia. }
    pose proof (i_simple _ _ _ _ Q1) as K1. apply lit_rest in Q1. subst s0. cbn [length] in *.
    apply i_and_cons in Q. destruct Q as [(s2 & h3 & h4 & Q2 & Q & ->)|[[-> Q]|[H Q]]]; [|congruence|].
    - pose proof (run_le _ _ _ _ Q2 I) as L2. apply (aop_pays s1 ltac:(lia)) in Q2; specialize (Q2 ltac:(discriminate)). apply i_and_nil in Q. destruct Q as [-> ->]. cbn [w length] in *.
      pose proof (U_le (S (length s1 - length s2)) (S (length s1) - length s2) ltac:(lia)) as W. rewrite U_S in W. lia.
    - apply (aop_pays s1 ltac:(lia)) in Q; specialize (Q ltac:(exact NF)). wh H. cbn [length]. rewrite (U_S (S (length s1))). lia. }
  apply i_or_cons in R. destruct R as [(s1 & -> & R)|[[H R]|(j1 & j2 & R1 & R & ->)]].
  - apply F1 in R. lia.
  - apply F1 in R. destruct H as [->| ->]; lia.
  - apply F1 in R1. apply i_or_cons in R. destruct R as [(s1 & -> & R)|[[H R]|(j3 & j4 & R2 & R & ->)]].
    + apply F2 in R; [lia|discriminate].
    + apply F2 in R; [lia|exact NF].
    + apply i_or_nil in R. destruct R as [[X|X] ->]; [congruence|]. subst o. cbn [w]. rewrite U_S.
      apply i_and in R2. destruct R2 as [[X _]|(k4 & -> & R2)]; [discriminate|]. apply i_and_cons in R2.
      destruct R2 as [(s1 & h1 & h2 & Q1 & Q & ->)|[[_ R2]|[[X|X] _]]]; [|apply i_simple in R2; lia|discriminate..].
      pose proof (i_simple _ _ _ _ Q1) as K1. apply lit_rest in Q1. subst s0. cbn [length] in *.
      apply i_and_cons in Q. destruct Q as [(s2 & h3 & h4 & Q2 & Q & _)|[[_ Q]|[[X|X] _]]]; [|apply l_fail in Q; [lia|lia|cbn; tauto]|discriminate..].
      apply i_and_nil in Q. destruct Q as [X _]. discriminate.
Qed.

(** One more element of a sequence. *)
Definition more : expr := And [x_one; x_blank; look_next; x_and].

Lemma more_pays : forall s0, length s0 < length s -> forall o k, run more s0 o k ->
  match o with OM r => k <= U * (length s0 - length r) /\ length r < length s0 | OF => k <= 5 * L | _ => k <= U * S (length s0) end.
Proof.
  intros s0 L0 o k R. pose proof L_ge as GE. pose proof U_eq as UE.
  assert (HC : halts o -> k <= 4 * L -> match o with OM r => k <= U * (length s0 - length r) /\ length r < length s0 | OF => k <= 5 * L | _ => k <= U * S (length s0) end).
  { intros [->| ->] B; rewrite U_S; lia. }
  apply i_and in R. destruct R as [[-> ->]|(k3 & -> & R)]; [lia|].
  apply i_and_cons in R. destruct R as [(s1 & h1 & h2 & R1 & R & ->)|[[-> R]|[H R]]].
  2: { apply l_leaf in R; [lia|lia|leaf]. }
  2: { apply l_leaf in R; [apply HC; [exact H|lia]|lia|leaf]. }
  pose proof (run_lt _ _ _ _ R1 I consumes_one) as L1. apply l_leaf in R1; [|lia|leaf].
  apply i_and_cons in R. destruct R as [(s2 & h3 & h4 & R2 & R & ->)|[[-> R]|[H R]]].
  2: { apply l_leaf in R; [lia|lia|leaf]. }
  2: { apply l_leaf in R; [apply HC; [exact H|lia]|lia|leaf]. }
  pose proof (run_le _ _ _ _ R2 I) as L2. apply l_leaf in R2; [|lia|leaf].
  apply i_and_cons in R. destruct R as [(s3 & h5 & h6 & R3 & R & ->)|[[-> R]|[H R]]].
  2: { apply l_leaf in R; [lia|lia|leaf]. }
  2: { apply l_leaf in R; [apply HC; [exact H|lia]|lia|leaf]. }
  assert (SN : sane look_next) by (cbn; tauto).
  pose proof (run_le _ _ _ _ R3 SN) as L3. apply l_leaf in R3; [|lia|leaf].
  destruct (IH s3 ltac:(lia)) as (_ & _ & P).
  apply i_and_cons in R. destruct R as [(s4 & h7 & h8 & R4 & R & ->)|[[-> R]|[H R]]].
  - apply i_and_nil in R. destruct R as [-> ->]. pose proof (run_le _ _ _ _ R4 I) as L4. apply P in R4; specialize (R4 ltac:(discriminate)). cbn [w] in R4. split; [|lia].
    pose proof (U_le (length s3 - length s4) (length s0 - length s4) ltac:(lia)). lia.
  - apply l_fail in R; [|lia|cbn; tauto]. lia.
  - apply P in R; specialize (R ltac:(destruct H as [->| ->]; discriminate)). rewrite (w_halt _ _ H) in R.
    pose proof (U_le (S (length s3)) (S (length s0)) ltac:(lia)). destruct H as [->| ->]; lia.
Qed.

Lemma mores_pay : forall mn s0 o k, costs_rep PG more mn None s0 o k -> length s0 < length s ->
  match o with OM r => k <= U * (length s0 - length r) + 5 * L /\ length r <= length s0 | OF => k <= U * S (length s0) + 5 * L | _ => k <= U * S (length s0) end.
Proof.
  apply (rep_ind more (fun mn s0 o k => length s0 < length s ->
    match o with OM r => k <= U * (length s0 - length r) + 5 * L /\ length r <= length s0 | OF => k <= U * S (length s0) + 5 * L | _ => k <= U * S (length s0) end)).
  - intros _ s0 _. lia.
  - intros _ s0 s1 o k k' R H L0. apply (more_pays _ L0) in R. destruct R as [R L1]. specialize (H ltac:(lia)).
    destruct o as [r| | |].
    + destruct H as [H L2]. split; [|lia]. replace (length s0 - length r) with ((length s0 - length s1) + (length s1 - length r)) by lia.
      rewrite Nat.mul_add_distr_l. lia.
    + replace (S (length s0)) with ((length s0 - length s1) + S (length s1)) by lia. rewrite Nat.mul_add_distr_l. lia.
    + replace (S (length s0)) with ((length s0 - length s1) + S (length s1)) by lia. rewrite Nat.mul_add_distr_l. lia.
    + replace (S (length s0)) with ((length s0 - length s1) + S (length s1)) by lia. rewrite Nat.mul_add_distr_l. lia.
  - intros s0 k R L0. apply (more_pays _ L0) in R. split; lia.
  - intros _ s0 k _ R L0. apply (more_pays _ L0) in R. lia.
  - intros _ s0 o k R H L0. apply (more_pays _ L0) in R. destruct H as [->| ->]; exact R.
Qed.

Lemma and_pays : pays 8 x_and s.
Proof.
  intros o k R NF. pose proof L_ge as GE. pose proof U_eq as UE.
  eapply i_rule in R; [|exact g_and]. destruct R as [[-> ->]|(k1 & -> & R)]; [apply pays_cut; lia|].
  apply i_or in R. destruct R as [[-> ->]|(k2 & -> & R)]; [cbn [w]; rewrite U_S; lia|].
  apply i_or_cons in R. destruct R as [(s1 & -> & R)|[[H R]|(j1 & j2 & R1 & R & ->)]].
  - pose proof (run_lt _ _ _ _ R I consumes_err) as C. apply l_leaf in R; [|lia|leaf]. cbn [w].
    pose proof (U_le 1 (length s - length s1) ltac:(lia)). lia.
  - apply l_leaf in R; [|lia|leaf]. rewrite (w_halt _ _ H), U_S. lia.
  - apply l_leaf in R1; [|lia|leaf].
    assert (F : forall o k, run (And [x_rep; Repeat more 0 None]) s o k -> (o <> OF -> k + 10 * L <= U * w s o) /\ (o = OF -> k <= L + 10)).
    { clear o j1 j2 R R1 NF. intros o k R. apply i_and in R. destruct R as [[-> ->]|(k3 & -> & R)]; [split; [intros _; cbn [w]; rewrite U_S; lia|discriminate]|].
      apply i_and_cons in R. destruct R as [(s1 & h1 & h2 & Q1 & Q & ->)|[[-> R]|[H R]]].
      - pose proof (run_le _ _ _ _ Q1 I) as L1. apply (rep_pays s (le_n _)) in Q1; specialize (Q1 ltac:(discriminate)). cbn [w] in Q1.
        assert (C : length s1 < length s) by (destruct (Nat.eq_dec (length s) (length s1)) as [E|E]; [rewrite E, Nat.sub_diag in Q1; lia|lia]).
        apply i_and_cons in Q. destruct Q as [(s2 & h3 & h4 & Q2 & Q & ->)|[[-> Q]|[H Q]]].
        + apply i_and_nil in Q. destruct Q as [-> ->]. split; [intros _|discriminate]. cbn [w].
          apply i_rep in Q2. destruct Q2 as [[X _]|(h5 & -> & Q2)]; [discriminate|]. apply mores_pay in Q2; [|exact C]. destruct Q2 as [Q2 L2].
          replace (length s - length s2) with ((length s - length s1) + (length s1 - length s2)) by lia. rewrite Nat.mul_add_distr_l. lia.
        + exfalso. apply i_rep in Q. destruct Q as [[X _]|(h5 & -> & Q)]; [discriminate|]. exact (rep0_never_fails _ _ _ Q).
        + split; [intros _|intros ->; destruct H; discriminate]. rewrite (w_halt _ _ H).
          assert (Qk : h2 <= S (U * S (length s1))).
          { apply i_rep in Q. destruct Q as [[X ->]|(h5 & -> & Q)]; [lia|]. apply mores_pay in Q; [|exact C]. destruct H as [->| ->]; lia. }
          replace (S (length s)) with ((length s - length s1) + S (length s1)) by lia. rewrite Nat.mul_add_distr_l. lia.
      - split; [congruence|intros _]. apply l_fail in R; [|lia|cbn; tauto]. lia.
      - split; [intro NF|intros ->; destruct H; discriminate]. apply (rep_pays s (le_n _)) in R; specialize (R ltac:(exact NF)). lia. }
    apply i_or_cons in R. destruct R as [(s1 & -> & R)|[[H R]|(j3 & j4 & R2 & R & ->)]].
    + apply F in R. destruct R as [R _]. specialize (R ltac:(discriminate)). lia.
    + apply F in R. destruct R as [R _]. specialize (R NF). lia.
    + apply i_or_nil in R. destruct R as [[X|X] ->]; [congruence|]. subst o. apply F in R2. destruct R2 as [_ R2]. specialize (R2 eq_refl).
      cbn [w]. rewrite U_S. lia.
Qed.

(** One more alternative. *)
Definition alt : expr := And [x_blank; Simple (Literal (s_ "/")); x_blank; x_or].

Lemma alt_pays : forall s0, length s0 <= length s -> forall o k, run alt s0 o k ->
  match o with OM r => k <= U * (length s0 - length r) /\ length r <= length s0 | OF => k <= 3 * L + 10 | _ => k <= U * S (length s0) end.
Proof.
  intros s0 L0 o k R. pose proof L_ge as GE. pose proof U_eq as UE.
  assert (HC : halts o -> k <= 4 * L -> match o with OM r => k <= U * (length s0 - length r) /\ length r <= length s0 | OF => k <= 3 * L + 10 | _ => k <= U * S (length s0) end).
  { intros [->| ->] B; rewrite U_S; lia. }
  apply i_and in R. destruct R as [[-> ->]|(k3 & -> & R)]; [lia|].
  apply i_and_cons in R. destruct R as [(s1 & h1 & h2 & R1 & R & ->)|[[-> R]|[H R]]].
  2: { apply l_leaf in R; [lia|lia|leaf]. }
  2: { apply l_leaf in R; [apply HC; [exact H|lia]|lia|leaf]. }
  pose proof (run_le _ _ _ _ R1 I) as L1. apply l_leaf in R1; [|lia|leaf].
  apply i_and_cons in R. destruct R as [(s2 & h3 & h4 & R2 & R & ->)|[[-> R]|[H R]]].
  2: { apply i_simple in R. lia. }
  2: { apply i_simple in R. apply HC; [exact H|lia]. }
  pose proof (i_simple _ _ _ _ R2) as K2. apply lit_rest in R2. subst s1. cbn [length] in L1.
  apply i_and_cons in R. destruct R as [(s3 & h5 & h6 & R3 & R & ->)|[[-> R]|[H R]]].
  2: { apply l_leaf in R; [lia|lia|leaf]. }
  2: { apply l_leaf in R; [apply HC; [exact H|lia]|lia|leaf]. }
  pose proof (run_le _ _ _ _ R3 I) as L3. apply l_leaf in R3; [|lia|leaf].
  destruct (IH s3 ltac:(lia)) as (_ & P & _).
  apply i_and_cons in R. destruct R as [(s4 & h7 & h8 & R4 & R & ->)|[[-> R]|[H R]]].
  - apply i_and_nil in R. destruct R as [-> ->]. pose proof (run_le _ _ _ _ R4 I) as L4. apply P in R4; specialize (R4 ltac:(discriminate)). cbn [w] in R4. split; [|lia].
    pose proof (U_le (length s3 - length s4) (length s0 - length s4) ltac:(lia)). lia.
  - apply l_fail in R; [|lia|cbn; tauto]. lia.
  - apply P in R; specialize (R ltac:(destruct H as [->| ->]; discriminate)). rewrite (w_halt _ _ H) in R.
    pose proof (U_le (S (length s3)) (S (length s0)) ltac:(lia)). destruct H as [->| ->]; lia.
Qed.

Lemma or_pays : pays 4 x_or s.
Proof.
  intros o k R NF. pose proof L_ge as GE. pose proof U_eq as UE.
  eapply i_rule in R; [|exact g_or]. destruct R as [[-> ->]|(k1 & -> & R)]; [apply pays_cut; lia|].
  apply i_and in R. destruct R as [[-> ->]|(k2 & -> & R)]; [cbn [w]; rewrite U_S; lia|].
  apply i_and_cons in R. destruct R as [(s1 & h1 & h2 & Q1 & Q & ->)|[[-> R]|[H R]]].
  - pose proof (run_le _ _ _ _ Q1 I) as L1. apply and_pays in Q1; specialize (Q1 ltac:(discriminate)). cbn [w] in Q1.
    apply i_and_cons in Q. destruct Q as [(s2 & h3 & h4 & Q2 & Q & ->)|[[-> Q]|[H Q]]].
    + apply i_and_nil in Q. destruct Q as [-> ->]. cbn [w].
      apply i_rep in Q2. destruct Q2 as [[X _]|(h5 & -> & Q2)]; [discriminate|]. apply i_opt in Q2.
      destruct Q2 as [[X _]|[(s3 & X & Q2)|[[X Q2]|[[X|X] _]]]]; try discriminate.
      * injection X as <-. apply alt_pays in Q2; [|lia]. destruct Q2 as [Q2 L2].
        replace (length s - length s2) with ((length s - length s1) + (length s1 - length s2)) by lia. rewrite Nat.mul_add_distr_l. lia.
      * injection X as ->. apply alt_pays in Q2; [|lia]. lia.
    + congruence.
    + assert (Qk : h2 <= S (U * S (length s1))).
      { apply i_rep in Q. destruct Q as [[X ->]|(h5 & -> & Q)]; [lia|]. apply i_opt in Q.
        destruct Q as [[X ->]|[(s3 & -> & Q2)|[[-> Q2]|[_ Q]]]]; [lia|destruct H; discriminate..|].
        apply alt_pays in Q; [|lia]. destruct H as [->| ->]; lia. }
      rewrite (w_halt _ _ H). replace (S (length s)) with ((length s - length s1) + S (length s1)) by lia. rewrite Nat.mul_add_distr_l. lia.
  - congruence.
  - apply and_pays in R; specialize (R ltac:(exact NF)). lia.
Qed.

Lemma expr_pays : pays 2 x_expr s.
Proof.
  intros o k R NF. pose proof L_ge as GE.
  eapply i_rule in R; [|exact g_expr]. destruct R as [[-> ->]|(k1 & -> & R)]; [apply pays_cut; lia|].
  apply or_pays in R; specialize (R ltac:(exact NF)). lia.
Qed.

End Step.

Lemma all_pay : forall s, length s <= N -> pays 2 x_expr s /\ pays 4 x_or s /\ pays 8 x_and s.
Proof.
  intro s. remember (length s) as n eqn:E. revert s E. induction n as [n IH] using lt_wf_ind. intros s -> Ls.
  assert (H : forall s', length s' < length s -> pays 2 x_expr s' /\ pays 4 x_or s' /\ pays 8 x_and s').
  { intros s' L'. apply (IH (length s') L' s' eq_refl). lia. }
  split; [|split]; [apply expr_pays|apply or_pays|apply and_pays]; assumption.
Qed.

(* ------------------------------------------------------------------------------------------- *)
(** * Rules, modules and grammars *)

(** The text starts with the head of a rule, as far as its [=] sign. *)
Definition passed (s : str) : Prop := exists t1 s1 t2 s2 t3 r,
  peg PG x_blank s (PMatch t1 s1) /\ peg PG x_name s1 (PMatch t2 s2) /\ peg PG x_blank s2 (PMatch t3 (61%N :: r)).
(** Nothing but blanks before a closing brace. *)
Definition closes (s : str) : Prop := exists t r, peg PG x_blank s (PMatch t (125%N :: r)).

Lemma rule_cost : forall s o k, length s <= N -> run x_rule s o k ->
  ((forall r, o <> OM r) /\ k <= 4 * L) \/
  (passed s /\ match o with OM r => k <= U * (length s - length r) + 8 * L /\ length r < length s | _ => k <= U * S (length s) + 8 * L end).
Proof.
  intros s o k Ls R. pose proof L_ge as GE. pose proof U_eq as UE.
  eapply i_rule in R; [|exact g_rule]. destruct R as [[-> ->]|(k1 & -> & R)]; [left; split; [discriminate|lia]|].
  apply i_and in R. destruct R as [[-> ->]|(k2 & -> & R)]; [left; split; [discriminate|lia]|].
  assert (HN : o = OF \/ halts o -> forall r, o <> OM r) by (intros [->|[->| ->]] r; discriminate).
  apply i_and_cons in R. destruct R as [(s1 & j1 & j2 & R1 & R & ->)|[[X R]|[H R]]].
  2, 3: apply l_leaf in R; [left; split; [apply HN; auto|lia]|lia|leaf].
  pose proof (run_le _ _ _ _ R1 I) as L1. destruct (run_says _ _ _ _ R1 I) as [t1 P1]. apply l_leaf in R1; [|lia|leaf].
  apply i_and_cons in R. destruct R as [(s2 & j3 & j4 & R2 & R & ->)|[[X R]|[H R]]].
  2, 3: apply l_leaf in R; [left; split; [apply HN; auto|lia]|lia|leaf].
  pose proof (run_le _ _ _ _ R2 I) as L2. destruct (run_says _ _ _ _ R2 I) as [t2 P2]. apply l_leaf in R2; [|lia|leaf].
  apply i_and_cons in R. destruct R as [(s3 & j5 & j6 & R3 & R & ->)|[[X R]|[H R]]].
  2, 3: apply l_leaf in R; [left; split; [apply HN; auto|lia]|lia|leaf].
  pose proof (run_le _ _ _ _ R3 I) as L3. destruct (run_says _ _ _ _ R3 I) as [t3 P3]. apply l_leaf in R3; [|lia|leaf].
  apply i_and_cons in R. destruct R as [(s4 & j7 & j8 & R4 & R & ->)|[[X R]|[H R]]].
  2, 3: apply i_simple in R; left; split; [apply HN; auto|lia].
  pose proof (i_simple _ _ _ _ R4) as K4. apply lit_rest in R4. subst s3. cbn [length] in *.
  assert (PS : passed s) by (exists t1, s1, t2, s2, t3, s4; auto). right. split; [exact PS|].
  assert (HC : o = OF \/ halts o -> S (S (j1 + (j3 + (j5 + (j7 + j8))))) <= U * S (length s) + 8 * L ->
    match o with OM r => S (S (j1 + (j3 + (j5 + (j7 + j8))))) <= U * (length s - length r) + 8 * L /\ length r < length s
    | _ => S (S (j1 + (j3 + (j5 + (j7 + j8))))) <= U * S (length s) + 8 * L end) by (intros [->|[->| ->]] B; exact B).
  apply i_and_cons in R. destruct R as [(s5 & j9 & j10 & R5 & R & ->)|[[X R]|[H R]]].
  2, 3: apply l_leaf in R; [apply HC; [auto|lia]|lia|leaf].
  pose proof (run_le _ _ _ _ R5 I) as L5. apply l_leaf in R5; [|lia|leaf].
  destruct (all_pay s5 ltac:(lia)) as (PE & _).
  apply i_and_cons in R. destruct R as [(s6 & j11 & j12 & R6 & R & ->)|[[X R]|[H R]]].
  2: { apply l_fail in R; [|lia|cbn; tauto]. apply HC; [auto|lia]. }
  2: { apply PE in R; specialize (R ltac:(destruct H as [->| ->]; discriminate)). wh H.
       pose proof (U_le (S (length s5)) (S (length s)) ltac:(lia)). apply HC; [auto|lia]. }
  pose proof (run_le _ _ _ _ R6 I) as L6. apply PE in R6; specialize (R6 ltac:(discriminate)). cbn [w] in R6.
  pose proof (U_le (length s5 - length s6) (S (length s)) ltac:(lia)) as W1.
  apply i_and_cons in R. destruct R as [(s7 & j13 & j14 & R7 & R & ->)|[[X R]|[H R]]].
  2, 3: apply l_leaf in R; [apply HC; [auto|lia]|lia|leaf].
  pose proof (run_le _ _ _ _ R7 I) as L7. apply l_leaf in R7; [|lia|leaf].
  apply i_and_cons in R. destruct R as [(s8 & j15 & j16 & R8 & R & ->)|[[X R]|[H R]]].
  2, 3: apply l_leaf in R; [apply HC; [auto|lia]|lia|leaf].
  pose proof (run_le _ _ _ _ R8 I) as L8. apply l_leaf in R8; [|lia|leaf]. apply i_and_nil in R. destruct R as [-> ->].
  split; [|lia]. pose proof (U_le (length s5 - length s6) (length s - length s8) ltac:(lia)). lia.
Qed.

(** A run of a module: cheap, or it gets to the grammar inside. *)
Definition inside (s s4 : str) : Prop := length s4 + 2 <= length s /\ exists t1 s1 t2 s2 t3 r,
  peg PG x_blank s (PMatch t1 s1) /\ peg PG x_mod s1 (PMatch t2 s2) /\ peg PG x_blank s2 (PMatch t3 (123%N :: r)).

Lemma consumes_mod : consumes x_mod.
Proof. eapply consumes_rule; [exact g_mod_name|exact consumes_symbol]. Qed.

Lemma module_cost : forall s o k, length s <= N -> run x_module s o k ->
  ((forall r, o <> OM r) /\ k <= 5 * L) \/
  exists s4 og kg, inside s s4 /\ run x_grammar s4 og kg /\ k <= kg + 9 * L /\
    match og with
    | OM r5 => length r5 <= length s4 /\ (forall r, o = OM r -> closes r5 /\ length r < length r5)
    | _ => forall r, o <> OM r
    end.
Proof.
  intros s o k Ls R. pose proof L_ge as GE. pose proof U_eq as UE.
  eapply i_rule in R; [|exact g_module]. destruct R as [[-> ->]|(k1 & -> & R)]; [left; split; [discriminate|lia]|].
  apply i_and in R. destruct R as [[-> ->]|(k2 & -> & R)]; [left; split; [discriminate|lia]|].
  assert (HN : o = OF \/ halts o -> forall r, o <> OM r) by (intros [->|[->| ->]] r; discriminate).
  apply i_and_cons in R. destruct R as [(s1 & j1 & j2 & R1 & R & ->)|[[X R]|[H R]]].
  2, 3: apply l_leaf in R; [left; split; [apply HN; auto|lia]|lia|leaf].
  pose proof (run_le _ _ _ _ R1 I) as L1. destruct (run_says _ _ _ _ R1 I) as [t1 P1]. apply l_leaf in R1; [|lia|leaf].
  apply i_and_cons in R. destruct R as [(s2 & j3 & j4 & R2 & R & ->)|[[X R]|[H R]]].
  2, 3: apply l_leaf in R; [left; split; [apply HN; auto|lia]|lia|leaf].
  pose proof (run_lt _ _ _ _ R2 I consumes_mod) as L2. destruct (run_says _ _ _ _ R2 I) as [t2 P2]. apply l_leaf in R2; [|lia|leaf].
  apply i_and_cons in R. destruct R as [(s3 & j5 & j6 & R3 & R & ->)|[[X R]|[H R]]].
  2, 3: apply l_leaf in R; [left; split; [apply HN; auto|lia]|lia|leaf].
  pose proof (run_le _ _ _ _ R3 I) as L3. destruct (run_says _ _ _ _ R3 I) as [t3 P3]. apply l_leaf in R3; [|lia|leaf].
  apply i_and_cons in R. destruct R as [(s4 & j7 & j8 & R4 & R & ->)|[[X R]|[H R]]].
  2, 3: apply i_simple in R; left; split; [apply HN; auto|lia].
  pose proof (i_simple _ _ _ _ R4) as K4. apply lit_rest in R4. subst s3. cbn [length] in *.
  apply i_and_cons in R. destruct R as [(s5 & j9 & j10 & R5 & R & ->)|[[X R]|[H R]]].
  2, 3: apply l_leaf in R; [left; split; [apply HN; auto|lia]|lia|leaf].
  pose proof (run_le _ _ _ _ R5 I) as L5. apply l_leaf in R5; [|lia|leaf].
  assert (IN : inside s s5) by (split; [lia|exists t1, s1, t2, s2, t3, s4; auto]). right. exists s5.
  apply i_and_cons in R. destruct R as [(s6 & j11 & j12 & R6 & R & ->)|[[X R]|[H R]]].
  2: { exists OF, j10. split; [exact IN|]. split; [exact R|]. split; [lia|apply HN; auto]. }
  2: { exists o, j10. split; [exact IN|]. split; [exact R|]. split; [lia|]. destruct H as [->| ->]; discriminate. }
  pose proof (run_le _ _ _ _ R6 I) as L6. exists (OM s6), j11. split; [exact IN|]. split; [exact R6|].
  apply i_and_cons in R. destruct R as [(s7 & j13 & j14 & R7 & R & ->)|[[X R]|[H R]]].
  2, 3: apply l_leaf in R; [|lia|leaf]; (split; [lia|]); (split; [exact L6|]); intros r E; exfalso; refine (HN _ r E); auto.
  pose proof (run_le _ _ _ _ R7 I) as L7. destruct (run_says _ _ _ _ R7 I) as [t7 P7]. apply l_leaf in R7; [|lia|leaf].
  apply i_and_cons in R. destruct R as [(s8 & j15 & j16 & R8 & R & ->)|[[X R]|[H R]]].
  2, 3: apply i_simple in R; (split; [lia|]); (split; [exact L6|]); intros r E; exfalso; refine (HN _ r E); auto.
  pose proof (i_simple _ _ _ _ R8) as K8. apply lit_rest in R8. subst s7. cbn [length] in *.
  apply i_and_cons in R. destruct R as [(s9 & j17 & j18 & R9 & R & ->)|[[X R]|[H R]]].
  2, 3: apply l_leaf in R; [|lia|leaf]; (split; [lia|]); (split; [exact L6|]); intros r E; exfalso; refine (HN _ r E); auto.
  pose proof (run_le _ _ _ _ R9 I) as L9. apply l_leaf in R9; [|lia|leaf].
  apply i_and_cons in R. destruct R as [(s10 & j19 & j20 & R10 & R & ->)|[[X R]|[H R]]].
  2, 3: apply l_leaf in R; [|lia|leaf]; (split; [lia|]); (split; [exact L6|]); intros r E; exfalso; refine (HN _ r E); auto.
  pose proof (run_le _ _ _ _ R10 I) as L10. apply l_leaf in R10; [|lia|leaf]. apply i_and_nil in R. destruct R as [-> ->].
  split; [lia|]. split; [exact L6|]. intros r E. injection E as <-. split; [|lia]. exists t7, s8. exact P7.
Qed.

(** A text cannot start with both the head of a rule and the head of a module. *)
Lemma det : forall e s t1 r1 t2 r2, peg PG e s (PMatch t1 r1) -> peg PG e s (PMatch t2 r2) -> r1 = r2.
Proof. intros e s t1 r1 t2 r2 H1 H2. pose proof (peg_det _ _ _ _ H1 _ H2) as E. injection E as _ ->. reflexivity. Qed.

Lemma passed_inside : forall s s4, passed s -> ~ inside s s4.
Proof.
  intros s s4 (t1 & s1 & t2 & s2 & t3 & r & P1 & P2 & P3) (_ & u1 & q1 & u2 & q2 & u3 & r' & Q1 & Q2 & Q3).
  pose proof (det _ _ _ _ _ _ P1 Q1) as <-. eapply inv_nt in Q2; [|exact g_mod_name]. destruct Q2 as (k2 & -> & Q2).
  eapply inv_nt in P2; [|exact g_rule_name]. destruct P2 as (k1 & -> & P2). cbn in P2, Q2.
  apply inv_and_cons in P2. destruct P2 as (a1 & z1 & a2 & -> & D1 & P2). apply inv_opt in D1. destruct D1 as [[-> ->]|D1].
  - apply inv_and_cons in P2. destruct P2 as (a3 & z2 & a4 & -> & D2 & P2). pose proof (det _ _ _ _ _ _ D2 Q2) as <-.
    apply inv_and_cons in P2. destruct P2 as (a5 & z3 & a6 & -> & D3 & P2). apply inv_and_nil in P2. destruct P2 as [-> ->].
    apply inv_rep0 in D3. destruct D3 as (l & St & _ & _). inversion St as [|? ? ? ? ? D4 ?]; subst.
    + pose proof (det _ _ _ _ _ _ P3 Q3) as E. discriminate.
    + apply inv_and_cons in D4. destruct D4 as (a7 & z4 & a8 & -> & D4 & _). apply inv_lit in D4. destruct D4 as [-> ->].
      destruct (looks_empty PG 20 x_blank (Some 46%N) (46%N :: z4) eq_refl) as [us E]; [vm_compute; reflexivity|].
      pose proof (det _ _ _ _ _ _ E Q3) as X. discriminate.
  - apply inv_lit in D1. destruct D1 as [-> ->].
    pose proof (looks_fail PG 20 (RuleName (s_ "symbol")) (Some 46%N) (46%N :: z1) eq_refl ltac:(vm_compute; reflexivity)) as F.
    exact (fail_nomatch _ _ F _ _ Q2).
Qed.

Lemma closes_passed : forall s, closes s -> ~ passed s.
Proof.
  intros s (t & r & C) (t1 & s1 & t2 & s2 & t3 & r' & P1 & P2 & _). pose proof (det _ _ _ _ _ _ C P1) as <-.
  pose proof (looks_fail PG 20 x_name (Some 125%N) (125%N :: r) eq_refl ltac:(vm_compute; reflexivity)) as F. exact (fail_nomatch _ _ F _ _ P2).
Qed.

Lemma closes_inside : forall s s4, closes s -> ~ inside s s4.
Proof.
  intros s s4 (t & r & C) (_ & t1 & s1 & t2 & s2 & t3 & r' & P1 & P2 & _). pose proof (det _ _ _ _ _ _ C P1) as <-.
  pose proof (looks_fail PG 20 x_mod (Some 125%N) (125%N :: r) eq_refl ltac:(vm_compute; reflexivity)) as F. exact (fail_nomatch _ _ F _ _ P2).
Qed.

Definition turn : expr := Or [x_rule; x_module].
Let V := 200 * L.
Lemma V_eq : V = 200 * L.
Proof. reflexivity. Qed.
Opaque V.
Lemma V_le : forall x y, x <= y -> V * x <= V * y.
Proof. intros. apply Nat.mul_le_mono_l. assumption. Qed.
Lemma V_S : forall x, V * S x = V + V * x.
Proof. intro x. lia. Qed.
Lemma V_U : forall x, V * x = U * x + 100 * L * x.
Proof. intro x. rewrite V_eq, U_eq. lia. Qed.

Definition turn_ok (s : str) : Prop := forall o k, run turn s o k ->
  match o with OM r => k <= V * (length s - length r) /\ length r < length s | _ => k <= V * S (length s) end /\ (closes s -> k <= 12 * L).
Definition grammar_ok (s : str) : Prop := forall o k, run x_grammar s o k ->
  match o with
  | OM r => exists kf, run turn r OF kf /\ k <= V * (length s - length r) + kf + 2 /\ length r <= length s
  | _ => k <= V * S (length s) + 2
  end.

Lemma turns_grammar : forall n, n <= N -> (forall s, length s <= n -> turn_ok s) -> forall s, length s <= n -> grammar_ok s.
Proof.
  intros n Ln T s Ls o k R. eapply i_rule in R; [|exact g_grammar]. destruct R as [[-> ->]|(k1 & -> & R)]; [lia|].
  apply i_rep in R. destruct R as [[-> ->]|(k2 & -> & R)]; [lia|].
  enough (Q : forall mn s o k, costs_rep PG turn mn None s o k -> length s <= n ->
    match o with OM r => exists kf, run turn r OF kf /\ k <= V * (length s - length r) + kf /\ length r <= length s | _ => k <= V * S (length s) end).
  { apply Q in R; [|exact Ls]. destruct o as [r| | |]; try lia. destruct R as (kf & R1 & R2 & R3). exists kf. split; [exact R1|]. split; lia. }
  clear s Ls o k2 R. apply (rep_ind turn (fun mn s o k => length s <= n ->
    match o with OM r => exists kf, run turn r OF kf /\ k <= V * (length s - length r) + kf /\ length r <= length s | _ => k <= V * S (length s) end)).
  - intros _ s _. lia.
  - intros _ s s1 o k k' R H Ls. destruct (T s Ls _ _ R) as [[K L1] _]. specialize (H ltac:(lia)). destruct o as [r| | |].
    + destruct H as (kf & H1 & H2 & H3). exists kf. split; [exact H1|]. split; [|lia].
      replace (length s - length r) with ((length s - length s1) + (length s1 - length r)) by lia. rewrite Nat.mul_add_distr_l. lia.
    + replace (S (length s)) with ((length s - length s1) + S (length s1)) by lia. rewrite Nat.mul_add_distr_l. lia.
    + replace (S (length s)) with ((length s - length s1) + S (length s1)) by lia. rewrite Nat.mul_add_distr_l. lia.
    + replace (S (length s)) with ((length s - length s1) + S (length s1)) by lia. rewrite Nat.mul_add_distr_l. lia.
  - intros s k R Ls. exists k. split; [exact R|]. lia.
  - intros _ s k _ R Ls. exact (proj1 (T s Ls _ _ R)).
  - intros _ s o k R H Ls. pose proof (proj1 (T s Ls _ _ R)) as K. destruct H as [->| ->]; exact K.
Qed.

Lemma turn_step : forall s, length s <= N -> (forall s', length s' < length s -> turn_ok s' /\ grammar_ok s') -> turn_ok s.
Proof.
  intros s Ls IH o k R. pose proof L_ge as GE. pose proof U_eq as UE. pose proof V_eq as VE.
  (* what a module may cost *)
  assert (M : forall o k, run x_module s o k ->
    match o with OM r => k + 20 * L <= V * (length s - length r) /\ length r < length s | _ => k + 20 * L <= V * S (length s) end /\
    (closes s \/ passed s -> k <= 5 * L)).
  { clear o k R. intros o k R. destruct (module_cost s o k Ls R) as [[NO K]|(s4 & og & kg & IN & RG & K & F)].
    - split; [|intros _; exact K]. destruct o as [r| | |]; [destruct (NO r eq_refl)|rewrite V_S; lia..].
    - split; [|intros [C|P]; [destruct (closes_inside _ _ C IN)|destruct (passed_inside _ _ P IN)]].
      pose proof (proj1 IN) as L4. destruct (IH s4 ltac:(lia)) as [_ GO]. apply GO in RG. clear GO.
      destruct og as [r5| | |].
      + destruct RG as (kf & RF & RK & L5). destruct F as [_ F]. destruct (IH r5 ltac:(lia)) as [TO _]. destruct (TO _ _ RF) as [TK TC].
        destruct o as [r| | |].
        * destruct (F r eq_refl) as [C L6]. specialize (TC C). split; [|lia].
          pose proof (V_le (1 + (length s4 - length r5)) (length s - length r) ltac:(lia)) as W. cbn [Nat.add] in W. rewrite V_S in W. lia.
        * pose proof (V_le (1 + ((length s4 - length r5) + S (length r5))) (S (length s)) ltac:(lia)) as W. cbn [Nat.add] in W.
          rewrite V_S, Nat.mul_add_distr_l in W. lia.
        * pose proof (V_le (1 + ((length s4 - length r5) + S (length r5))) (S (length s)) ltac:(lia)) as W. cbn [Nat.add] in W.
          rewrite V_S, Nat.mul_add_distr_l in W. lia.
        * pose proof (V_le (1 + ((length s4 - length r5) + S (length r5))) (S (length s)) ltac:(lia)) as W. cbn [Nat.add] in W.
          rewrite V_S, Nat.mul_add_distr_l in W. lia.
      + pose proof (V_le (1 + S (length s4)) (S (length s)) ltac:(lia)) as W. cbn [Nat.add] in W. rewrite V_S in W.
        destruct o as [r| | |]; [destruct (F r eq_refl)|lia..].
      + pose proof (V_le (1 + S (length s4)) (S (length s)) ltac:(lia)) as W. cbn [Nat.add] in W. rewrite V_S in W.
        destruct o as [r| | |]; [destruct (F r eq_refl)|lia..].
      + pose proof (V_le (1 + S (length s4)) (S (length s)) ltac:(lia)) as W. cbn [Nat.add] in W. rewrite V_S in W.
        destruct o as [r| | |]; [destruct (F r eq_refl)|lia..]. }
  apply i_or in R. destruct R as [[-> ->]|(k1 & -> & R)]; [lia|].
  apply i_or_cons in R. destruct R as [(s1 & -> & R)|[[H R]|(j1 & j2 & R1 & R & ->)]].
  - destruct (rule_cost s _ _ Ls R) as [[NO _]|[P [K L1]]]; [destruct (NO s1 eq_refl)|].
    split; [|intro C; destruct (closes_passed _ C P)]. split; [|exact L1].
    pose proof (V_U (length s - length s1)) as W. assert (1 <= length s - length s1) by lia. nia.
  - destruct (rule_cost s _ _ Ls R) as [[_ K]|[P K]].
    + split; [|lia]. destruct H as [->| ->]; rewrite V_S; lia.
    + split; [|intro C; destruct (closes_passed _ C P)]. pose proof (V_U (S (length s))) as W. destruct H as [->| ->]; nia.
  - apply i_or_cons in R.
    assert (R' : (exists o', run x_module s o' j2 /\ (o = o' \/ (o' = OF /\ o = OC)))).
    { destruct R as [(s1 & -> & R)|[[H R]|(j3 & j4 & R2 & R & ->)]]; [eauto..|]. apply i_or_nil in R. destruct R as [[->| ->] ->]; rewrite Nat.add_0_r; eauto. }
    clear R. destruct R' as (o' & R & EO). destruct (M _ _ R) as [K2 C2].
    destruct (rule_cost s _ _ Ls R1) as [[_ K1]|[P K1]].
    + split; [|intro C; specialize (C2 (or_introl C)); lia].
      destruct EO as [->|[-> ->]]; [destruct o' as [r| | |]|]; lia.
    + split; [|intro C; destruct (closes_passed _ C P)]. specialize (C2 (or_intror P)). pose proof (V_U (S (length s))) as W.
      assert (NM : forall r, o' <> OM r).
      { intros r ->. destruct (module_cost s _ _ Ls R) as [[NO _]|(s4 & og & kg & IN & _)]; [exact (NO r eq_refl)|exact (passed_inside _ _ P IN)]. }
      destruct EO as [->|[-> ->]]; [destruct o' as [r| | |]; [destruct (NM r eq_refl)|..]|]; nia.
Qed.

Lemma turns_ok : forall n, n <= N -> forall s, length s <= n -> turn_ok s.
Proof.
  induction n as [n IH] using lt_wf_ind. intros Ln s Ls. apply turn_step; [lia|]. intros s' L'.
  assert (T : forall s0, length s0 <= length s' -> turn_ok s0) by (apply IH; lia).
  split; [apply T; lia|]. apply (turns_grammar (length s')); [lia|exact T|lia].
Qed.

Lemma main_cost : forall s o k, length s <= N -> run (RuleName (s_ "main")) s o k -> k <= V * (length s + 2).
Proof.
  intros s o k Ls R. pose proof L_ge as GE. pose proof V_eq as VE. eapply i_rule in R; [|exact g_main]. destruct R as [[-> ->]|(k1 & -> & R)]; [lia|].
  pose proof (turns_grammar N (le_n _) (turns_ok N (le_n _)) s Ls _ _ R) as K. replace (length s + 2) with (S (S (length s))) by lia. rewrite V_S.
  destruct o as [r| | |]; try lia. destruct K as (kf & RF & K & L1). pose proof (proj1 (turns_ok N (le_n _) r ltac:(lia) _ _ RF)) as KF.
  replace (S (length s)) with ((length s - length r) + S (length r)) by lia. rewrite Nat.mul_add_distr_l. lia.
Qed.

End Pay.

End Bounds.

(** All texts, and any amount of fuel. *)
Lemma reading_is_quadratic : exists c, forall fuel s d, parse_calls fuel s parse_peg d <= c * (length s + 1) * (length s + 1).
Proof.
  destruct basic_ex as [A BA]. exists (200 * (40 * A) * 2). intros fuel s d.
  pose proof (expr_counts parse_peg parse_peg_sane (S fuel) (status_init_debug s d) (RuleName (s_ "main")) I (inv_init s d)) as R.
  cbn [tally] in R. apply (main_cost A BA (length s)) in R; [|apply le_n]. unfold parse_calls, parse_tally.
  change (it_parsing (status_init_debug s d)) with s in R. nia.
Qed.
