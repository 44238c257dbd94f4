(** Bounds for the cost of parsing. *)
From Verif Require Import Base ModelAst ModelParser ModelCost SpecPeg SpecPos SpecApi SpecWf ProofParser ProofEngine ProofApi ProofWf.

(* ------------------------------------------------------------------------------------------- *)
(** * Powers of two *)

Lemma pow2_le : forall a b, a <= b -> 2 ^ a <= 2 ^ b.
Proof. intros a b H. apply Nat.pow_le_mono_r; [discriminate|exact H]. Qed.

Lemma pow2_pos : forall a, 1 <= 2 ^ a.
Proof. intro a. apply (pow2_le 0 a). lia. Qed.

Lemma pow2_S : forall a, 2 ^ (S a) = 2 ^ a + 2 ^ a.
Proof. intro a. cbn. lia. Qed.

Lemma pow2_below : forall a b c, a < 2 ^ b -> b <= c -> a < 2 ^ c.
Proof. intros a b c H L. apply pow2_le in L. lia. Qed.

Lemma pow2_sum : forall a b k x y, a < 2 ^ (k + x) -> b < 2 ^ (k + y) -> 1 <= x -> 1 <= y -> a + b < 2 ^ (k + x + y).
Proof.
  intros a b k x y A B X Y. destruct x as [|x]; [lia|]. destruct y as [|y]; [lia|].
  assert (P : 2 ^ (k + S x) <= 2 ^ (k + S x + y)) by (apply pow2_le; lia).
  assert (Q : 2 ^ (k + S y) <= 2 ^ (k + S x + y)) by (apply pow2_le; lia).
  replace (k + S x + S y) with (S (k + S x + y)) by lia. rewrite pow2_S. lia.
Qed.

Lemma size_pos : forall e, 1 <= expr_size e.
Proof. intros []; cbn [expr_size]; lia. Qed.

Definition sizes (es : list expr) : nat := fold_right (fun x n => expr_size x + n) 0 es.

Section Cost.
Variable rs : rules.
Let G := rules_get rs.
Hypothesis NLR : no_left_recursion G.
Hypothesis NEL : no_empty_loops G.

Let R := length rs.
Let B := fold_right (fun p n => expr_size (snd p) + n) 0 rs.

(** What is left before the depth is exhausted: [need] without the size of the expression. *)
Definition left_depth (L : nat) (v : list str) : nat := (L * (R + 1) + (R - length v)) * (B + 1).

Lemma left_consumed : forall L L' v, L' < L -> left_depth L' [] + (B + 1) <= left_depth L v.
Proof.
  intros L L' v H. unfold left_depth. cbn [length].
  assert (X : L' * (R + 1) + (R - 0) + 1 <= L * (R + 1) + (R - length v)) by nia. nia.
Qed.

Lemma left_enter : forall L v n, length v < R -> left_depth L (n :: v) + (B + 1) = left_depth L v.
Proof.
  intros L v n H. unfold left_depth. cbn [length]. replace (R - length v) with (R - S (length v) + 1) by lia. lia.
Qed.

Lemma occurs_in : forall es x y, In x es -> occurs y x -> occurs y (And es).
Proof. intros. eapply oc_and; eassumption. Qed.

Lemma left_nil : forall e, left_in rs [] e.
Proof. intro e. exact I. Qed.

Lemma left_head : forall v e es, left_in rs v (And (e :: es)) -> left_in rs v e.
Proof. intros [|n v] e es H; [exact I|]. intros m Hm C. apply H; [exact Hm|apply cf_and_here; exact C]. Qed.

Lemma left_next : forall v e es, left_in rs v (And (e :: es)) -> may_be_empty G e -> left_in rs v (And es).
Proof. intros [|n v] e es H E; [exact I|]. intros m Hm C. apply H; [exact Hm|]. apply cf_and_next; [exact E|exact C]. Qed.

Lemma left_or : forall v es e, left_in rs v (Or es) -> In e es -> left_in rs v e.
Proof. intros [|n v] es e H E; [exact I|]. intros m Hm C. apply H; [exact Hm|]. eapply cf_or; eassumption. Qed.

Lemma left_not : forall v e, left_in rs v (Not e) -> left_in rs v e.
Proof. intros [|n v] e H; [exact I|]. intros m Hm C. apply H; [exact Hm|]. apply cf_not. exact C. Qed.

Lemma left_rep : forall v e mn mx, left_in rs v (Repeat e mn mx) -> left_in rs v e.
Proof. intros [|n v] e mn mx H; [exact I|]. intros m Hm C. apply H; [exact Hm|]. apply cf_rep. exact C. Qed.

Lemma loops_and : forall es, loops_ok rs (And es) -> Forall (loops_ok rs) es.
Proof. intros es H. apply Forall_forall. intros x X y mn mx O. refine (H y mn mx _). eapply oc_and; eassumption. Qed.

Lemma loops_or : forall es, loops_ok rs (Or es) -> Forall (loops_ok rs) es.
Proof. intros es H. apply Forall_forall. intros x X y mn mx O. refine (H y mn mx _). eapply oc_or; eassumption. Qed.

Lemma loops_not : forall e, loops_ok rs (Not e) -> loops_ok rs e.
Proof. intros e H y mn mx O. refine (H y mn mx _). apply oc_not. exact O. Qed.

Lemma loops_rep : forall e mn mx, loops_ok rs (Repeat e mn mx) -> loops_ok rs e.
Proof. intros e mn mx H y mn' mx' O. refine (H y mn' mx' _). apply oc_rep. exact O. Qed.

Lemma loops_body : forall n e, G n = Some e -> loops_ok rs e.
Proof. intros n e E y mn mx O. exact (NEL n e y mn mx E O). Qed.

Notation len st := (length (it_parsing st)).
Notation pe f := (parse_expr rs f).

(* ------------------------------------------------------------------------------------------- *)
(** * Number of calls *)

Notation calls f := (tally Nat.add rs f).

Definition counted (f : nat) : Prop := forall v e st, inv st -> visited rs v -> left_in rs v e -> loops_ok rs e ->
  calls f st e < 2 ^ (left_depth (len st) v + expr_size e).

Lemma and_counted : forall f, counted f -> forall es v st, inv st -> visited rs v -> left_in rs v (And es) ->
  Forall (loops_ok rs) es -> tally_and Nat.add (pe f) (calls f) st es < 2 ^ (left_depth (len st) v + sizes es).
Proof.
  intros f CF es. induction es as [|e es IH]; intros v st I V LI LO; cbn [tally_and sizes fold_right]; [apply pow2_pos|].
  inversion LO as [|? ? LO1 LO2]; subst. fold (sizes es).
  pose proof (CF v e st I V (left_head v e es LI) LO1) as H1. rewrite Nat.add_assoc. pose proof (size_pos e) as SP.
  assert (H2 : match pe f st e with Ok (st', _) => tally_and Nat.add (pe f) (calls f) st' es | _ => 0 end
               < 2 ^ (left_depth (len st) v + sizes es)).
  { destruct (pe f st e) as [[s1 t1]|er| |] eqn:E; try apply pow2_pos.
    destruct (step_adv rs f st e s1 t1 I E) as [I1 A1]. apply adv_len in A1.
    destruct (Nat.eq_dec (len s1) (len st)) as [Q|Q].
    - rewrite <- Q. apply IH; try assumption. eapply left_next; [exact LI|]. exact (expr_empty rs f st e s1 t1 I E Q).
    - assert (X : len s1 < len st) by lia. apply (left_consumed (len st) (len s1) v) in X.
      eapply pow2_below; [apply (IH [] s1 I1); [apply visited_nil|apply left_nil|exact LO2]|]. lia. }
  destruct es as [|e2 es].
  - cbn [sizes fold_right] in *. rewrite Nat.add_0_r.
    assert (Z : match pe f st e with Ok (st', _) => tally_and Nat.add (pe f) (calls f) st' [] | _ => 0 end = 0)
      by (destruct (pe f st e) as [[? ?]| | |]; reflexivity). rewrite Z. lia.
  - apply pow2_sum; try assumption. pose proof (size_pos e2). cbn [sizes fold_right]. lia.
Qed.

Lemma or_counted : forall f, counted f -> forall es v st, inv st -> visited rs v -> (forall e, In e es -> left_in rs v e) ->
  Forall (loops_ok rs) es -> tally_or Nat.add (pe f) (calls f) st es < 2 ^ (left_depth (len st) v + sizes es).
Proof.
  intros f CF es. induction es as [|e es IH]; intros v st I V LI LO; cbn [tally_or sizes fold_right]; [apply pow2_pos|].
  inversion LO as [|? ? LO1 LO2]; subst. fold (sizes es).
  pose proof (CF v e st I V (LI e (or_introl eq_refl)) LO1) as H1. rewrite Nat.add_assoc. pose proof (size_pos e) as SP.
  assert (H2 : match pe f st e with
               | Err er => if is_critical (e_priority er) then 0 else tally_or Nat.add (pe f) (calls f) st es
               | _ => 0 end < 2 ^ (left_depth (len st) v + sizes es)).
  { destruct (pe f st e) as [[s1 t1]|er| |] eqn:E; try apply pow2_pos.
    destruct (is_critical (e_priority er)); [apply pow2_pos|]. apply IH; try assumption. intros x X. apply LI. right. exact X. }
  destruct es as [|e2 es].
  - cbn [sizes fold_right] in *. rewrite Nat.add_0_r.
    assert (Z : match pe f st e with
               | Err er => if is_critical (e_priority er) then 0 else tally_or Nat.add (pe f) (calls f) st []
               | _ => 0 end = 0)
      by (destruct (pe f st e) as [[? ?]|er| |]; [reflexivity|destruct (is_critical (e_priority er)); reflexivity|reflexivity|reflexivity]).
    rewrite Z. lia.
  - apply pow2_sum; try assumption. pose proof (size_pos e2). cbn [sizes fold_right]. lia.
Qed.

(** Turns still possible without consuming anything. *)
Definition turns (mx : option nat) (c : nat) : nat := match mx with Some m => m - c | None => 0 end.

Lemma rep_counted : forall f, counted f -> forall e mx, loops_ok rs e -> (unlimited mx -> ~ may_be_empty G e) ->
  forall g v st c, inv st -> visited rs v -> left_in rs v e ->
  match mx with Some (S m) => c < S m | _ => True end ->
  S (tally_repeat Nat.add g (pe f) (calls f) st e mx c) < 2 ^ (left_depth (len st) v + expr_size e + 1 + turns mx c).
Proof.
  intros f CF e mx LO NE g. induction g as [|g IH]; intros v st c I V LI GB; cbn [tally_repeat].
  - apply (pow2_below 1 1); [cbn; lia|lia].
  - pose proof (CF v e st I V LI LO) as H1. pose proof (size_pos e) as SP.
    assert (H2 : forall k, k = left_depth (len st) v + expr_size e + turns mx c ->
      match pe f st e with
      | Ok (st', _) => if touch_max_bound mx c then 0 else tally_repeat Nat.add g (pe f) (calls f) st' e mx (c + 1)
      | _ => 0 end < 2 ^ k).
    { intros k K. destruct (pe f st e) as [[s1 t1]|er| |] eqn:E; try apply pow2_pos.
      destruct (touch_max_bound mx c) eqn:TM; [apply pow2_pos|].
      destruct (step_adv rs f st e s1 t1 I E) as [I1 A1]. apply adv_len in A1.
      assert (GB' : match mx with Some (S m) => c + 1 < S m | _ => True end).
      { destruct mx as [[|m]|]; try exact Logic.I. cbn in TM. apply Nat.eqb_neq in TM. lia. }
      destruct (Nat.eq_dec (len s1) (len st)) as [Q|Q].
      - pose proof (expr_empty rs f st e s1 t1 I E Q) as ME.
        destruct mx as [[|m]|]; [destruct (NE (or_intror eq_refl) ME)| |destruct (NE (or_introl eq_refl) ME)].
        pose proof (IH v s1 (c + 1) I1 V LI GB') as X. rewrite Q in X.
        eapply Nat.lt_trans; [apply Nat.lt_succ_diag_r|]. eapply pow2_below; [exact X|]. subst k. unfold turns. lia.
      - assert (X : len s1 < len st) by lia. apply (left_consumed (len st) (len s1) v) in X.
        pose proof (IH [] s1 (c + 1) I1 (visited_nil rs) (left_nil e) GB') as Y.
        eapply Nat.lt_trans; [apply Nat.lt_succ_diag_r|]. eapply pow2_below; [exact Y|]. subst k. unfold turns. destruct mx; lia. }
    specialize (H2 _ eq_refl). replace (left_depth (len st) v + expr_size e + 1 + turns mx c)
      with (S (left_depth (len st) v + expr_size e + turns mx c)) by lia. rewrite pow2_S.
    assert (X : 2 ^ (left_depth (len st) v + expr_size e) <= 2 ^ (left_depth (len st) v + expr_size e + turns mx c))
      by (apply pow2_le; lia). lia.
Qed.

Lemma expr_counted : forall f, counted f.
Proof.
  induction f as [|f IH]; intros v e st I V LI LO; [apply pow2_pos|].
  assert (ONE : forall n k, n < 2 ^ k -> S n < 2 ^ (S k)) by (intros n k H; rewrite pow2_S; lia).
  destruct e as [a|es|es|e1|e1 mn mx|n]; cbn [tally expr_size].
  - apply (pow2_below 1 1); [cbn; lia|lia].
  - fold (sizes es). replace (left_depth (len st) v + (1 + sizes es)) with (S (left_depth (len st) v + sizes es)) by lia.
    apply ONE, and_counted; try assumption. apply loops_and. exact LO.
  - fold (sizes es). replace (left_depth (len st) v + (1 + sizes es)) with (S (left_depth (len st) v + sizes es)) by lia.
    apply ONE, or_counted; try assumption; [|apply loops_or; exact LO]. intros x X. eapply left_or; eassumption.
  - replace (left_depth (len st) v + (1 + expr_size e1)) with (S (left_depth (len st) v + expr_size e1)) by lia.
    apply ONE, IH; try assumption; [apply left_not; exact LI|apply loops_not; exact LO].
  - eapply pow2_below; [apply (rep_counted f IH e1 mx) with (v := v); try assumption|].
    + eapply loops_rep. exact LO.
    + intro U. exact (LO e1 mn mx (oc_here _) U).
    + eapply left_rep. exact LI.
    + destruct mx as [[|m]|]; try exact Logic.I. lia.
    + unfold turns. destruct mx; lia.
  - unfold tally_rule_name.
    set (st1 := if trace_rules st then push_rule st (s_ "r:" ++ n) else st).
    assert (I1 : inv st1) by (subst st1; destruct (trace_rules st); exact I).
    assert (E1 : it_parsing st1 = it_parsing st) by (subst st1; destruct (trace_rules st); reflexivity).
    destruct (rules_get rs n) as [e|] eqn:E; [|apply (pow2_below 1 1); [cbn; lia|lia]].
    destruct (enter rs NLR v n e V LI E) as (V' & LI' & LR).
    pose proof (IH (n :: v) e st1 I1 V' LI' (loops_body n e E)) as H. rewrite E1 in H.
    pose proof (body_size rs n e E) as BS. pose proof (left_enter (len st) v n LR) as LE. fold B in BS.
    replace (left_depth (len st) v + 1) with (S (left_depth (len st) v)) by lia. apply ONE. eapply pow2_below; [exact H|]. lia.
Qed.

(* ------------------------------------------------------------------------------------------- *)
(** * Nesting of calls *)

Notation nest f := (tally Nat.max rs f).

Definition shallow (f : nat) : Prop := forall v e st, inv st -> visited rs v -> left_in rs v e -> loops_ok rs e ->
  nest f st e <= left_depth (len st) v + expr_size e.

Lemma and_shallow : forall f, shallow f -> forall es v st, inv st -> visited rs v -> left_in rs v (And es) ->
  Forall (loops_ok rs) es -> tally_and Nat.max (pe f) (nest f) st es <= left_depth (len st) v + sizes es.
Proof.
  intros f CF es. induction es as [|e es IH]; intros v st I V LI LO; cbn [tally_and sizes fold_right]; [lia|].
  inversion LO as [|? ? LO1 LO2]; subst. fold (sizes es).
  pose proof (CF v e st I V (left_head v e es LI) LO1) as H1. pose proof (size_pos e) as SP.
  apply Nat.max_lub; [lia|]. destruct (pe f st e) as [[s1 t1]|er| |] eqn:E; try lia.
  destruct (step_adv rs f st e s1 t1 I E) as [I1 A1]. apply adv_len in A1.
  destruct (Nat.eq_dec (len s1) (len st)) as [Q|Q].
  - assert (X : tally_and Nat.max (pe f) (nest f) s1 es <= left_depth (len s1) v + sizes es)
      by (apply IH; try assumption; eapply left_next; [exact LI|]; exact (expr_empty rs f st e s1 t1 I E Q)). rewrite Q in X. lia.
  - assert (X : len s1 < len st) by lia. apply (left_consumed (len st) (len s1) v) in X.
    assert (Y : tally_and Nat.max (pe f) (nest f) s1 es <= left_depth (len s1) [] + sizes es)
      by (apply IH; [exact I1|apply visited_nil|apply left_nil|exact LO2]). lia.
Qed.

Lemma or_shallow : forall f, shallow f -> forall es v st, inv st -> visited rs v -> (forall e, In e es -> left_in rs v e) ->
  Forall (loops_ok rs) es -> tally_or Nat.max (pe f) (nest f) st es <= left_depth (len st) v + sizes es.
Proof.
  intros f CF es. induction es as [|e es IH]; intros v st I V LI LO; cbn [tally_or sizes fold_right]; [lia|].
  inversion LO as [|? ? LO1 LO2]; subst. fold (sizes es).
  pose proof (CF v e st I V (LI e (or_introl eq_refl)) LO1) as H1. apply Nat.max_lub; [lia|].
  destruct (pe f st e) as [[s1 t1]|er| |] eqn:E; try lia. destruct (is_critical (e_priority er)); [lia|].
  assert (X : tally_or Nat.max (pe f) (nest f) st es <= left_depth (len st) v + sizes es)
    by (apply IH; try assumption; intros x X; apply LI; right; exact X). lia.
Qed.

Lemma rep_shallow : forall f, shallow f -> forall e mx, loops_ok rs e -> (unlimited mx -> ~ may_be_empty G e) ->
  forall g v st c, inv st -> visited rs v -> left_in rs v e ->
  tally_repeat Nat.max g (pe f) (nest f) st e mx c <= left_depth (len st) v + expr_size e.
Proof.
  intros f CF e mx LO NE g. induction g as [|g IH]; intros v st c I V LI; cbn [tally_repeat]; [lia|].
  pose proof (CF v e st I V LI LO) as H1. apply Nat.max_lub; [lia|].
  destruct (pe f st e) as [[s1 t1]|er| |] eqn:E; try lia. destruct (touch_max_bound mx c) eqn:TM; [lia|].
  destruct (step_adv rs f st e s1 t1 I E) as [I1 A1]. apply adv_len in A1.
  destruct (Nat.eq_dec (len s1) (len st)) as [Q|Q].
  - rewrite <- Q. apply IH; assumption.
  - assert (X : len s1 < len st) by lia. apply (left_consumed (len st) (len s1) v) in X.
    pose proof (IH [] s1 (c + 1) I1 (visited_nil rs) (left_nil e)). lia.
Qed.

Lemma expr_shallow : forall f, shallow f.
Proof.
  induction f as [|f IH]; intros v e st I V LI LO; [cbn [tally]; lia|].
  destruct e as [a|es|es|e1|e1 mn mx|n]; cbn [tally expr_size].
  - lia.
  - fold (sizes es). pose proof (and_shallow f IH es v st I V LI (loops_and es LO)). lia.
  - fold (sizes es). pose proof (or_shallow f IH es v st I V (fun x X => left_or v es x LI X) (loops_or es LO)). lia.
  - pose proof (IH v e1 st I V (left_not v e1 LI) (loops_not e1 LO)). lia.
  - pose proof (rep_shallow f IH e1 mx (loops_rep e1 mn mx LO) (fun U => LO e1 mn mx (oc_here _) U) f v st 0 I V
      (left_rep v e1 mn mx LI)). lia.
  - unfold tally_rule_name.
    set (st1 := if trace_rules st then push_rule st (s_ "r:" ++ n) else st).
    assert (I1 : inv st1) by (subst st1; destruct (trace_rules st); exact I).
    assert (E1 : it_parsing st1 = it_parsing st) by (subst st1; destruct (trace_rules st); reflexivity).
    destruct (rules_get rs n) as [e|] eqn:E; [|lia].
    destruct (enter rs NLR v n e V LI E) as (V' & LI' & LR).
    pose proof (IH (n :: v) e st1 I1 V' LI' (loops_body n e E)) as H. rewrite E1 in H.
    pose proof (body_size rs n e E) as BS. pose proof (left_enter (len st) v n LR) as LE. fold B in BS. lia.
Qed.

Lemma parse_tally_S : forall op fuel s d, S (parse_tally op fuel s rs d) = tally op rs (S fuel) (status_init_debug s d) (RuleName main).
Proof. reflexivity. Qed.

Lemma start_depth : forall s d, left_depth (len (status_init_debug s d)) [] + expr_size (RuleName main) <= depth_factor rs * (length s + 1).
Proof.
  intros s d. cbn [status_init_debug it_parsing expr_size]. unfold left_depth, depth_factor. cbn [length].
  fold B. fold R. nia.
Qed.

Lemma calls_bound : forall fuel s d, parse_calls fuel s rs d < 2 ^ (depth_factor rs * (length s + 1)).
Proof.
  intros fuel s d. unfold parse_calls. eapply Nat.lt_trans; [apply Nat.lt_succ_diag_r|]. rewrite parse_tally_S.
  eapply pow2_below; [apply (expr_counted (S fuel) [])|apply start_depth].
  - apply inv_init.
  - apply visited_nil.
  - apply left_nil.
  - intros x mn mx O. inversion O.
Qed.

Lemma nesting_bound : forall fuel s d, parse_nesting fuel s rs d < depth_factor rs * (length s + 1).
Proof.
  intros fuel s d. unfold parse_nesting. pose proof (start_depth s d) as X. eapply Nat.lt_le_trans; [apply Nat.lt_succ_diag_r|].
  rewrite parse_tally_S. eapply Nat.le_trans; [apply (expr_shallow (S fuel) [])|exact X].
  - apply inv_init.
  - apply visited_nil.
  - apply left_nil.
  - intros x mn mx O. inversion O.
Qed.

End Cost.
