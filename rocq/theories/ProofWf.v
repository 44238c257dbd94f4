(** Termination of well-formed rule sets, with an explicit bound. *)
From Verif Require Import Base ModelAst ModelParser SpecPeg SpecPos SpecApi SpecWf ProofParser ProofEngine ProofApi.

(* ------------------------------------------------------------------------------------------- *)
(** * Success without consumption *)

Lemma adv_len : forall a b, adv a b -> length (it_parsing b) <= length (it_parsing a).
Proof. intros a b (_ & _ & c & E). rewrite E, app_length. lia. Qed.

Lemma literal_loop_len : forall l chs st st', parse_literal_loop l st chs = Ok st' ->
  length (it_parsing st) = length chs + length (it_parsing st').
Proof.
  intros l chs. induction chs as [|c chs IH]; intros st st' H; cbn [parse_literal_loop] in H.
  - injection H as <-. reflexivity.
  - unfold parse_char, get_char in H. destruct (it_parsing st) as [|x r] eqn:E.
    + unfold err_normal, err_status in H. destruct (from_status _ _ _); discriminate.
    + destruct (N.eqb c x).
      * apply IH in H. cbn in H. cbn. lia.
      * unfold err_normal, err_status in H. destruct (from_status _ _ _); discriminate.
Qed.

Lemma body_size_gen : forall (l : rules) n e, rules_get l n = Some e ->
  expr_size e <= fold_right (fun p n => expr_size (snd p) + n) 0 l.
Proof.
  intros l n e. induction l as [|[k x] l IH]; intro H; cbn in H; [discriminate|].
  cbn [fold_right snd]. destruct (str_eqb k n); [injection H as ->; lia|]. apply IH in H. lia.
Qed.

Lemma key_in_gen : forall (l : rules) n e, rules_get l n = Some e -> In n (map fst l).
Proof.
  intros l n e. induction l as [|[k x] l IH]; intro H; cbn in H; [discriminate|]. cbn [map fst].
  destruct (str_eqb k n) eqn:E; [left; apply str_eqb_eq; exact E|right; auto].
Qed.

Section Wf.
Variable rs : rules.
Let G := rules_get rs.

Lemma atom_empty : forall st a st' nd, parse_atom st a = Ok (st', nd) ->
  length (it_parsing st') = length (it_parsing st) -> may_be_empty G (Simple a).
Proof.
  intros st a st' nd H L. destruct a as [l|cs rg|m| |]; cbn [parse_atom] in H.
  - unfold parse_literal in H. destruct (parse_literal_loop l st l) as [s1|er| |] eqn:E; cbn [bind] in H; try discriminate.
    injection H as <- _. apply literal_loop_len in E. destruct l; [constructor|cbn in E; lia].
  - unfold parse_match, get_char in H. destruct (it_parsing st) as [|x r] eqn:E.
    + unfold err_normal, err_status in H. destruct (from_status _ _ _); discriminate.
    + destruct (match_char cs rg x).
      * injection H as <- _. cbn in L. lia.
      * unfold err_normal, err_status in H. destruct (from_status _ _ _); discriminate.
  - unfold parse_error, err_status in H. destruct (from_status _ _ _); discriminate.
  - unfold parse_dot, get_char in H. destruct (it_parsing st) as [|x r] eqn:E.
    + unfold err_normal, err_status in H. destruct (from_status _ _ _); discriminate.
    + injection H as <- _. cbn in L. lia.
  - constructor.
Qed.

Definition pe_empty (f : nat) : Prop := forall st e st' ts, inv st -> parse_expr rs f st e = Ok (st', ts) ->
  length (it_parsing st') = length (it_parsing st) -> may_be_empty G e.

Lemma step_adv : forall f st e st' ts, inv st -> parse_expr rs f st e = Ok (st', ts) -> inv st' /\ adv st st'.
Proof. intros f st e st' ts I H. pose proof (parse_expr_good rs f st e I) as X. rewrite H in X. exact X. Qed.

Lemma and_empty : forall f, pe_empty f -> forall es st acc st' ts, inv st ->
  parse_and (parse_expr rs f) st es acc = Ok (st', ts) ->
  length (it_parsing st') <= length (it_parsing st) /\
  (length (it_parsing st') = length (it_parsing st) -> may_be_empty G (And es)).
Proof.
  intros f PE es. induction es as [|e es IH]; intros st acc st' ts I H; cbn [parse_and] in H.
  - injection H as <- _. split; [lia|]. intros _. constructor.
  - destruct (parse_expr rs f st e) as [[s1 t1]|er| |] eqn:E; try discriminate.
    destruct (step_adv f st e s1 t1 I E) as [I1 A1]. apply adv_len in A1.
    destruct (IH s1 _ st' ts I1 H) as [L1 K]. split; [lia|]. intro L. apply me_and_cons.
    + apply (PE st e s1 t1 I E). lia.
    + apply K. lia.
Qed.

Lemma or_empty : forall f, pe_empty f -> forall es st o st' ts, inv st ->
  parse_or (parse_expr rs f) st es o = Ok (st', ts) ->
  length (it_parsing st') = length (it_parsing st) -> exists e, In e es /\ may_be_empty G e.
Proof.
  intros f PE es. induction es as [|e es IH]; intros st o st' ts I H L; cbn [parse_or] in H.
  - destruct o; [discriminate|]. unfold err_normal, err_status in H. destruct (from_status _ _ _); discriminate.
  - destruct (parse_expr rs f st e) as [[s1 t1]|er| |] eqn:E; try discriminate.
    + injection H as <- <-. exists e. split; [left; reflexivity|]. exact (PE st e s1 t1 I E L).
    + destruct (is_critical (e_priority er)); [discriminate|]. destruct (IH st _ st' ts I H L) as (x & X1 & X2).
      exists x. split; [right; exact X1|exact X2].
Qed.

Lemma rep_empty : forall f, pe_empty f -> forall e mn mx g st c acc st' ts, inv st ->
  parse_repeat g (parse_expr rs f) st e mn mx c acc = Ok (st', ts) ->
  length (it_parsing st') <= length (it_parsing st) /\
  (length (it_parsing st') = length (it_parsing st) -> mn <= c \/ may_be_empty G e).
Proof.
  intros f PE e mn mx g. induction g as [|g IH]; intros st c acc st' ts I H; cbn [parse_repeat] in H; [discriminate|].
  destruct (parse_expr rs f st e) as [[s1 t1]|er| |] eqn:E; try discriminate.
  - destruct (step_adv f st e s1 t1 I E) as [I1 A1]. apply adv_len in A1.
    assert (X : length (it_parsing st') <= length (it_parsing s1)).
    { destruct (touch_max_bound mx c); [injection H as <- _; lia|]. apply IH in H; [lia|exact I1]. }
    split; [lia|]. intro L. right. apply (PE st e s1 t1 I E). lia.
  - unfold big_min_bound in H. destruct (Nat.leb_spec mn c) as [B|B]; [|discriminate].
    destruct (is_critical (e_priority er)); [discriminate|]. injection H as <- _. cbn. split; [lia|]. intros _. left. exact B.
Qed.

Lemma expr_empty : forall f, pe_empty f.
Proof.
  induction f as [|f IH]; intros st e st' ts I H L; [discriminate|].
  destruct e as [a|es|es|e1|e1 mn mx|n]; cbn [parse_expr] in H.
  - destruct (parse_atom st a) as [[s1 nd]|er| |] eqn:E; cbn [bind] in H; try discriminate. injection H as <- _.
    exact (atom_empty st a s1 nd E L).
  - destruct (and_empty f IH es st [] st' ts I H) as [_ K]. exact (K L).
  - destruct (or_empty f IH es st None st' ts I H L) as (x & X1 & X2). exact (me_or G x es X1 X2).
  - apply me_not.
  - destruct (rep_empty f IH e1 mn mx f st 0 [] st' ts I H) as [_ K]. destruct (K L) as [Z|Z].
    + assert (mn = 0) by lia. subst. apply me_rep_zero.
    + apply me_rep. exact Z.
  - unfold parse_rule_name in H.
    set (st1 := if trace_rules st then push_rule st (s_ "r:" ++ n) else st) in *.
    assert (I1 : inv st1) by (subst st1; destruct (trace_rules st); exact I).
    assert (E1 : it_parsing st1 = it_parsing st) by (subst st1; destruct (trace_rules st); reflexivity).
    destruct (rules_get rs n) as [e|] eqn:E.
    + destruct (parse_expr rs f st1 e) as [[s1 t1]|er| |] eqn:P; cbn [bind] in H; try discriminate. injection H as <- _.
      rewrite <- E1 in L. exact (me_rule G n e E (IH st1 e s1 t1 I1 P L)).
    + unfold err_status in H. destruct (from_status _ _ _); discriminate.
Qed.

(* ------------------------------------------------------------------------------------------- *)
(** * The bound *)

Hypothesis NLR : no_left_recursion G.
Hypothesis NEL : no_empty_loops G.

Let R := length rs.
Let B := fold_right (fun p n => expr_size (snd p) + n) 0 rs.

(** Rules entered since something was consumed, innermost first. *)
Definition visited (v : list str) : Prop :=
  NoDup v /\ incl v (map fst rs) /\
  match v with [] => True | n :: _ => forall x, In x v -> x = n \/ clos_trans str (rule_calls G) x n end.

Definition left_in (v : list str) (e : expr) : Prop :=
  match v with [] => True | n :: _ => forall m, G m <> None -> calls_first G e m -> rule_calls G n m end.

(** No empty loop inside [e]. *)
Definition loops_ok (e : expr) : Prop :=
  forall x mn mx, occurs (Repeat x mn mx) e -> unlimited mx -> ~ may_be_empty G x.

Definition need (L : nat) (v : list str) (size : nat) : nat := (L * (R + 1) + (R - length v)) * (B + 1) + size.

Lemma visited_len : forall v, visited v -> length v <= R.
Proof.
  intros v (ND & IN & _). pose proof (NoDup_incl_length ND IN) as H. rewrite map_length in H. exact H.
Qed.

Lemma need_consumed : forall L L' v s, L' < L -> need L' [] s <= need L v s.
Proof.
  intros L L' v s H. unfold need. cbn [length]. apply Nat.add_le_mono_r, Nat.mul_le_mono_r.
  assert (L' * (R + 1) + (R + 1) <= L * (R + 1)) by nia. lia.
Qed.

Lemma body_size : forall n e, G n = Some e -> expr_size e <= B.
Proof. intros n e H. exact (body_size_gen rs n e H). Qed.

Lemma key_in : forall n e, G n = Some e -> In n (map fst rs).
Proof. intros n e H. exact (key_in_gen rs n e H). Qed.

Lemma enter : forall v n e, visited v -> left_in v (RuleName n) -> G n = Some e ->
  visited (n :: v) /\ left_in (n :: v) e /\ length v < R.
Proof.
  intros v n e V LI E. assert (N : ~ In n v).
  { intro X. destruct v as [|k v]; [destruct X|]. destruct V as (_ & _ & C).
    assert (D : rule_calls G k n) by (apply LI; [unfold G in *; congruence|constructor]).
    destruct (C n X) as [->|T]; [exact (NLR k (t_step _ _ _ _ D))|].
    apply (NLR n). eapply t_trans; [exact T|apply t_step; exact D]. }
  assert (V' : visited (n :: v)).
  { destruct V as (ND & IN & C). split; [constructor; assumption|]. split.
    - intros x [<-|X]; [exact (key_in n e E)|exact (IN x X)].
    - intros x [<-|X]; [left; reflexivity|right]. destruct v as [|k v]; [destruct X|].
      assert (D : rule_calls G k n) by (apply LI; [unfold G in *; congruence|constructor]).
      destruct (C x X) as [->|T]; [apply t_step; exact D|eapply t_trans; [exact T|apply t_step; exact D]]. }
  split; [exact V'|]. split.
  - intros m Hm C. split; [exact Hm|]. exists e. split; assumption.
  - pose proof (visited_len _ V') as X. cbn in X. exact X.
Qed.

Definition terminates (T f : nat) : Prop := forall v e st, inv st -> visited v -> left_in v e -> loops_ok e ->
  length (it_parsing st) <= T -> T + need (length (it_parsing st)) v (expr_size e) <= f -> parse_expr rs f st e <> Fuel.

Lemma visited_nil : visited [].
Proof. split; [constructor|]. split; [intros x []|exact I]. Qed.

Lemma and_terminates : forall T f, terminates T f -> forall es v st acc, inv st -> visited v -> left_in v (And es) ->
  Forall loops_ok es -> length (it_parsing st) <= T ->
  T + need (length (it_parsing st)) v (fold_right (fun x n => expr_size x + n) 0 es) <= f ->
  parse_and (parse_expr rs f) st es acc <> Fuel.
Proof.
  intros T f TF es. induction es as [|e es IH]; intros v st acc I V LI LO LT LF; cbn [parse_and]; [discriminate|].
  inversion LO as [|? ? LO1 LO2]; subst. cbn [fold_right] in LF.
  assert (NF : parse_expr rs f st e <> Fuel).
  { apply (TF v e st I V); try assumption.
    - destruct v as [|n v]; [exact Logic.I|]. intros m Hm C. apply LI; [exact Hm|apply cf_and_here; exact C].
    - unfold need in *. lia. }
  destruct (parse_expr rs f st e) as [[s1 t1]|er| |] eqn:E; try discriminate; [|congruence].
  destruct (step_adv f st e s1 t1 I E) as [I1 A1]. apply adv_len in A1.
  destruct (Nat.eq_dec (length (it_parsing s1)) (length (it_parsing st))) as [Q|Q].
  - apply (IH v s1); try assumption.
    + destruct v as [|n v]; [exact Logic.I|]. intros m Hm C. apply LI; [exact Hm|]. apply cf_and_next; [|exact C].
      exact (expr_empty f st e s1 t1 I E Q).
    + lia.
    + rewrite Q. unfold need in *. lia.
  - apply (IH [] s1); try assumption.
    + exact visited_nil.
    + exact Logic.I.
    + lia.
    + pose proof (need_consumed (length (it_parsing st)) (length (it_parsing s1)) v (fold_right (fun x n => expr_size x + n) 0 es)) as X.
      unfold need in *. lia.
Qed.

Lemma or_terminates : forall T f, terminates T f -> forall es v st o, inv st -> visited v ->
  (forall e, In e es -> left_in v e /\ loops_ok e) -> length (it_parsing st) <= T ->
  T + need (length (it_parsing st)) v (fold_right (fun x n => expr_size x + n) 0 es) <= f ->
  parse_or (parse_expr rs f) st es o <> Fuel.
Proof.
  intros T f TF es. induction es as [|e es IH]; intros v st o I V LI LT LF; cbn [parse_or].
  - destruct o; [discriminate|]. apply err_status_nofuel.
  - cbn [fold_right] in LF. assert (NF : parse_expr rs f st e <> Fuel).
    { destruct (LI e (or_introl eq_refl)). apply (TF v e st I V); try assumption. unfold need in *. lia. }
    destruct (parse_expr rs f st e) as [[s1 t1]|er| |] eqn:E; try discriminate; [|congruence].
    destruct (is_critical (e_priority er)); [discriminate|]. apply (IH v); try assumption.
    + intros x X. apply LI. right. exact X.
    + unfold need in *. lia.
Qed.

Lemma rep_terminates : forall T f, terminates T f -> forall e mn mx, loops_ok e -> (unlimited mx -> ~ may_be_empty G e) ->
  forall g v st c acc, inv st -> visited v -> left_in v e -> length (it_parsing st) <= T ->
  T + need (length (it_parsing st)) v (expr_size e) <= f ->
  (unlimited mx -> length (it_parsing st) < g) ->
  match mx with Some (S m) => S m <= c + g /\ c < S m | _ => True end ->
  parse_repeat g (parse_expr rs f) st e mn mx c acc <> Fuel.
Proof.
  intros T f TF e mn mx LO NE g. induction g as [|g IH]; intros v st c acc I V LI LT LF GU GB.
  - destruct mx as [[|m]|]; [assert (X := GU (or_intror eq_refl)); lia|lia|assert (X := GU (or_introl eq_refl)); lia].
  - cbn [parse_repeat]. assert (NF : parse_expr rs f st e <> Fuel) by (apply (TF v e st); assumption).
    destruct (parse_expr rs f st e) as [[s1 t1]|er| |] eqn:E; try discriminate; [| |congruence].
    + destruct (touch_max_bound mx c) eqn:TM; [discriminate|].
      destruct (step_adv f st e s1 t1 I E) as [I1 A1]. apply adv_len in A1.
      assert (GB' : match mx with Some (S m) => S m <= (c + 1) + g /\ c + 1 < S m | _ => True end).
      { destruct mx as [[|m]|]; try exact Logic.I. cbn in TM. apply Nat.eqb_neq in TM. lia. }
      destruct (Nat.eq_dec (length (it_parsing s1)) (length (it_parsing st))) as [Q|Q].
      * pose proof (expr_empty f st e s1 t1 I E Q) as ME. apply (IH v s1); try assumption; try lia.
        -- rewrite Q. exact LF.
        -- intro U. destruct (NE U ME).
      * apply (IH [] s1); try assumption; try lia.
        -- exact visited_nil.
        -- exact Logic.I.
        -- pose proof (need_consumed (length (it_parsing st)) (length (it_parsing s1)) v (expr_size e)) as X. unfold need in *. lia.
        -- intro U. specialize (GU U). lia.
    + destruct (big_min_bound mn c); [destruct (is_critical (e_priority er))|]; discriminate.
Qed.

Lemma expr_terminates : forall T f, terminates T f.
Proof.
  intros T f. induction f as [|f IH]; intros v e st I V LI LO LT LF.
  - exfalso. destruct e; cbn [expr_size] in LF; unfold need in LF; lia.
  - assert (IHs : forall v' L s, T + need L v' s <= f -> T + need L v' s <= f) by auto. clear IHs.
    destruct e as [a|es|es|e1|e1 mn mx|n]; cbn [parse_expr].
    + destruct a as [l|cs rg|m| |]; cbn [parse_atom].
      * unfold parse_literal. assert (X : forall chs s, parse_literal_loop l s chs <> Fuel).
        { induction chs as [|c chs IHc]; intro s; cbn [parse_literal_loop]; [discriminate|].
          destruct (parse_char s c); [apply IHc|apply err_status_nofuel]. }
        specialize (X l st). destruct (parse_literal_loop l st l); cbn [bind]; try discriminate; congruence.
      * unfold parse_match. destruct (get_char st) as [[s1 c]|s1].
        -- destruct (match_char cs rg c); cbn [bind]; [discriminate|]. unfold err_normal, err_status. destruct (from_status _ _ _); discriminate.
        -- unfold err_normal, err_status. destruct (from_status _ _ _); discriminate.
      * unfold parse_error, err_status. destruct (from_status _ _ _); discriminate.
      * unfold parse_dot. destruct (get_char st) as [[s1 c]|s1]; [discriminate|].
        unfold err_normal, err_status. destruct (from_status _ _ _); discriminate.
      * unfold parse_eof. destruct (get_char st) as [[s1 c]|s1]; [|discriminate].
        unfold err_normal, err_status. destruct (from_status _ _ _); discriminate.
    + apply (and_terminates T f IH es v); try assumption.
      * apply Forall_forall. intros x X y mn mx O. refine (LO y mn mx _). eapply oc_and; eassumption.
      * unfold need in *. cbn [expr_size] in LF. lia.
    + apply (or_terminates T f IH es v); try assumption.
      * intros x X. split.
        -- destruct v as [|k v]; [exact Logic.I|]. intros m Hm C. apply LI; [exact Hm|]. eapply cf_or; eassumption.
        -- intros y mn mx O. refine (LO y mn mx _). eapply oc_or; eassumption.
      * unfold need in *. cbn [expr_size] in LF. lia.
    + unfold parse_not. assert (NF : parse_expr rs f st e1 <> Fuel).
      { apply (IH v); try assumption.
        - destruct v as [|k v]; [exact Logic.I|]. intros m Hm C. apply LI; [exact Hm|]. apply cf_not. exact C.
        - intros y mn mx O. refine (LO y mn mx _). apply oc_not. exact O.
        - unfold need in *. cbn [expr_size] in LF. lia. }
      destruct (parse_expr rs f st e1); try discriminate; [apply err_status_nofuel|congruence].
    + apply (rep_terminates T f IH e1 mn mx) with (v := v); try assumption.
      * intros y mn' mx' O. refine (LO y mn' mx' _). apply oc_rep. exact O.
      * intro U. exact (LO e1 mn mx (oc_here _) U).
      * destruct v as [|k v]; [exact Logic.I|]. intros m Hm C. apply LI; [exact Hm|]. apply cf_rep. exact C.
      * unfold need in *. cbn [expr_size] in LF. lia.
      * intros _. unfold need in *. cbn [expr_size] in LF. destruct e1; cbn [expr_size] in LF; lia.
      * destruct mx as [[|m]|]; try exact Logic.I. unfold need in *. cbn [expr_size] in LF. lia.
    + unfold parse_rule_name.
      set (st1 := if trace_rules st then push_rule st (s_ "r:" ++ n) else st).
      assert (I1 : inv st1) by (subst st1; destruct (trace_rules st); exact I).
      assert (E1 : it_parsing st1 = it_parsing st) by (subst st1; destruct (trace_rules st); reflexivity).
      destruct (rules_get rs n) as [e|] eqn:E.
      * destruct (enter v n e V LI E) as (V' & LI' & LR).
        assert (NF : parse_expr rs f st1 e <> Fuel).
        { apply (IH (n :: v)); try assumption.
          - intros y mn mx O. exact (NEL n e y mn mx E O).
          - rewrite E1. exact LT.
          - rewrite E1. pose proof (body_size n e E) as BS. cbn [expr_size] in LF. unfold need in *. cbn [length].
            assert (X : (length (it_parsing st) * (R + 1) + (R - S (length v))) * (B + 1) + (B + 1) =
                        (length (it_parsing st) * (R + 1) + (R - length v)) * (B + 1)).
            { replace (R - length v) with (R - S (length v) + 1) by lia. lia. }
            lia. }
        destruct (parse_expr rs f st1 e) as [[s1 t1]|er| |]; cbn [bind]; try discriminate. congruence.
      * unfold err_status. destruct (from_status _ _ _); discriminate.
Qed.

End Wf.

Lemma parse_bound : forall rs s d fuel, well_formed (rules_get rs) ->
  depth_factor rs * (length s + 1) <= fuel -> parse_with_debug fuel s rs d <> Fuel.
Proof.
  intros rs s d fuel [NLR NEL] H F. rewrite parse_unfold in F.
  assert (X : parse_expr rs (S fuel) (status_init_debug s d) (RuleName main) <> Fuel).
  { apply (expr_terminates rs NLR NEL (length s) (S fuel) []).
    - apply inv_init.
    - apply visited_nil.
    - exact I.
    - intros x mn mx O. inversion O.
    - cbn. lia.
    - cbn [status_init_debug it_parsing expr_size length]. unfold need, depth_factor in *. cbn [length].
      set (R := length rs) in *. set (B := fold_right (fun p n => expr_size (snd p) + n) 0 rs) in *. nia. }
  rewrite expression_parse_expr in X.
  destruct (expression_parse rs fuel (status_init_debug s d)) as [[st nd]|er| |]; cbn [bind] in *; try discriminate; [|congruence].
  destruct (pn (st_pos st) =? byte_len s); [discriminate|]. destruct (potential_error st); [discriminate|].
  exact (err_status_nofuel _ _ _ _ F).
Qed.
