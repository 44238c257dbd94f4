(** Proofs: rules without recursion. *)
From Verif Require Import Base ModelAst ModelParser ModelCost SpecPeg SpecPos SpecApi SpecWf SpecBnf SpecTools SpecLoops.
From Verif Require Import ProofAst ProofParser ProofEngine ProofApi ProofWf WfCheck ProofRun ProofRunDet ProofBnf ProofTill.

Section Bound.
Variable rs : rules.
Let G := grammar_of rs.
Hypothesis NEL : no_empty_loops G.

Definition len (st : status) : nat := length (it_parsing st).
Definition ok (e : expr) : Prop := forall x mn mx, occurs (Repeat x mn mx) e -> unlimited mx -> ~ may_be_empty G x.

Lemma step_len : forall f st e st' ts, inv st -> parse_expr rs f st e = Ok (st', ts) -> inv st' /\ len st' <= len st.
Proof. intros f st e st' ts I H. destruct (step_adv rs f st e st' ts I H) as [I' A]. split; [exact I'|exact (adv_len _ _ A)]. Qed.

Lemma step_less : forall f st e st' ts, inv st -> ~ may_be_empty G e -> parse_expr rs f st e = Ok (st', ts) -> inv st' /\ len st' < len st.
Proof.
  intros f st e st' ts I N H. destruct (step_len f st e st' ts I H) as [I' A]. split; [exact I'|].
  destruct (Nat.eq_dec (len st') (len st)) as [E|E]; [|lia]. destruct (N (expr_empty rs f st e st' ts I H E)).
Qed.

Definition pw (d n : nat) : nat := (n + 1) ^ d.
Lemma pw_mono : forall d n m, n <= m -> pw d n <= pw d m.
Proof. intros d n m L. apply Nat.pow_le_mono_l. lia. Qed.
Lemma pw_pos : forall d n, 1 <= pw d n.
Proof. intros d n. unfold pw. pose proof (Nat.pow_nonzero (n + 1) d). lia. Qed.
Lemma pw_S : forall d n, pw (S d) n = (n + 1) * pw d n.
Proof. reflexivity. Qed.

Notation calls := (tally Nat.add rs).

(** [k] bounds the calls [e] makes on [n] chars by [k * (n + 1) ^ d]. *)
Definition within (d : nat) (e : expr) (k : nat) : Prop := forall fuel st, inv st -> calls fuel st e <= k * pw d (len st).

Lemma and_within : forall d es, (forall e, In e es -> exists k, within d e k) -> exists k, forall fuel st, inv st ->
  tally_and Nat.add (parse_expr rs fuel) (calls fuel) st es <= k * pw d (len st).
Proof.
  intros d. induction es as [|e r IH]; intro H; [exists 0; intros; apply Nat.le_0_l|].
  destruct (H e (or_introl eq_refl)) as [k K]. destruct (IH (fun x I => H x (or_intror I))) as [j J]. exists (k + j). intros fuel st I.
  cbn [tally_and]. specialize (K fuel st I). destruct (parse_expr rs fuel st e) as [[st' ts]|er| |] eqn:E; try nia.
  destruct (step_len fuel st e st' ts I E) as [I' L]. specialize (J fuel st' I'). pose proof (pw_mono d _ _ L). nia.
Qed.

Lemma or_within : forall d es, (forall e, In e es -> exists k, within d e k) -> exists k, forall fuel st, inv st ->
  tally_or Nat.add (parse_expr rs fuel) (calls fuel) st es <= k * pw d (len st).
Proof.
  intros d. induction es as [|e r IH]; intro H; [exists 0; intros; apply Nat.le_0_l|].
  destruct (H e (or_introl eq_refl)) as [k K]. destruct (IH (fun x I => H x (or_intror I))) as [j J]. exists (k + j). intros fuel st I.
  cbn [tally_or]. specialize (K fuel st I). specialize (J fuel st I). destruct (parse_expr rs fuel st e) as [[st' ts]|er| |]; try nia.
  destruct (is_critical (e_priority er)); nia.
Qed.

Lemma bounded_within : forall d e k m, within d e k -> forall g fuel st c, inv st -> c < m ->
  tally_repeat Nat.add g (parse_expr rs fuel) (calls fuel) st e (Some m) c <= (m - c) * k * pw d (len st).
Proof.
  intros d e k m K. induction g as [|g IH]; intros fuel st c I L; [apply Nat.le_0_l|]. cbn [tally_repeat]. specialize (K fuel st I).
  assert (X : (m - c) * k * pw d (len st) = k * pw d (len st) + (m - (c + 1)) * k * pw d (len st)) by (replace (m - c) with (S (m - (c + 1))) by lia; lia).
  rewrite X. clear X. destruct (parse_expr rs fuel st e) as [[st' ts]|er| |] eqn:E; [|set (Y := (m - (c + 1)) * _ * _); lia..].
  unfold touch_max_bound. destruct (Nat.eqb_spec (c + 1) m) as [Z|Z]; [lia|].
  destruct (step_len fuel st e st' ts I E) as [I' Le]. specialize (IH fuel st' (c + 1) I' ltac:(lia)). pose proof (pw_mono d _ _ Le).
  assert ((m - (c + 1)) * k * pw d (len st') <= (m - (c + 1)) * k * pw d (len st)) by (apply Nat.mul_le_mono_l; assumption). lia.
Qed.

Lemma loop_within : forall d e k mx, unlimited mx -> ~ may_be_empty G e -> within d e k -> forall g fuel st c, inv st ->
  tally_repeat Nat.add g (parse_expr rs fuel) (calls fuel) st e mx c <= (len st + 1) * (k * pw d (len st)).
Proof.
  intros d e k mx U N K. induction g as [|g IH]; intros fuel st c I; [apply Nat.le_0_l|]. cbn [tally_repeat]. specialize (K fuel st I).
  assert (X : (len st + 1) * (k * pw d (len st)) = k * pw d (len st) + len st * (k * pw d (len st))) by lia. rewrite X.
  destruct (parse_expr rs fuel st e) as [[st' ts]|er| |] eqn:E; try lia.
  assert (T : touch_max_bound mx c = false) by (destruct U as [-> | ->]; [reflexivity|]; cbn; apply Nat.eqb_neq; lia). rewrite T.
  destruct (step_less fuel st e st' ts I N E) as [I' L]. specialize (IH fuel st' (c + 1) I'). pose proof (pw_mono d (len st') (len st) ltac:(lia)).
  assert ((len st' + 1) * (k * pw d (len st')) <= len st * (k * pw d (len st))).
  { apply Nat.mul_le_mono; [lia|]. apply Nat.mul_le_mono_l. assumption. }
  lia.
Qed.

Lemma expr_within : forall d e, loops_within G d e -> ok e -> exists k, within d e k.
Proof.
  assert (W : forall d e j, (forall fuel st, inv st -> calls (S fuel) st e <= 1 + j * pw d (len st)) -> exists k, within d e k).
  { intros d e j H. exists (1 + j). intros [|fuel] st I; [apply Nat.le_0_l|]. specialize (H fuel st I). pose proof (pw_pos d (len st)). nia. }
  intros d e L. induction L as [d a|d es H IH|d es H IH|d e H IH|d e mn mx U H IH|d e mn mx U H IH|d n e E H IH|d n E]; intro O.
  - apply (W d _ 0). intros; cbn; lia.
  - destruct (and_within d es) as [j J]; [intros e I; apply (IH e I); intros x mn mx Oc; refine (O x mn mx _); eapply oc_and; eassumption|].
    apply (W d _ j). intros fuel st I. cbn [tally]. specialize (J fuel st I). lia.
  - destruct (or_within d es) as [j J]; [intros e I; apply (IH e I); intros x mn mx Oc; refine (O x mn mx _); eapply oc_or; eassumption|].
    apply (W d _ j). intros fuel st I. cbn [tally]. specialize (J fuel st I). lia.
  - destruct IH as [j J]; [intros x mn mx Oc; refine (O x mn mx _); constructor; exact Oc|]. apply (W d _ j). intros fuel st I. cbn [tally]. specialize (J fuel st I). lia.
  - destruct IH as [j J]; [intros x mn' mx' Oc; refine (O x mn' mx' _); constructor; exact Oc|]. destruct mx as [[|m]|]; [destruct U; right; reflexivity| |destruct U; left; reflexivity].
    apply (W d _ (S m * j)). intros fuel st I. cbn [tally]. pose proof (bounded_within d e j (S m) J fuel fuel st 0 I ltac:(lia)). lia.
  - destruct IH as [j J]; [intros x mn' mx' Oc; refine (O x mn' mx' _); constructor; exact Oc|].
    apply (W (S d) _ j). intros fuel st I. cbn [tally]. pose proof (loop_within d e j mx U (O e mn mx (oc_here _) U) J fuel fuel st 0 I). rewrite pw_S. nia.
  - destruct IH as [j J]; [intros x mn mx Oc; exact (NEL n e x mn mx E Oc)|]. apply (W d _ j). intros fuel st I. cbn [tally]. unfold tally_rule_name.
    unfold G, grammar_of in E. rewrite E. set (st1 := if trace_rules st then _ else st).
    assert (I1 : inv st1) by (subst st1; destruct (trace_rules st); exact I). assert (E1 : len st1 = len st) by (subst st1; destruct (trace_rules st); reflexivity).
    specialize (J fuel st1 I1). rewrite E1 in J. lia.
  - apply (W d _ 0). intros fuel st I. cbn [tally]. unfold tally_rule_name. unfold G, grammar_of in E. rewrite E. lia.
Qed.

Lemma parse_within : forall d, loops_within G d (RuleName main) -> exists c, forall fuel s debug, parse_calls fuel s rs debug <= c * (length s + 1) ^ d.
Proof.
  intros d L. destruct (expr_within d _ L) as [k K]; [intros x mn mx O; inversion O|]. exists k. intros fuel s debug.
  specialize (K (S fuel) (status_init_debug s debug) (inv_init s debug)). cbn [tally] in K. unfold parse_calls, parse_tally. change (s_ "main") with main. unfold pw, len in K. cbn [it_parsing status_init_debug] in K. lia.
Qed.

End Bound.

(** * Nesting and height *)

Section Nesting.
Variable rs : rules.
Let G := grammar_of rs.
Notation depth := (tally Nat.max rs).

Definition nests (e : expr) (k : nat) : Prop := forall fuel st, depth fuel st e <= k.

Lemma list_nests : forall es, (forall e, In e es -> exists k, nests e k) -> exists k, forall e, In e es -> nests e k.
Proof.
  induction es as [|e r IH]; intro H; [exists 0; intros e []|].
  destruct (H e (or_introl eq_refl)) as [k K]. destruct (IH (fun x I => H x (or_intror I))) as [j J]. exists (Nat.max k j).
  intros x [<-|I] fuel st; [specialize (K fuel st); lia|specialize (J x I fuel st); lia].
Qed.

Lemma and_nests : forall k fuel es st, (forall e, In e es -> nests e k) -> tally_and Nat.max (parse_expr rs fuel) (depth fuel) st es <= k.
Proof.
  intros k fuel es. induction es as [|e r IH]; intros st H; [apply Nat.le_0_l|]. cbn [tally_and]. pose proof (H e (or_introl eq_refl) fuel st) as K.
  destruct (parse_expr rs fuel st e) as [[st' ts]|er| |]; try lia. specialize (IH st' (fun x I => H x (or_intror I))). lia.
Qed.

Lemma or_nests : forall k fuel es st, (forall e, In e es -> nests e k) -> tally_or Nat.max (parse_expr rs fuel) (depth fuel) st es <= k.
Proof.
  intros k fuel es. induction es as [|e r IH]; intros st H; [apply Nat.le_0_l|]. cbn [tally_or]. pose proof (H e (or_introl eq_refl) fuel st) as K.
  specialize (IH st (fun x I => H x (or_intror I))). destruct (parse_expr rs fuel st e) as [[st' ts]|er| |]; try lia. destruct (is_critical (e_priority er)); lia.
Qed.

Lemma rep_nests : forall k fuel e mx, nests e k -> forall g st c, tally_repeat Nat.max g (parse_expr rs fuel) (depth fuel) st e mx c <= k.
Proof.
  intros k fuel e mx K. induction g as [|g IH]; intros st c; [apply Nat.le_0_l|]. cbn [tally_repeat]. specialize (K fuel st).
  destruct (parse_expr rs fuel st e) as [[st' ts]|er| |]; try lia. destruct (touch_max_bound mx c); [lia|]. specialize (IH st' (c + 1)). lia.
Qed.

Lemma expr_nests : forall d e, loops_within G d e -> exists k, nests e k.
Proof.
  assert (W : forall e j, (forall fuel st, depth (S fuel) st e <= S j) -> exists k, nests e k).
  { intros e j H. exists (S j). intros [|fuel] st; [apply Nat.le_0_l|apply H]. }
  intros d e L. induction L as [d a|d es H IH|d es H IH|d e H IH|d e mn mx U H IH|d e mn mx U H IH|d n e E H IH|d n E].
  - apply (W _ 0). intros; cbn; lia.
  - destruct (list_nests es IH) as [k K]. apply (W _ k). intros fuel st. cbn [tally]. apply le_n_S, and_nests, K.
  - destruct (list_nests es IH) as [k K]. apply (W _ k). intros fuel st. cbn [tally]. apply le_n_S, or_nests, K.
  - destruct IH as [k K]. apply (W _ k). intros fuel st. cbn [tally]. apply le_n_S, K.
  - destruct IH as [k K]. apply (W _ k). intros fuel st. cbn [tally]. apply le_n_S, rep_nests, K.
  - destruct IH as [k K]. apply (W _ k). intros fuel st. cbn [tally]. apply le_n_S, rep_nests, K.
  - destruct IH as [k K]. apply (W _ k). intros fuel st. cbn [tally]. unfold tally_rule_name. unfold G, grammar_of in E. rewrite E. apply le_n_S, K.
  - apply (W _ 0). intros fuel st. cbn [tally]. unfold tally_rule_name. unfold G, grammar_of in E. rewrite E. lia.
Qed.

Lemma parse_nests : forall d, loops_within G d (RuleName main) -> exists c, forall fuel s debug, parse_nesting fuel s rs debug <= c.
Proof.
  intros d L. destruct (expr_nests d _ L) as [k K]. exists k. intros fuel s debug. specialize (K (S fuel) (status_init_debug s debug)). cbn [tally] in K.
  unfold parse_nesting, parse_tally. change (s_ "main") with main. lia.
Qed.

Definition low (e : expr) (k : nat) : Prop := forall w ts, derives G e w ts -> Forall (fun t => height t <= k) ts.

Lemma low_more : forall e k j, k <= j -> low e k -> low e j.
Proof. intros e k j L H w ts D. eapply Forall_impl; [|exact (H w ts D)]. cbn. intros t T. lia. Qed.

Lemma list_low : forall es, (forall e, In e es -> exists k, low e k) -> exists k, forall e, In e es -> low e k.
Proof.
  induction es as [|e r IH]; intro H; [exists 0; intros e []|].
  destruct (H e (or_introl eq_refl)) as [k K]. destruct (IH (fun x I => H x (or_intror I))) as [j J]. exists (Nat.max k j).
  intros x [<-|I]; [apply (low_more e k); [lia|exact K]|apply (low_more x j); [lia|exact (J x I)]].
Qed.

Lemma and_low : forall k es, (forall e, In e es -> low e k) -> low (And es) k.
Proof.
  intros k. induction es as [|e r IH]; intros H w ts D; inversion D; subst; [constructor|]. apply Forall_app. split.
  - eapply (H e (or_introl eq_refl)). eassumption.
  - eapply (IH (fun x I => H x (or_intror I))). eassumption.
Qed.

Lemma rep_low : forall k e, low e k -> forall mn mx, low (Repeat e mn mx) k.
Proof.
  intros k e K mn mx w ts D. remember (Repeat e mn mx) as x eqn:X. revert mn mx X. induction D; intros mn0 mx0 X; try discriminate; injection X as X1 X2 X3; subst.
  - constructor.
  - apply Forall_app. split; [eapply K; eassumption|]. eapply IHD2. reflexivity.
Qed.

Lemma heights_low : forall k ts, Forall (fun t => height t <= k) ts -> fold_right (fun x h => Nat.max (height x) h) 0 ts <= k.
Proof. intros k ts H. induction H as [|t ts T _ IH]; cbn [fold_right]; lia. Qed.

Lemma expr_low : forall d e, loops_within G d e -> exists k, low e k.
Proof.
  intros d e L. induction L as [d a|d es H IH|d es H IH|d e H IH|d e mn mx U H IH|d e mn mx U H IH|d n e E H IH|d n E].
  - exists 1. intros w ts D. inversion D; subst; repeat constructor.
  - destruct (list_low es IH) as [k K]. exists k. apply and_low, K.
  - destruct (list_low es IH) as [k K]. exists k. intros w ts D. inversion D; subst. eapply K; eassumption.
  - exists 0. intros w ts D. inversion D; subst. constructor.
  - destruct IH as [k K]. exists k. apply rep_low, K.
  - destruct IH as [k K]. exists k. apply rep_low, K.
  - destruct IH as [k K]. exists (S k). intros w ts D. inversion D as [| | | | | | | | | |m e' w' ts' E' D']; subst. rewrite E in E'. injection E' as <-.
    constructor; [|constructor]. cbn [height]. apply le_n_S, heights_low. exact (K _ _ D').
  - exists 0. intros w ts D. inversion D as [| | | | | | | | | |m e' w' ts' E' D']; subst. rewrite E in E'. discriminate.
Qed.

Lemma parse_low : forall d, sane_rules rs -> loops_within G d (RuleName main) -> exists c, forall fuel s debug ast, parse_with_debug fuel s rs debug = Ok ast -> height ast <= c.
Proof.
  intros d SR L. destruct (expr_low d _ L) as [k K]. exists k. intros fuel s debug ast P.
  specialize (K _ _ (accepted_derives rs fuel s debug ast SR P)). exact (Forall_inv K).
Qed.

End Nesting.

(** * Rules without recursion are finite *)

Section Finite.
Variable rs : rules.
Let G := grammar_of rs.
Hypothesis NR : no_recursion G.

Lemma more_loops : forall d e, loops_within G d e -> forall d', d <= d' -> loops_within G d' e.
Proof.
  intros d e L. induction L as [d a|d es H IH|d es H IH|d e H IH|d e mn mx U H IH|d e mn mx U H IH|d n e E H IH|d n E]; intros d' D.
  - constructor.
  - constructor. intros e I. exact (IH e I d' D).
  - constructor. intros e I. exact (IH e I d' D).
  - constructor. exact (IH d' D).
  - apply lw_bounded; [exact U|exact (IH d' D)].
  - destruct d' as [|d']; [lia|]. apply lw_loop; [exact U|apply IH; lia].
  - eapply lw_rule; [exact E|exact (IH d' D)].
  - apply lw_missing. exact E.
Qed.

Lemma list_loops : forall es, (forall e, In e es -> exists d, loops_within G d e) -> exists d, forall e, In e es -> loops_within G d e.
Proof.
  induction es as [|e r IH]; intro H; [exists 0; intros e []|].
  destruct (H e (or_introl eq_refl)) as [k K]. destruct (IH (fun x I => H x (or_intror I))) as [j J]. exists (Nat.max k j).
  intros x [<-|I]; [apply (more_loops k); [exact K|lia]|apply (more_loops j); [exact (J x I)|lia]].
Qed.

Lemma expr_loops : forall e, (forall n, occurs (RuleName n) e -> exists d, loops_within G d (RuleName n)) -> exists d, loops_within G d e.
Proof.
  induction e as [a|es IH|es IH|x IH|x mn mx IH|n] using expr_ind'; intro H.
  - exists 0. constructor.
  - rewrite Forall_forall in IH. destruct (list_loops es) as [d D]; [|exists d; constructor; exact D].
    intros e I. apply (IH e I). intros n O. apply H. eapply oc_and; eassumption.
  - rewrite Forall_forall in IH. destruct (list_loops es) as [d D]; [|exists d; constructor; exact D].
    intros e I. apply (IH e I). intros n O. apply H. eapply oc_or; eassumption.
  - destruct IH as [d D]; [intros n O; apply H; constructor; exact O|]. exists d. constructor. exact D.
  - destruct IH as [d D]; [intros n O; apply H; constructor; exact O|]. exists (S d). destruct mx as [[|m]|].
    + apply lw_loop; [right; reflexivity|exact D].
    + apply lw_bounded; [intros [U|U]; discriminate|]. apply (more_loops d); [exact D|lia].
    + apply lw_loop; [left; reflexivity|exact D].
  - apply H. constructor.
Qed.

Lemma rule_loops : forall k v n, NoDup v -> incl v (map fst rs) -> (forall x, In x v -> clos_trans str (refers G) x n) -> length rs - length v <= k ->
  exists d, loops_within G d (RuleName n).
Proof.
  induction k as [|k IH]; intros v n ND IN C L; (destruct (G n) as [e|] eqn:E; [|exists 0; apply lw_missing; exact E]).
  all: assert (N : ~ In n v) by (intro I; exact (NR n (C n I))).
  all: assert (ND' : NoDup (n :: v)) by (constructor; assumption).
  all: assert (IN' : incl (n :: v) (map fst rs)) by (intros x [<-|I]; [exact (key_in_gen rs n e E)|exact (IN x I)]).
  all: pose proof (NoDup_incl_length ND' IN') as LE; rewrite map_length in LE; cbn [length] in LE.
  { lia. }
  destruct (expr_loops e) as [d D]; [|exists d; eapply lw_rule; eassumption].
  intros m O. destruct (G m) as [e'|] eqn:E'; [|exists 0; apply lw_missing; exact E'].
  assert (R : refers G n m) by (split; [congruence|exists e; split; assumption]).
  apply (IH (n :: v) m ND' IN'); [|cbn [length]; lia].
  intros x [<-|I]; [apply t_step; exact R|eapply t_trans; [exact (C x I)|apply t_step; exact R]].
Qed.

Lemma main_loops : exists d, loops_within G d (RuleName main).
Proof. apply (rule_loops (length rs) [] main); [constructor|intros x []|intros x []|cbn; lia]. Qed.

End Finite.

(** * The degree is needed *)

Lemma pow_step : forall d m, (m + 1) ^ S d <= m ^ S d + S d * (m + 1) ^ d.
Proof.
  induction d as [|d IH]; intro m; [cbn; lia|]. specialize (IH m).
  assert (L : m ^ S d <= (m + 1) ^ S d) by (apply Nat.pow_le_mono_l; lia).
  change ((m + 1) ^ S (S d)) with ((m + 1) * (m + 1) ^ S d). change (m ^ S (S d)) with (m * m ^ S d).
  assert (E : (m + 1) * (S d * (m + 1) ^ d) = S d * (m + 1) ^ S d) by (change ((m + 1) ^ S d) with ((m + 1) * (m + 1) ^ d); lia).
  nia.
Qed.

Section Ahead.
Variable G : str -> option expr.

Lemma turn_end : forall d, (exists k, costs G (look_ahead d) [] OF k) \/ (exists k, costs G (look_ahead d) [] (OM []) k) ->
  exists k, costs G (And [Not (Not (look_ahead d)); dot_]) [] OF k.
Proof.
  intros d [[k K]|[k K]].
  - eexists. apply c_and, ca_fail. eapply c_not_fail. eapply c_not_ok; [exact K|left; reflexivity].
  - eexists. apply c_and. eapply ca_cons; [eapply c_not_ok; [eapply c_not_fail; exact K|left; reflexivity]|].
    apply ca_fail, c_fail. apply peg_dot_fail.
Qed.

Lemma ahead_cost : forall d s, exists o k, costs G (look_ahead d) s o k /\ length s ^ d <= fact d * k /\
  match d, s with 0, [] => o = OF | 0, _ :: r => o = OM r | S _, _ => o = OM [] end.
Proof.
  induction d as [|d IH]; intro s.
  - destruct s as [|c r]; eexists _, 1; (split; [|split; [cbn; lia|reflexivity]]); [apply c_fail, peg_dot_fail|eapply c_match; apply peg_dot_ok].
  - cbn [look_ahead]. set (e := And [Not (Not (look_ahead d)); dot_]).
    enough (H : exists k, costs_rep G e 0 None s (OM []) k /\ length s ^ S d <= fact (S d) * k).
    { destruct H as (k & C & L). exists (OM []), (S k). split; [apply c_rep; exact C|]. split; [nia|reflexivity]. }
    induction s as [|c r (k & C & L)].
    + destruct (turn_end d) as [k K]; [destruct (IH []) as (o & k & C & _ & O); destruct d; subst o; [left|right]; exists k; exact C|].
      exists k. split; [apply cr_done; exact K|]. cbn [length Nat.pow]. lia.
    + destruct (IH (c :: r)) as (o & j & J & LJ & O). assert (M : exists rest, o = OM rest) by (destruct d; eauto). destruct M as [rest ->].
      exists (S (S (S j) + (1 + 0)) + k). split.
      * eapply (cr_more G e 0 None); [discriminate| |exact C]. apply c_and. eapply ca_cons; [eapply c_not_ok; [eapply c_not_fail; exact J|left; reflexivity]|].
        eapply ca_cons; [eapply c_match; apply peg_dot_ok|apply ca_nil].
      * pose proof (pow_step d (length r)) as P. cbn [length] in *. replace (S (length r)) with (length r + 1) in * by lia. change (fact (S d)) with (S d * fact d) in *.
        assert (S d * (length r + 1) ^ d <= S d * (fact d * j)) by (apply Nat.mul_le_mono_l; exact LJ). nia.
Qed.

End Ahead.

Lemma ahead_sane : forall d, sane_rules (look_ahead_rules d).
Proof. intro d. apply (one_sane (look_ahead d)). induction d as [|d IH]; cbn; tauto. Qed.

Lemma ahead_names : forall d n, ~ occurs (RuleName n) (look_ahead d).
Proof.
  induction d as [|d IH]; intros n O; [inversion O|]. cbn [look_ahead] in O. inversion O as [| | | |e1 mn mx O1]; subst.
  inversion O1 as [|e2 es I O2| | |]; subst. destruct I as [<-|[<-|[]]]; [|inversion O2]. inversion O2 as [| | |e3 O3|]; subst. inversion O3 as [| | |e4 O4|]; subst. exact (IH n O4).
Qed.

Lemma ahead_get : forall d n e, grammar_of (look_ahead_rules d) n = Some e -> e = look_ahead d.
Proof.
  intros d n e E. change (grammar_of (look_ahead_rules d) n) with (if str_eqb main n then Some (look_ahead d) else None) in E.
  destruct (str_eqb main n); [congruence|discriminate].
Qed.

Lemma ahead_no_recursion : forall d, no_recursion (grammar_of (look_ahead_rules d)).
Proof.
  intros d n C. assert (X : forall a b, clos_trans str (refers (grammar_of (look_ahead_rules d))) a b -> exists m, refers (grammar_of (look_ahead_rules d)) a m) by (clear; induction 1; eauto).
  destruct (X n n C) as (m & _ & e & E & O).
  rewrite (ahead_get d n e E) in O. exact (ahead_names d m O).
Qed.

Lemma ahead_loops : forall d e x mn mx, e = look_ahead d -> occurs (Repeat x mn mx) e -> ~ may_be_empty (grammar_of (look_ahead_rules d)) x.
Proof.
  intro d0. enough (H : forall G d x mn mx, occurs (Repeat x mn mx) (look_ahead d) -> ~ may_be_empty G x) by (intros e x mn mx -> O; exact (H _ _ _ _ _ O)). clear d0.
  intro G. induction d as [|d IH]; intros x mn mx O M; [inversion O|]. cbn [look_ahead] in O.
  inversion O as [E| | | |e1 mn1 mx1 O1]; subst.
  - inversion M as [| | |e es M1 M2| | | | |]; subst. inversion M2 as [| | |e es M3 M4| | | | |]; subst. inversion M3.
  - inversion O1 as [|e2 es I O2| | |]; subst. destruct I as [<-|[<-|[]]]; [|inversion O2]. inversion O2 as [| | |e3 O3|]; subst. inversion O3 as [| | |e4 O4|]; subst. exact (IH _ _ _ O4 M).
Qed.

Lemma ahead_no_empty_loops : forall d, no_empty_loops (grammar_of (look_ahead_rules d)).
Proof. intros d n e x mn mx E O _. exact (ahead_loops d e x mn mx (ahead_get d n e E) O). Qed.

Lemma ahead_within : forall d, loops_within (grammar_of (look_ahead_rules d)) d (RuleName main).
Proof.
  intro d. eapply lw_rule; [reflexivity|]. generalize (grammar_of (look_ahead_rules d)). intro G. induction d as [|d IH]; [constructor|]. cbn [look_ahead].
  apply lw_loop; [left; reflexivity|]. constructor. intros e [<-|[<-|[]]]; repeat constructor. exact IH.
Qed.

Lemma ahead_calls : forall d fuel s debug, ascii s -> parse_with_debug fuel s (look_ahead_rules d) debug <> Fuel ->
  length s ^ d <= 2 * fact d * parse_calls fuel s (look_ahead_rules d) debug.
Proof.
  intros d fuel s debug A N. destruct (ahead_cost (grammar_of (look_ahead_rules d)) d s) as (o & k & C & L & O).
  assert (NO : o <> OC) by (destruct d; [destruct s|]; subst o; discriminate).
  pose proof (parse_calls_run (look_ahead_rules d) s fuel debug o (S k) (ahead_sane d) A N (c_rule (grammar_of (look_ahead_rules d)) main (look_ahead d) s o k eq_refl C) NO) as E. injection E as E. rewrite E. nia.
Qed.

Lemma refers_first : forall G m n, rule_calls G m n -> refers G m n.
Proof.
  intros G m n (D & e & E & C). split; [exact D|]. exists e. split; [exact E|]. clear D E. induction C.
  - constructor.
  - eapply oc_and; [left; reflexivity|eassumption].
  - inversion IHC; subst. eapply oc_and; [right; eassumption|eassumption].
  - eapply oc_or; eassumption.
  - constructor. assumption.
  - constructor. assumption.
Qed.

(** * A check *)

Fixpoint names_in (e : expr) : list str :=
  match e with
  | Simple _ => []
  | And es | Or es => flat_map names_in es
  | Not e1 | Repeat e1 _ _ => names_in e1
  | RuleName n => [n]
  end.

Lemma names_in_ok : forall n e, occurs (RuleName n) e -> In n (names_in e).
Proof.
  intros n e O. remember (RuleName n) as x. induction O; subst; cbn [names_in]; [left; reflexivity| | |auto|auto]; (apply in_flat_map; eauto).
Qed.

Fixpoint rank (order : list str) (n : str) : nat :=
  match order with [] => 0 | k :: r => if str_eqb k n then S (length r) else rank r n end.

(** Each definition only refers to rules that come later in [order], or are not in it. *)
Definition downward (order : list str) (rs : rules) : bool :=
  forallb (fun p => forallb (fun m => rank order m <? rank order (fst p)) (names_in (snd p))) rs.

Lemma downward_ok : forall order rs, downward order rs = true -> no_recursion (grammar_of rs).
Proof.
  intros order rs D n C. assert (X : forall a b, clos_trans str (refers (grammar_of rs)) a b -> rank order b < rank order a).
  { intros a b T. induction T as [a b (_ & e & E & O)|a b c _ IH1 _ IH2]; [|lia]. unfold downward in D. rewrite forallb_forall in D.
    specialize (D _ (rules_get_in _ _ _ E)). cbn [fst snd] in D. rewrite forallb_forall in D. apply Nat.ltb_lt. exact (D b (names_in_ok b e O)). }
  specialize (X n n C). lia.
Qed.
