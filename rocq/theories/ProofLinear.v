(** Predictive grammars are parsed in linear time. *)
From Verif Require Import Base ModelAst ModelParser ModelCost SpecPeg SpecPos SpecApi SpecWf SpecBnf.
From Verif Require Import SpecCost PegTools ProofParser ProofEngine ProofSim ProofApi ProofWf WfCheck ProofCost ProofCost2 ProofRun ProofRunDet ProofBnf Examples.

Section Linear.
Variable rs : rules.
Notation G := (rules_get rs).
Hypothesis SR : sane_rules rs.
Hypothesis NLR : no_left_recursion G.
Hypothesis PR : productive G.
Variable follow : str -> nexts.
Hypothesis PG : forall n e, G n = Some e -> predictive G follow e (follow n).

Let R := length rs.
Let B := fold_right (fun p n => expr_size (snd p) + n) 0 rs.

(** * Derivations *)

Lemma derives_nil : forall e w ts, derives G e w ts -> w = [] -> may_be_empty G e.
Proof.
  intros e w ts D. induction D; intro E; try discriminate.
  - subst l. constructor.
  - constructor.
  - constructor.
  - apply app_eq_nil in E. destruct E as [-> ->]. apply me_and_cons; auto.
  - subst w. eapply me_or; eauto.
  - constructor.
  - constructor.
  - apply app_eq_nil in E. destruct E as [-> ->]. apply me_rep; auto.
  - subst w. eapply me_rule; eauto.
Qed.

(** Well-shaped: sane, no predicates, turns are not empty, everything generates something. *)
Fixpoint shape (e : expr) : Prop :=
  match e with
  | Simple _ | RuleName _ => True
  | And es | Or es => fold_right (fun x P => (shape x /\ exists w ts, derives G x w ts) /\ P) True es
  | Not _ => False
  | Repeat x mn mx => shape x /\ ~ empty G x /\ (exists w ts, derives G x w ts) /\ match mx with None => True | Some m => 1 <= m /\ mn <= m end
  end.

Definition gen (x : expr) : Prop := exists w ts, derives G x w ts.

Lemma shape_list : forall es, (forall x, In x es -> shape x /\ gen x) -> fold_right (fun x P => (shape x /\ exists w ts, derives G x w ts) /\ P) True es.
Proof. induction es as [|x r IH]; intro H; cbn; [exact I|]. split; [apply H; left; reflexivity|]. apply IH. intros y I. apply H. right. exact I. Qed.

Lemma pred_and_each : forall l F x, predictive G follow (And l) F -> In x l -> exists F', predictive G follow x F'.
Proof. induction l as [|y r IH]; intros F x P I; [contradiction|]. destruct P as [P1 P2], I as [->|I]; [eauto|]. exact (IH F x P2 I). Qed.

Lemma pred_or_each : forall l F x, predictive G follow (Or l) F -> In x l -> predictive G follow x F.
Proof. induction l as [|y r IH]; intros F x P I; [contradiction|]. destruct P as (P1 & _ & _ & P2), I as [->|I]; [exact P1|]. exact (IH F x P2 I). Qed.

Lemma sane_in : forall l x, fold_right (fun x P => sane x /\ P) True l -> In x l -> sane x.
Proof. induction l as [|y r IH]; intros x P I; [contradiction|]. destruct P as [P1 P2], I as [->|I]; auto. Qed.

Lemma shape_ok : forall e F, predictive G follow e F -> sane e -> (forall x, occurs x e -> gen x) -> shape e.
Proof.
  induction e as [a|es IH|es IH|x IH|x mn mx IH|n] using expr_ind'; intros F P S O; try exact I.
  - apply shape_list. intros x I. rewrite Forall_forall in IH. destruct (pred_and_each es F x P I) as [F' P']. split.
    + apply (IH x I F' P' (sane_in es x S I)). intros y Oy. apply O. eapply oc_and; eassumption.
    + apply O. eapply oc_and; [exact I|apply oc_here].
  - apply shape_list. intros x I. rewrite Forall_forall in IH. split.
    + apply (IH x I F (pred_or_each es F x P I) (sane_in es x S I)). intros y Oy. apply O. eapply oc_or; eassumption.
    + apply O. eapply oc_or; [exact I|apply oc_here].
  - contradiction.
  - destruct P as (P1 & P2 & P3), S as [S1 S2]. split; [|split; [exact P2|split; [apply O, oc_rep, oc_here|exact S2]]].
    apply (IH _ P1 S1). intros y Oy. apply O, oc_rep, Oy.
Qed.

Lemma body_shape : forall n e, G n = Some e -> shape e /\ gen e.
Proof.
  intros n e E. split; [|exact (PR n e e E (oc_here e))]. apply (shape_ok e (follow n) (PG n e E) (SR n e E)). intros x O. exact (PR n e x E O).
Qed.

Lemma gen_and : forall es, shape (And es) -> gen (And es).
Proof.
  induction es as [|x r IH]; intro H; [exists [], []; constructor|]. destruct H as [[_ (w & ts & D)] H2]. destruct (IH H2) as (v & us & D2).
  exists (w ++ v), (ts ++ us). apply d_and_cons; assumption.
Qed.

Lemma gen_rep : forall x, gen x -> forall mn mx, match mx with None => True | Some m => mn <= m end -> gen (Repeat x mn mx).
Proof.
  intros x (w & ts & D). induction mn as [|mn IH]; intros mx B0; [exists [], []; constructor|].
  destruct (IH (option_map pred mx)) as (v & us & D2); [destruct mx; cbn; [lia|exact I]|].
  exists (w ++ v), (ts ++ us). apply d_rep_more; [intros ->; lia|exact D|exact D2].
Qed.

Lemma starts_head : forall x r c, shape (And (x :: r)) -> starts G x c -> starts G (And (x :: r)) c.
Proof.
  intros x r c [_ H] (w & ts & D). destruct (gen_and r H) as (v & us & D2). exists (w ++ v), (ts ++ us). exact (d_and_cons G x r (c :: w) v ts us D D2).
Qed.

Lemma starts_tail : forall x r c, empty G x -> starts G (And r) c -> starts G (And (x :: r)) c.
Proof. intros x r c (ts & D) (w & us & D2). exists w, (ts ++ us). exact (d_and_cons G x r [] (c :: w) ts us D D2). Qed.

Lemma starts_or : forall l x c, In x l -> starts G x c -> starts G (Or l) c.
Proof. intros l x c I (w & ts & D). exists w, ts. eapply d_or; eassumption. Qed.

Lemma starts_or_tail : forall x r c, starts G (Or r) c -> starts G (Or (x :: r)) c.
Proof. intros x r c (w & ts & D). inversion D; subst. exists w, ts. eapply d_or; [right; eassumption|assumption]. Qed.

Lemma empty_or_tail : forall x r, empty G (Or r) -> empty G (Or (x :: r)).
Proof. intros x r (ts & D). inversion D; subst. exists ts. eapply d_or; [right; eassumption|assumption]. Qed.

Lemma starts_rep : forall x mn mx c, shape (Repeat x mn mx) -> starts G x c -> starts G (Repeat x mn mx) c.
Proof.
  intros x mn mx c (_ & _ & Gx & B0) (w & ts & D).
  destruct (gen_rep x Gx (pred mn) (option_map pred mx)) as (v & us & D2); [destruct mx; cbn; [lia|exact I]|].
  exists (w ++ v), (ts ++ us). apply (d_rep_more G x mn mx (c :: w) v ts us); [destruct mx; [intro X; injection X as ->; lia|discriminate]|exact D|exact D2].
Qed.

Lemma starts_rule : forall n e c, G n = Some e -> starts G e c -> starts G (RuleName n) c.
Proof. intros n e c E (w & ts & D). exists w, [Rule n ts]. eapply d_rule; eassumption. Qed.

Lemma empty_rule : forall n e, G n = Some e -> empty G e -> empty G (RuleName n).
Proof. intros n e E (ts & D). exists [Rule n ts]. eapply d_rule; eassumption. Qed.

(** What a run that matches says. *)
Lemma run_match : forall e s rest k, costs G e s (OM rest) k -> sane e ->
  (rest = s /\ empty G e) \/ (exists c w, s = c :: w ++ rest /\ starts G e c).
Proof.
  intros e s rest k H S. destruct (proj1 (costs_says G SR) e s _ k H S) as [ts P].
  destruct (peg_derives _ _ _ _ P _ _ eq_refl) as ([|c w] & -> & D).
  - left. split; [reflexivity|exists ts; exact D].
  - right. exists c, w. split; [reflexivity|]. exists w, ts. exact D.
Qed.

(** [e] cannot start here. *)
Definition off (e : expr) (s : str) : Prop := forall c x, s = c :: x -> ~ starts G e c.

Lemma shape_in : forall x r, shape (And (x :: r)) -> shape x /\ shape (And r).
Proof. intros x r [[A _] C]. split; assumption. Qed.

Lemma shape_sane : forall e, shape e -> sane e.
Proof.
  induction e as [a|es IH|es IH|x IH|x mn mx IH|n] using expr_ind'; intro S; cbn in *; try exact I.
  - induction es as [|x r IHr]; cbn in *; [exact I|]. inversion IH; subst. tauto.
  - induction es as [|x r IHr]; cbn in *; [exact I|]. inversion IH; subst. tauto.
  - contradiction.
  - tauto.
Qed.

(** * Where an expression cannot start, it costs a constant *)

Definition pw (v : list str) : nat := (B + 1) ^ (R - length v).

Lemma pw_pos : forall v, 1 <= pw v.
Proof. intro v. unfold pw. pose proof (Nat.pow_nonzero (B + 1) (R - length v)). lia. Qed.

Lemma pw_enter : forall v n, length v < R -> pw v = pw (n :: v) * (B + 1).
Proof. intros v n L. unfold pw. cbn [length]. replace (R - length v) with (S (R - S (length v))) by lia. cbn [Nat.pow]. lia. Qed.

Definition sizes (es : list expr) : nat := fold_right (fun x n => expr_size x + n) 0 es.

Lemma quiet :
  (forall e s o k, costs G e s o k -> forall v, shape e -> visited rs v -> left_in rs v e -> off e s -> k <= pw v * expr_size e) /\
  (forall es s o k, costs_and G es s o k -> forall v, shape (And es) -> visited rs v -> left_in rs v (And es) -> off (And es) s -> k <= pw v * sizes es) /\
  (forall es s o k, costs_or G es s o k -> forall v, shape (Or es) -> visited rs v -> left_in rs v (Or es) -> off (Or es) s -> k <= pw v * sizes es) /\
  (forall e mn mx s o k, costs_rep G e mn mx s o k -> forall v, shape e -> ~ empty G e -> visited rs v -> left_in rs v e -> off e s -> k <= pw v * expr_size e).
Proof.
  apply costs_mind.
  - lia.
  - intros a s v. pose proof (pw_pos v). cbn [expr_size]. lia.
  - intros a s ts rest _ v. pose proof (pw_pos v). cbn [expr_size]. lia.
  - intros a s _ v. pose proof (pw_pos v). cbn [expr_size]. lia.
  - intros a s m rest _ v. pose proof (pw_pos v). cbn [expr_size]. lia.
  - intros es s o k _ IH v S V L O. specialize (IH v S V L O). pose proof (pw_pos v). cbn [expr_size]. fold (sizes es). nia.
  - intros es s o k _ IH v S V L O. specialize (IH v S V L O). pose proof (pw_pos v). cbn [expr_size]. fold (sizes es). nia.
  - intros e s rest k _ _ v S. destruct S.
  - intros e s o k _ _ _ v S. destruct S.
  - intros e s o k _ _ v S. destruct S.
  - intros e mn mx s o k _ IH v S V L O.
    assert (Oe : off e s) by (intros c x E X; apply (O c x E); apply starts_rep; assumption).
    destruct S as (S1 & S2 & S3). specialize (IH v S1 S2 V (left_rep rs v e mn mx L) Oe). pose proof (pw_pos v). cbn [expr_size]. nia.
  - intros n e s o k E _ IH v S V L O. destruct (enter rs NLR v n e V L E) as (V' & L' & LT).
    assert (Oe : off e s) by (intros c x Ec X; apply (O c x Ec); eapply starts_rule; eassumption).
    specialize (IH (n :: v) (proj1 (body_shape n e E)) V' L' Oe). fold R in LT. rewrite (pw_enter v n LT).
    pose proof (body_size rs n e E) as BS. fold B in BS. pose proof (pw_pos (n :: v)). cbn [expr_size]. nia.
  - intros n s o E _ v. pose proof (pw_pos v). cbn [expr_size]. lia.
  - lia.
  - intros e es s s1 o k k' C IH C' IH' v S V L O. destruct (shape_in _ _ S) as [S1 S2].
    assert (Oe : off e s) by (intros c x E X; apply (O c x E); apply starts_head; assumption).
    specialize (IH v S1 V (left_head rs v e es L) Oe).
    destruct (run_match e s s1 k C (shape_sane e S1)) as [[-> EM]|(c & w & E & X)]; [|destruct (Oe c _ E X)].
    assert (Ot : off (And es) s) by (intros c x E X; apply (O c x E); apply starts_tail; assumption).
    destruct EM as [ts EM].
    specialize (IH' v S2 V (left_next rs v e es L (derives_nil e [] ts EM eq_refl)) Ot). cbn [sizes fold_right]. fold (sizes es). nia.
  - intros e es s k C IH v S V L O. destruct (shape_in _ _ S) as [S1 S2].
    assert (Oe : off e s) by (intros c x E X; apply (O c x E); apply starts_head; assumption).
    specialize (IH v S1 V (left_head rs v e es L) Oe). cbn [sizes fold_right]. fold (sizes es). nia.
  - intros e es s o k C IH _ v S V L O. destruct (shape_in _ _ S) as [S1 S2].
    assert (Oe : off e s) by (intros c x E X; apply (O c x E); apply starts_head; assumption).
    specialize (IH v S1 V (left_head rs v e es L) Oe). cbn [sizes fold_right]. fold (sizes es). nia.
  - lia.
  - lia.
  - intros e es s s1 k C IH v S V L O. destruct S as [[S1 _] S2].
    assert (Oe : off e s) by (intros c x E X; apply (O c x E); eapply starts_or; [left; reflexivity|exact X]).
    specialize (IH v S1 V (left_or rs v _ e L (or_introl eq_refl)) Oe). cbn [sizes fold_right]. fold (sizes es). nia.
  - intros e es s o k C IH _ v S V L O. destruct S as [[S1 _] S2].
    assert (Oe : off e s) by (intros c x E X; apply (O c x E); eapply starts_or; [left; reflexivity|exact X]).
    specialize (IH v S1 V (left_or rs v _ e L (or_introl eq_refl)) Oe). cbn [sizes fold_right]. fold (sizes es). nia.
  - intros e es s o k k' C IH _ IH' v S V L O. destruct S as [[S1 _] S2].
    assert (Oe : off e s) by (intros c x E X; apply (O c x E); eapply starts_or; [left; reflexivity|exact X]).
    assert (Ot : off (Or es) s) by (intros c x E X; apply (O c x E); apply starts_or_tail; exact X).
    assert (Lt : left_in rs v (Or es)).
    { destruct v as [|m v]; [exact I|]. intros n D X. apply L; [exact D|]. inversion X; subst. eapply cf_or; [right; eassumption|assumption]. }
    specialize (IH v S1 V (left_or rs v _ e L (or_introl eq_refl)) Oe). specialize (IH' v S2 V Lt Ot). cbn [sizes fold_right]. fold (sizes es). nia.
  - intros e mn mx s v. lia.
  - intros e mn s s1 k C IH v S NE V L O. apply (IH v); assumption.
  - intros e mn mx s s1 o k k' N C IH _ _ v S NE V L O.
    destruct (run_match e s s1 k C (shape_sane e S)) as [[-> EM]|(c & w & E & X)]; [destruct (NE EM)|destruct (O c _ E X)].
  - intros e mx s k C IH v S NE V L O. apply (IH v); assumption.
  - intros e mn mx s k _ C IH v S NE V L O. apply (IH v); assumption.
  - intros e mn mx s o k C IH _ v S NE V L O. apply (IH v); assumption.
Qed.

(** * What an expression costs *)

Definition E0 : nat := pw [].
Definition W : nat := E0 * (B + 1).
Definition Q (v : list str) (m : nat) : nat := ((R - length v) * (B + 1) + m) * W.
Definition K : nat := (R + 1) * (B + 1) * W.
Definition T (s : str) : nat := 2 * K * length s.

Arguments E0 : simpl never.
Arguments W : simpl never.
Arguments Q _ _ : simpl never.
Arguments K : simpl never.
Arguments T _ : simpl never.
Arguments pw _ : simpl never.

Lemma E0_pos : 1 <= E0. Proof. exact (pw_pos []). Qed.
Lemma pw_E0 : forall v, pw v <= E0.
Proof. intro v. unfold E0, pw. cbn [length]. apply Nat.pow_le_mono_r; lia. Qed.
Lemma E0_W : forall m, m <= B -> E0 * m + 1 <= W.
Proof. intros m H. pose proof E0_pos. unfold W. nia. Qed.
Lemma pw_W : forall v m, pw v * m <= W * m.
Proof. intros v m. pose proof (pw_E0 v). apply Nat.mul_le_mono_r. unfold W. nia. Qed.
Lemma Q_add : forall v a b, Q v (a + b) = Q v a + W * b.
Proof. intros. unfold Q. nia. Qed.
Lemma Q_ge : forall v m, W * m <= Q v m.
Proof. intros. unfold Q. nia. Qed.
Lemma Q_K : forall m, m <= B -> Q [] m + W <= K.
Proof. intros m H. unfold Q, K. cbn [length]. replace (R - 0) with R by lia. nia. Qed.
Lemma W_pos : 1 <= W.
Proof. pose proof E0_pos. unfold W. nia. Qed.
Lemma Q_enter : forall v n m, length v < R -> m <= B -> Q (n :: v) m + 1 <= Q v 1.
Proof.
  intros v n m L H. unfold Q. cbn [length]. replace (R - length v) with (S (R - S (length v))) by lia. pose proof W_pos. nia.
Qed.
Lemma pw_rule : forall v n m, length v < R -> m <= B -> pw (n :: v) * m + 1 <= pw v.
Proof. intros v n m L H. rewrite (pw_enter v n L). pose proof (pw_pos (n :: v)). nia. Qed.
Lemma T_cons : forall c w rest, 2 * K + T rest <= T (c :: w ++ rest).
Proof. intros. unfold T. cbn [length]. rewrite app_length. nia. Qed.
Lemma T_le : forall a b : str, length a <= length b -> T a <= T b.
Proof. intros. unfold T. nia. Qed.

Definition loud (st : char -> Prop) (s : str) : Prop := exists c x, s = c :: x /\ st c.

(** Nothing consumed for a constant cost; consumed and paid for; or stuck before a char that cannot follow. *)
Definition paid (st : char -> Prop) (F : nexts) (q l : nat) (s : str) (o : ending) (k : nat) : Prop :=
  match o with
  | OM rest =>
      (rest = s /\ k <= q) \/
      (exists c w, s = c :: w ++ rest /\ k + K + T rest <= T s + l) \/
      (exists c x, rest = c :: x /\ ~ F (Some c) /\ loud st s /\ length rest <= length s /\ k <= T s + l)
  | _ => k <= q \/ (loud st s /\ k <= T s + l)
  end.

Lemma paid_weaken : forall (st st' : char -> Prop) (F F' : nexts) q q' l l' s o k k',
  (forall c, st c -> st' c) -> (forall x, F' x -> F x) -> q + (k' - k) <= q' -> l + (k' - k) <= l' -> k <= k' ->
  paid st F q l s o k -> paid st' F' q' l' s o k'.
Proof.
  intros st st' F F' q q' l l' s o k k' HS HF Hq Hl Hk P. assert (HL : loud st s -> loud st' s) by (intros (c & x & E & X); exists c, x; auto).
  destruct o as [rest| | |]; cbn in *.
  - destruct P as [[E P]|[(c & w & E & P)|(c & x & E & N & L & LE & P)]].
    + left. split; [exact E|lia].
    + right. left. exists c, w. split; [exact E|lia].
    + right. right. exists c, x. repeat split; auto. lia.
  - destruct P as [P|[L P]]; [left; lia|right; split; [auto|lia]].
  - destruct P as [P|[L P]]; [left; lia|right; split; [auto|lia]].
  - destruct P as [P|[L P]]; [left; lia|right; split; [auto|lia]].
Qed.

(** A run that failed. *)
Lemma paid_stop : forall st F q l s o k, (forall rest, o <> OM rest) -> paid st F q l s o k -> k <= q \/ (loud st s /\ k <= T s + l).
Proof. intros st F q l s [rest| | |] k N P; [destruct (N rest eq_refl)|exact P|exact P|exact P]. Qed.

Lemma paid_stopped : forall st F q l s o k, (forall rest, o <> OM rest) -> k <= q \/ (loud st s /\ k <= T s + l) -> paid st F q l s o k.
Proof. intros st F q l s [rest| | |] k N P; [destruct (N rest eq_refl)|exact P|exact P|exact P]. Qed.

Lemma halt_stop : forall o, halts o -> forall rest, o <> OM rest.
Proof. intros o [-> | ->]; discriminate. Qed.

(** A stuck run followed by a quiet one. *)
Lemma stuck_then : forall (st : char -> Prop) (F : nexts) q l s s1 c x o k k' j, s1 = c :: x -> loud st s -> length s1 <= length s -> k <= T s + l -> k' <= j ->
  (forall rest, o = OM rest -> rest = s1 /\ ~ F (Some c)) -> paid st F q (l + j) s o (k + k').
Proof.
  intros st F q l s s1 c x o k k' j E L LE H1 H2 HO. destruct o as [rest| | |]; cbn; try (right; split; [exact L|lia]).
  destruct (HO rest eq_refl) as [-> N]. right. right. exists c, x. repeat split; auto. lia.
Qed.

Lemma all_paid :
  (forall e s o k, costs G e s o k -> forall v F, shape e -> predictive G follow e F -> expr_size e <= B -> visited rs v -> left_in rs v e ->
     paid (starts G e) F (pw v * expr_size e) (Q v (expr_size e)) s o k) /\
  (forall es s o k, costs_and G es s o k -> forall v F, shape (And es) -> predictive G follow (And es) F -> sizes es <= B -> visited rs v -> left_in rs v (And es) ->
     paid (starts G (And es)) F (pw v * sizes es) (Q v (sizes es)) s o k) /\
  (forall es s o k, costs_or G es s o k -> forall v F, shape (Or es) -> predictive G follow (Or es) F -> sizes es <= B -> visited rs v -> left_in rs v (Or es) ->
     paid (starts G (Or es)) F (pw v * sizes es) (Q v (sizes es)) s o k) /\
  (forall e mn mx s o k, costs_rep G e mn mx s o k -> forall v F, shape e -> predictive G follow (Repeat e mn mx) F -> expr_size e <= B -> visited rs v -> left_in rs v e ->
     match mx with None => True | Some m => 1 <= m end ->
     paid (starts G e) F (pw v * expr_size e) (Q v (expr_size e) + E0 * expr_size e) s o k).
Proof.
  destruct quiet as (QE & QA & QO & QR).
  assert (ONE : forall a s o (v : list str) (F : nexts), (forall rest, o = OM rest -> (rest = s) \/ exists c w, s = c :: w ++ rest) ->
    paid (starts G (Simple a)) F (pw v * 1) (Q v 1) s o 1).
  { intros a s o v F H. pose proof (pw_pos v). destruct o as [rest| | |]; cbn; try (left; lia).
    destruct (H rest eq_refl) as [->|(c & w & E)]; [left; split; [reflexivity|lia]|right; left]. exists c, w. split; [exact E|].
    rewrite E. pose proof (T_cons c w rest). pose proof (Q_ge v 1). pose proof W_pos. lia. }
  apply costs_mind.
  - intros e s v F _ _ _ _ _. left. lia.
  - intros a s v F _ _ _ _ _. apply ONE. discriminate.
  - intros a s ts rest P v F _ _ _ _ _. apply ONE. intros r E. injection E as <-.
    destruct (peg_derives _ _ _ _ P _ _ eq_refl) as ([|c w] & -> & _); [left; reflexivity|right; exists c, w; reflexivity].
  - intros a s _ v F _ _ _ _ _. apply ONE. discriminate.
  - intros a s m rest _ v F _ _ _ _ _. apply ONE. discriminate.
  - intros es s o k _ IH v F S P Z V L. cbn [expr_size] in *. fold (sizes es) in *.
    refine (paid_weaken _ _ _ _ _ _ _ _ _ _ _ _ (fun c H => H) (fun x H => H) _ _ _ (IH v F S P ltac:(lia) V L)); [| |lia].
    + pose proof (pw_pos v). nia.
    + replace (1 + sizes es) with (sizes es + 1) by lia. rewrite Q_add. pose proof W_pos. lia.
  - intros es s o k _ IH v F S P Z V L. cbn [expr_size] in *. fold (sizes es) in *.
    refine (paid_weaken _ _ _ _ _ _ _ _ _ _ _ _ (fun c H => H) (fun x H => H) _ _ _ (IH v F S P ltac:(lia) V L)); [| |lia].
    + pose proof (pw_pos v). nia.
    + replace (1 + sizes es) with (sizes es + 1) by lia. rewrite Q_add. pose proof W_pos. lia.
  - intros e s rest k _ _ v F [].
  - intros e s o k _ _ _ v F [].
  - intros e s o k _ _ v F [].
  - intros e mn mx s o k _ IH v F S P Z V L. pose proof S as (S1 & S2 & S3 & S4). cbn [expr_size] in *.
    refine (paid_weaken _ _ _ _ _ _ _ _ _ _ _ _ (fun c H => starts_rep e mn mx c S H) (fun x H => H) _ _ _
      (IH v F S1 P ltac:(lia) V (left_rep rs v e mn mx L) ltac:(destruct mx; tauto))); [| |lia].
    + pose proof (pw_pos v). nia.
    + replace (1 + match mx with Some m => m | None => 0 end + expr_size e) with (expr_size e + (1 + match mx with Some m => m | None => 0 end)) by lia.
      rewrite Q_add. pose proof (E0_W (expr_size e) ltac:(lia)). nia.
  - intros n e s o k E _ IH v F S P Z V L. destruct (enter rs NLR v n e V L E) as (V' & L' & LT). fold R in LT.
    pose proof (body_size rs n e E) as BS. fold B in BS. destruct P as [_ P]. cbn [expr_size].
    refine (paid_weaken _ _ _ _ _ _ _ _ _ _ _ _ (fun c H => starts_rule n e c E H) P _ _ _
      (IH (n :: v) (follow n) (proj1 (body_shape n e E)) (PG n e E) BS V' L')); [| |lia].
    + pose proof (pw_rule v n (expr_size e) LT BS). lia.
    + pose proof (Q_enter v n (expr_size e) LT BS). lia.
  - intros n s o E _ v F _ [P _]. congruence.
  - intros s v F _ _ _ _ _. left. split; [reflexivity|]. lia.
  - intros e es s s1 o k k' C IH C' IH' v F S P Z V L. destruct (shape_in _ _ S) as [S1 S2]. destruct P as [P1 P2].
    cbn [sizes fold_right] in *. fold (sizes es) in *.
    specialize (IH v _ S1 P1 ltac:(lia) V (left_head rs v e es L)). pose proof (pw_W [] (sizes es)) as PW. fold E0 in PW.
    rewrite Q_add. destruct IH as [[-> KB]|[(c & w & E & KB)|(c & x & E & NF & LO & LE & KB)]].
    + (* nothing consumed *)
      destruct (run_match e s s k C (shape_sane e S1)) as [[_ EM]|(c & w & E & _)];
        [|exfalso; apply (f_equal (@length char)) in E; cbn in E; rewrite app_length in E; lia].
      pose proof EM as [ts EMD].
      pose proof (IH' v F S2 P2 ltac:(lia) V (left_next rs v e es L (derives_nil e [] ts EMD eq_refl))) as H2.
      refine (paid_weaken _ _ _ _ _ _ _ _ _ _ _ _ (fun c H => starts_tail e es c EM H) (fun x H => H) _ _ _ H2); [nia| |lia].
      pose proof (pw_W v (expr_size e)). unfold Q in *. nia.
    + (* consumed *)
      assert (LD : loud (starts G (And (e :: es))) s).
      { destruct (run_match e s s1 k C (shape_sane e S1)) as [[-> _]|(c' & w' & E' & X)].
        - exfalso. apply (f_equal (@length char)) in E; cbn in E; rewrite app_length in E; lia.
        - exists c', (w' ++ s1). split; [exact E'|]. apply starts_head; assumption. }
      pose proof (IH' [] F S2 P2 ltac:(lia) (visited_nil rs) I) as H2. pose proof (Q_K (sizes es) ltac:(lia)) as QK. fold E0 in H2.
      assert (LE : length s1 <= length s) by (rewrite E; cbn; rewrite app_length; lia).
      destruct o as [rest| | |]; cbn in H2 |- *.
      * destruct H2 as [[-> B2]|[(c2 & w2 & E2 & B2)|(c2 & x2 & E2 & N2 & L2 & LE2 & B2)]].
        -- right. left. exists c, w. split; [exact E|]. lia.
        -- right. left. exists c, (w ++ c2 :: w2). split; [rewrite E, E2, <- app_assoc; reflexivity|]. lia.
        -- right. right. exists c2, x2. repeat split; try assumption; lia.
      * right. split; [exact LD|]. destruct H2 as [B2|[_ B2]]; lia.
      * right. split; [exact LD|]. destruct H2 as [B2|[_ B2]]; lia.
      * right. split; [exact LD|]. destruct H2 as [B2|[_ B2]]; lia.
    + (* stuck *)
      assert (OF' : off (And es) s1) by (intros d y E' X; rewrite E in E'; injection E' as <- _; apply NF; left; exists c; split; [reflexivity|exact X]).
      assert (LD : loud (starts G (And (e :: es))) s) by (destruct LO as (d & y & E' & X); exists d, y; split; [exact E'|apply starts_head; assumption]).
      pose proof (QA es s1 o k' C' [] S2 (visited_nil rs) I OF') as H2. fold E0 in H2.
      apply (stuck_then _ F _ _ s s1 c x o k k' (W * sizes es) E LD LE KB); [lia|].
      intros rest ->. assert (C2 : costs G (And es) s1 (OM rest) (Datatypes.S k')) by (apply c_and; exact C').
      destruct (run_match _ _ _ _ C2 (shape_sane _ S2)) as [[-> EM]|(d & y & E' & X)]; [|destruct (OF' _ _ E' X)].
      split; [reflexivity|]. intro X. apply NF. right. split; [exact EM|exact X].
  - intros e es s k C IH v F S P Z V L. destruct (shape_in _ _ S) as [S1 S2]. destruct P as [P1 P2]. cbn [sizes fold_right] in *. fold (sizes es) in *.
    specialize (IH v _ S1 P1 ltac:(lia) V (left_head rs v e es L)). rewrite Q_add.
    refine (paid_weaken _ _ _ F _ _ _ _ _ OF _ _ (fun c H => starts_head e es c S H) (fun x H => _) _ _ _ (paid_stopped _ F _ _ _ OF _ ltac:(discriminate) IH)); [exact H|nia|nia|lia].
  - intros e es s o k C IH HO v F S P Z V L. destruct (shape_in _ _ S) as [S1 S2]. destruct P as [P1 P2]. cbn [sizes fold_right] in *. fold (sizes es) in *.
    specialize (IH v _ S1 P1 ltac:(lia) V (left_head rs v e es L)). rewrite Q_add.
    refine (paid_weaken _ _ _ F _ _ _ _ _ o _ _ (fun c H => starts_head e es c S H) (fun x H => _) _ _ _
      (paid_stopped _ F _ _ _ _ _ (halt_stop o HO) (paid_stop _ _ _ _ _ _ _ (halt_stop o HO) IH))); [exact H|nia|nia|lia].
  - intros s v F _ _ _ _ _. left. lia.
  - intros s v F _ _ _ _ _. left. lia.
  - intros e es s s1 k C IH v F S P Z V L. pose proof S as [[S1 _] S2]. destruct P as (P1 & P2 & P3 & P4). cbn [sizes fold_right] in *. fold (sizes es) in *.
    specialize (IH v F S1 P1 ltac:(lia) V (left_or rs v _ e L (or_introl eq_refl))). rewrite Q_add.
    refine (paid_weaken _ _ _ F _ _ _ _ _ _ _ _ (fun c H => starts_or (e :: es) e c (or_introl eq_refl) H) (fun x H => H) _ _ _ IH); [nia|nia|lia].
  - intros e es s o k C IH HO v F S P Z V L. pose proof S as [[S1 _] S2]. destruct P as (P1 & P2 & P3 & P4). cbn [sizes fold_right] in *. fold (sizes es) in *.
    specialize (IH v F S1 P1 ltac:(lia) V (left_or rs v _ e L (or_introl eq_refl))). rewrite Q_add.
    refine (paid_weaken _ _ _ F _ _ _ _ _ _ _ _ (fun c H => starts_or (e :: es) e c (or_introl eq_refl) H) (fun x H => H) _ _ _ IH); [nia|nia|lia].
  - intros e es s o k k' C IH C' IH' v F S P Z V L. pose proof S as [[S1 _] S2]. destruct P as (P1 & P2 & P3 & P4). cbn [sizes fold_right] in *. fold (sizes es) in *.
    specialize (IH v F S1 P1 ltac:(lia) V (left_or rs v _ e L (or_introl eq_refl))). rewrite Q_add.
    assert (Lt : left_in rs v (Or es)).
    { destruct v as [|m v]; [exact I|]. intros n D X. apply L; [exact D|]. inversion X; subst. eapply cf_or; [right; eassumption|assumption]. }
    cbn in IH. destruct IH as [KB|[(c & x & E & X) KB]].
    + pose proof (pw_W v (expr_size e)). refine (paid_weaken _ _ _ F _ _ _ _ _ _ _ _ (fun c H => starts_or_tail e es c H) (fun x H => H) _ _ _ (IH' v F S2 P4 ltac:(lia) V Lt)); [nia|unfold Q in *; nia|lia].
    + assert (OF' : off (Or es) s) by (intros d y E' X'; rewrite E in E'; injection E' as <- _; apply (P3 c X); left; exists c; split; [reflexivity|exact X']).
      pose proof (QO es s o k' C' v S2 V Lt OF') as H2. pose proof (pw_W v (sizes es)).
      apply (stuck_then _ F _ _ s s c x o k k' (W * sizes es) E); [exists c, x; split; [exact E|eapply starts_or; [left; reflexivity|exact X]]|lia|exact KB|lia|].
      intros rest ->. assert (C2 : costs G (Or es) s (OM rest) (Datatypes.S k')) by (apply c_or; exact C').
      destruct (run_match _ _ _ _ C2 (shape_sane (Or es) S2)) as [[-> EM]|(d & y & E' & X')]; [|destruct (OF' _ _ E' X')].
      split; [reflexivity|]. intro Y. apply (P3 c X). right. split; [exact EM|exact Y].
  - intros e mn mx s v F _ _ _ _ _ _. left. lia.
  - intros e mn s s1 k C IH v F S P Z V L _. destruct P as (P1 & P2 & P3).
    refine (paid_weaken _ _ _ F _ _ _ _ _ _ _ _ (fun c H => H) (fun x H => _) _ _ _ (IH v _ S P1 Z V L)); [right; exact H|lia|lia|lia].
  - intros e mn mx s s1 o k k' N C IH C' IH' v F S P Z V L BD. pose proof P as (P1 & P2 & P3). specialize (IH v _ S P1 Z V L).
    assert (RM : repeats mx) by (destruct mx as [[|[|m]]|]; cbn; try lia; try congruence; exact I).
    assert (BD' : match option_map pred mx with Some m => 1 <= m | None => True end) by (destruct mx as [m|]; cbn in *; [lia|exact I]).
    pose proof (Q_K (expr_size e) Z) as QK. pose proof (E0_W (expr_size e) Z) as EW.
    destruct (run_match e s s1 k C (shape_sane e S)) as [[-> EM]|(c' & w' & E' & X)]; [destruct (P2 EM)|].
    assert (LD : loud (starts G e) s) by (exists c', (w' ++ s1); split; assumption).
    assert (LEN : length s1 < length s) by (rewrite E'; cbn; rewrite app_length; lia).
    destruct IH as [[-> KB]|[(c & w & E & KB)|(c & x & E & NF & LO & LE & KB)]]; [lia| |].
    + pose proof (IH' [] F S (predictive_turn G follow e mn mx F P) Z (visited_nil rs) I BD') as H2. fold E0 in H2.
      destruct o as [rest| | |]; cbn in H2 |- *.
      * destruct H2 as [[-> B2]|[(c2 & w2 & E2 & B2)|(c2 & x2 & E2 & N2 & L2 & LE2 & B2)]].
        -- right. left. exists c, w. split; [exact E|]. lia.
        -- right. left. exists c, (w ++ c2 :: w2). split; [rewrite E, E2, <- app_assoc; reflexivity|]. lia.
        -- right. right. exists c2, x2. repeat split; try assumption; lia.
      * right. split; [exact LD|]. destruct H2 as [B2|[_ B2]]; lia.
      * right. split; [exact LD|]. destruct H2 as [B2|[_ B2]]; lia.
      * right. split; [exact LD|]. destruct H2 as [B2|[_ B2]]; lia.
    + assert (OF' : off e s1) by (intros d y E2 X2; rewrite E in E2; injection E2 as <- _; apply NF; left; split; [exact RM|]; exists c; split; [reflexivity|exact X2]).
      pose proof (QR e _ _ s1 o k' C' [] S P2 (visited_nil rs) I OF') as H2. fold E0 in H2.
      apply (stuck_then _ F _ _ s s1 c x o k k' (E0 * expr_size e) E LD LE KB H2).
      intros rest ->. split; [|intro Y; apply NF; right; exact Y].
      inversion C' as [| |? ? ? ? ? ? ? ? ? C2| | |? ? ? ? ? ? C2 HC]; subst; try reflexivity.
      * match goal with C2 : costs G e _ (OM _) _ |- _ => destruct (run_match _ _ _ _ C2 (shape_sane e S)) as [[-> EM]|(d & y & E2 & X2)] end; [destruct (P2 EM)|destruct (OF' _ _ E2 X2)].
      * match goal with C2 : costs G e _ (OM _) _ |- _ => destruct (run_match _ _ _ _ C2 (shape_sane e S)) as [[-> EM]|(d & y & E2 & X2)] end; [destruct (P2 EM)|destruct (OF' _ _ E2 X2)].
      * destruct HC; discriminate.
  - intros e mx s k C IH v F S P Z V L BD. pose proof P as (P1 & P2 & P3). specialize (IH v _ S P1 Z V L). cbn in IH. destruct IH as [KB|[(c & x & E & X) KB]].
    + left. split; [reflexivity|exact KB].
    + right. right. exists c, x. split; [exact E|]. split; [exact (P3 c X)|]. split; [exists c, x; split; assumption|]. split; [lia|lia].
  - intros e mn mx s k _ C IH v F S P Z V L BD. pose proof P as (P1 & P2 & P3). specialize (IH v _ S P1 Z V L). cbn in IH |- *.
    destruct IH as [KB|[LD KB]]; [left; exact KB|right; split; [exact LD|lia]].
  - intros e mn mx s o k C IH HO v F S P Z V L BD. pose proof P as (P1 & P2 & P3). specialize (IH v _ S P1 Z V L).
    apply (paid_stopped _ _ _ _ _ _ _ (halt_stop o HO)). destruct (paid_stop _ _ _ _ _ _ _ (halt_stop o HO) IH) as [KB|[LD KB]]; [left; exact KB|right; split; [exact LD|lia]].
Qed.

Lemma linear : G main <> None -> follow main None -> forall fuel s d, parse_calls fuel s rs d <= (2 * K + Q [] 1) * (length s + 1).
Proof.
  intros DM FM fuel s d.
  pose proof (expr_counts rs SR (S fuel) (status_init_debug s d) (RuleName main) I (inv_init s d)) as C.
  change (tally Nat.add rs (S fuel) (status_init_debug s d) (RuleName main)) with (S (parse_calls fuel s rs d)) in C.
  change (it_parsing (status_init_debug s d)) with s in C.
  destruct (G main) as [e|] eqn:E; [|congruence]. pose proof (body_size rs main e E) as BS. fold B in BS.
  assert (B1 : 1 <= B) by (pose proof (size_pos e); lia).
  assert (PM : predictive G follow (RuleName main) (fun o => o = None)) by (split; [congruence|intros o ->; exact FM]).
  pose proof (proj1 all_paid _ _ _ _ C [] (fun o => o = None) I PM B1 (visited_nil rs) I) as H. cbn [expr_size] in H. fold E0 in H.
  pose proof (E0_W 1 B1) as EW. pose proof (Q_ge [] 1) as QG. assert (X : S (parse_calls fuel s rs d) <= T s + Q [] 1).
  { remember (ends _) as o eqn:HO. clear HO. destruct o as [rest| | |]; cbn in H.
    - destruct H as [[_ H]|[(c & w & _ & H)|(c & x & _ & _ & _ & _ & H)]]; lia.
    - destruct H as [H|[_ H]]; lia.
    - destruct H as [H|[_ H]]; lia.
    - destruct H as [H|[_ H]]; lia. }
  unfold T in X. nia.
Qed.
End Linear.

Lemma predictive_linear : forall rs, sane_rules rs -> well_formed (grammar_of rs) -> predictive_grammar (grammar_of rs) -> productive (grammar_of rs) ->
  exists c, forall fuel s d, parse_calls fuel s rs d <= c * (length s + 1).
Proof.
  intros rs SR [NLR _] (follow & FM & DM & PG) PR. eexists. intros fuel s d. exact (linear rs SR NLR PR follow PG DM FM fuel s d).
Qed.

(* ------------------------------------------------------------------------------------------- *)
(** * Checking that every part of every rule generates something *)

Fixpoint makes (known : list str) (e : expr) : bool :=
  match e with
  | Simple (Match cs rg) => match cs with [] => existsb (fun p => (fst p <=? snd p)%N) rg | _ => true end
  | Simple (AError _) => false
  | Simple _ => true
  | And es => forallb (makes known) es
  | Or es => existsb (makes known) es
  | Not _ => true
  | Repeat x mn _ => (mn =? 0) || makes known x
  | RuleName n => existsb (str_eqb n) known
  end.

Fixpoint all_make (known : list str) (e : expr) : bool :=
  makes known e &&
  match e with
  | Simple _ | RuleName _ => true
  | And es | Or es => forallb (all_make known) es
  | Not x | Repeat x _ _ => all_make known x
  end.

(** [order] lists the rules so that each one can generate something with the help of those after it. *)
Fixpoint ordered (rs : rules) (order : list str) : bool :=
  match order with
  | [] => true
  | n :: r => match rules_get rs n with Some e => makes r e | None => false end && ordered rs r
  end.

Definition productive_check (order : list str) (rs : rules) : bool := ordered rs order && forallb (fun p => all_make order (snd p)) rs.

Lemma makes_ok : forall rs known, (forall n, In n known -> gen rs (RuleName n)) -> forall e, sane e -> makes known e = true -> gen rs e.
Proof.
  intros rs known KN. induction e as [a|es IH|es IH|x IH|x mn mx IH|n] using expr_ind'; intros S H.
  - destruct a as [l|cs rg|m| |]; [eexists _, _; constructor| |discriminate|exists [0%N]; eexists; constructor|eexists _, _; constructor].
    destruct cs as [|c cs].
    + cbn in H. apply existsb_exists in H. destruct H as ([lo hi] & I & L). apply N.leb_le in L. exists [lo]. eexists. constructor.
      right. exists lo, hi. split; [exact I|]. cbn in L. lia.
    + exists [c]. eexists. constructor. left. left. reflexivity.
  - induction es as [|x r IHr]; [exists [], []; constructor|]. inversion IH as [|y1 y2 H1 H2]; subst. cbn in H. apply andb_true_iff in H. destruct H as [A C], S as [S1 S2].
    destruct (H1 S1 A) as (w & ts & D). destruct (IHr H2 S2 C) as (v & us & D2). exists (w ++ v), (ts ++ us). apply d_and_cons; assumption.
  - cbn in H. apply existsb_exists in H. destruct H as (x & I & M). rewrite Forall_forall in IH. destruct (IH x I (sane_in es x S I) M) as (w & ts & D).
    exists w, ts. eapply d_or; eassumption.
  - exists [], []. constructor.
  - destruct S as [S1 S2]. cbn in H. apply orb_true_iff in H. destruct H as [H|H].
    + apply Nat.eqb_eq in H. subst mn. exists [], []. constructor.
    + apply gen_rep; [exact (IH S1 H)|]. destruct mx; [lia|exact I].
  - cbn in H. apply existsb_exists in H. destruct H as (m & I & E). apply str_eqb_eq in E. subst m. exact (KN n I).
Qed.

Lemma ordered_ok : forall rs order, sane_rules rs -> ordered rs order = true -> forall n, In n order -> gen rs (RuleName n).
Proof.
  intros rs order SR. induction order as [|m r IH]; intros H n I; [contradiction|]. cbn in H. apply andb_true_iff in H. destruct H as [A C].
  specialize (IH C). destruct I as [->|I]; [|exact (IH n I)]. destruct (rules_get rs n) as [e|] eqn:E; [|discriminate].
  destruct (makes_ok rs r IH e (SR n e E) A) as (w & ts & D). exists w, [Rule n ts]. eapply d_rule; eassumption.
Qed.

Lemma productive_check_ok : forall order rs, sane_rules rs -> productive_check order rs = true -> productive (grammar_of rs).
Proof.
  intros order rs SR H n e x E O. unfold productive_check in H. apply andb_true_iff in H. destruct H as [A C]. rewrite forallb_forall in C.
  specialize (C _ (rules_get_in _ _ _ E)). cbn [snd] in C.
  apply (makes_ok rs order (ordered_ok rs order SR A) x (sane_occurs x e O (SR n e E))).
  assert (K : all_make order x = true).
  { clear - C O. induction O as [|e l I O IH|e l I O IH|e O IH|e mn mx O IH]; [exact C| | | |]; apply IH; cbn [all_make] in C; apply andb_true_iff in C; destruct C as [_ C].
    - rewrite forallb_forall in C. exact (C e I).
    - rewrite forallb_forall in C. exact (C e I).
    - exact C.
    - exact C. }
  destruct x; cbn [all_make] in K; apply andb_true_iff in K; tauto.
Qed.

(* ------------------------------------------------------------------------------------------- *)
(** * Rules with alternatives that generate nothing *)

(** [main = '(' main never / '(' main never / 'z'], where [never] is an empty class. *)
Definition never : expr := ematch [] [].
Definition hopeless : expr := And [lit (s_ "("); ref_rule main; never].
Definition hopeless_rules : rules := rules_macro [(main, Or [hopeless; hopeless; lit (s_ "z")])].

Lemma hopeless_sane : sane_rules hopeless_rules.
Proof. apply sane_rules_all. repeat constructor. Qed.

Lemma hopeless_wf : well_formed (grammar_of hopeless_rules).
Proof. apply wf_check_sound; vm_compute; reflexivity. Qed.

Lemma never_derives : forall w ts, ~ derives (grammar_of hopeless_rules) (And [never]) w ts.
Proof.
  intros w ts D. inversion D as [| | | | |e es w1 v1 ts1 us1 D1 D2| | | | |]; subst. inversion D1; subst.
  match goal with H : in_class [] [] _ |- _ => destruct H as [[]|(lo & hi & [] & _)] end.
Qed.

Lemma hopeless_derives : forall w ts, ~ derives (grammar_of hopeless_rules) hopeless w ts.
Proof.
  intros w ts D. inversion D as [| | | | |e es w1 v1 ts1 us1 D1 D2| | | | |]; subst.
  inversion D2 as [| | | | |e es w2 v2 ts2 us2 D3 D4| | | | |]; subst. exact (never_derives _ _ D4).
Qed.

Lemma hopeless_predictive : predictive_grammar (grammar_of hopeless_rules).
Proof.
  exists (fun _ o => o = None). split; [reflexivity|]. split; [discriminate|].
  assert (H : predictive (grammar_of hopeless_rules) (fun _ o => o = None) hopeless (fun o => o = None)).
  { split; [exact I|]. split; [|split; exact I]. split; [discriminate|].
    intros o [(c & _ & w & ts & D)|[[ts D] _]]; destruct (never_derives _ _ D). }
  assert (NE : ~ empty (grammar_of hopeless_rules) hopeless) by (intros [ts D]; exact (hopeless_derives _ _ D)).
  assert (NS : forall c, ~ starts (grammar_of hopeless_rules) hopeless c) by (intros c (w & ts & D); exact (hopeless_derives _ _ D)).
  assert (NL : forall c, ~ before_ (grammar_of hopeless_rules) (Or []) (fun o => o = None) (Some c)).
  { intros c [(d & _ & w & ts & D)|[[ts D] _]]; inversion D as [| | | | | |e es w1 ts1 I1| | | |]; destruct I1. }
  intros n e E. assert (X : e = Or [hopeless; hopeless; lit (s_ "z")]).
  { unfold grammar_of, hopeless_rules, rules_macro in E. apply rules_get_in in E. destruct E as [E|[]]. injection E as _ <-. reflexivity. }
  subst e.
  split; [exact H|]. split; [intros _; exact NE|]. split; [intros c X; destruct (NS c X)|].
  split; [exact H|]. split; [intros _; exact NE|]. split; [intros c X; destruct (NS c X)|].
  split; [exact I|]. split; [intro X; congruence|]. split; [intros c _; exact (NL c)|exact I].
Qed.

Definition hopeless_ending (n : nat) : ending := match n with 0 => OM [] | _ => OF end.

Lemma hopeless_cost : forall n, exists k, costs (grammar_of hopeless_rules) (RuleName main) (nested_text n) (hopeless_ending n) k /\ 2 ^ n < k.
Proof.
  set (G := grammar_of hopeless_rules). induction n as [|n (k & C & L)].
  - exists 7. split; [|cbn; lia].
    assert (F : costs G hopeless (s_ "z") OF 2).
    { apply c_and, ca_fail, c_fail. apply (peg_lit_fail G (s_ "(")). intros rest E. discriminate. }
    eapply (c_rule G main _ (s_ "z") (OM []) 6); [reflexivity|]. apply (c_or G _ _ _ 5).
    apply (co_next G _ _ _ _ 2 3); [exact F|]. apply (co_next G _ _ _ _ 2 1); [exact F|].
    apply co_match. apply (c_match G _ _ [Val (s_ "z")]). apply (peg_lit_ok G (s_ "z") []).
  - assert (F : exists j, costs G hopeless (nested_text (S n)) OF j /\ k < j).
    { destruct n as [|n].
      - exists (S (1 + (k + 1))). split; [|lia]. apply c_and. eapply ca_cons.
        + apply (c_match G _ _ [Val (s_ "(")]). apply (peg_lit_ok G (s_ "(") (nested_text 0)).
        + eapply ca_cons; [exact C|]. apply ca_fail, c_fail. apply peg_class_fail. discriminate.
      - exists (S (1 + k)). split; [|lia]. apply c_and. eapply ca_cons.
        + apply (c_match G _ _ [Val (s_ "(")]). apply (peg_lit_ok G (s_ "(") (nested_text (S n))).
        + apply ca_fail. exact C. }
    destruct F as (j & F & LJ). exists (S (S (j + (j + (1 + 0))))). split; [|cbn [Nat.pow]; lia].
    eapply c_rule; [reflexivity|]. apply c_or. eapply co_next; [exact F|]. eapply co_next; [exact F|]. eapply co_next; [|apply co_nil].
    apply c_fail. apply (peg_lit_fail G (s_ "z")). intros rest E. discriminate.
Qed.

Lemma hopeless_exponential : exists rs, sane_rules rs /\ well_formed (grammar_of rs) /\ predictive_grammar (grammar_of rs) /\
  forall n, exists s, length s = n + 1 /\ ascii s /\ forall fuel d, parse_with_debug fuel s rs d <> Fuel -> 2 ^ n <= parse_calls fuel s rs d.
Proof.
  exists hopeless_rules. split; [exact hopeless_sane|]. split; [exact hopeless_wf|]. split; [exact hopeless_predictive|].
  intro n. exists (nested_text n). split; [unfold nested_text; rewrite app_length, repeat_length; reflexivity|]. split; [apply nested_ascii|].
  intros fuel d N. destruct (hopeless_cost n) as (k & C & L).
  pose proof (parse_calls_run _ _ _ _ _ _ hopeless_sane (nested_ascii n) N C ltac:(destruct n; discriminate)). lia.
Qed.
