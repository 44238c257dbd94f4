(** A general simulation lemma: two runs of the engine, possibly with two rule sets and from two states. *)
From Verif Require Import Base ModelAst ModelParser SpecPeg SpecPos ProofParser ProofEngine.

(** The rule names referenced by an expression. *)
Fixpoint refs (e : expr) : list str :=
  match e with
  | Simple _ => []
  | And es | Or es => flat_map refs es
  | Not e1 => refs e1
  | Repeat e1 _ _ => refs e1
  | RuleName n => [n]
  end.

Section Sim.
Variables rs1 rs2 : rules.
Variable N : str -> Prop.                        (* names that may be followed *)
Variable Rs : status -> status -> Prop.
Variable Re : perror -> perror -> Prop.

Hypothesis Hrules : forall n, N n -> rules_get rs1 n = rules_get rs2 n.
Hypothesis Hclosed : forall n e m, N n -> rules_get rs1 n = Some e -> In m (refs e) -> N m.
Hypothesis Hit : forall a b, Rs a b -> it_parsing a = it_parsing b.
Hypothesis Hget : forall a b a' c b' c',
  Rs a b -> get_char a = inl (a', c) -> get_char b = inl (b', c') -> Rs a' b'.
Hypothesis Hfrom : forall a b d p, Rs a b ->
  match from_status a d p, from_status b d p with
  | Some x, Some y => Re x y
  | None, None => True
  | _, _ => False
  end.
Hypothesis Hset : forall a b x y, Rs a b -> Re x y -> Rs (set_potential_error a x) (set_potential_error b y).
Hypothesis Hpush : forall a b n, N n -> Rs a b ->
  Rs (if trace_rules a then push_rule a (s_ "r:" ++ n) else a)
     (if trace_rules b then push_rule b (s_ "r:" ++ n) else b).
Hypothesis Hprio : forall x y, Re x y -> e_priority x = e_priority y.
Hypothesis Hcmp : forall x y x' y', Re x y -> Re x' y' ->
  (pn (e_pos x') <? pn (e_pos x)) = (pn (e_pos y') <? pn (e_pos y)).

Definition Ro {A} (r1 r2 : outcome perror (status * A)) : Prop :=
  match r1, r2 with
  | Ok (a, x), Ok (b, y) => Rs a b /\ x = y
  | Err x, Err y => Re x y
  | Panic, Panic => True
  | Fuel, Fuel => True
  | _, _ => False
  end.

Definition Rop (o1 o2 : option perror) : Prop :=
  match o1, o2 with Some x, Some y => Re x y | None, None => True | _, _ => False end.

Lemma sim_err : forall A a b d p, Rs a b -> @Ro A (err_status a d p) (err_status b d p).
Proof.
  intros A a b d p R. pose proof (Hfrom a b d p R) as H. unfold err_status.
  destruct (from_status a d p), (from_status b d p); cbn; tauto.
Qed.

Lemma sim_get : forall a b, Rs a b ->
  match get_char a, get_char b with
  | inl (a', c), inl (b', c') => Rs a' b' /\ c = c'
  | inr a', inr b' => Rs a' b'
  | _, _ => False
  end.
Proof.
  intros a b R. pose proof (Hit a b R) as E. pose proof (Hget a b) as H.
  unfold get_char in *. rewrite <- E in *. destruct (it_parsing a) as [|c rest]; [exact R|].
  split; [|reflexivity]. eapply H; [exact R| |]; reflexivity.
Qed.

Lemma sim_lit : forall l chs a b, Rs a b ->
  match parse_literal_loop l a chs, parse_literal_loop l b chs with
  | Ok a', Ok b' => Rs a' b'
  | Err x, Err y => Re x y
  | Panic, Panic => True
  | _, _ => False
  end.
Proof.
  intros l chs. induction chs as [|ch chs IH]; intros a b R; cbn [parse_literal_loop]; [exact R|].
  unfold parse_char. pose proof (sim_get a b R) as H.
  destruct (get_char a) as [[a' c]|a'], (get_char b) as [[b' c']|b']; try contradiction.
  - destruct H as [H ->]. destruct (N.eqb ch c'); [apply IH; exact H|].
    pose proof (Hfrom a' b' (s_ "expected literal: <" ++ l ++ s_ ">") Normal H) as F.
    unfold err_normal, err_status. destruct (from_status a' _ _), (from_status b' _ _); try contradiction; assumption.
  - pose proof (Hfrom a' b' (s_ "expected literal: <" ++ l ++ s_ ">") Normal H) as F.
    unfold err_normal, err_status. destruct (from_status a' _ _), (from_status b' _ _); try contradiction; assumption.
Qed.

Lemma sim_atom : forall x a b, Rs a b -> Ro (parse_atom a x) (parse_atom b x).
Proof.
  intros x a b R. destruct x as [l|cs rs|m| |]; cbn [parse_atom].
  - unfold parse_literal. pose proof (sim_lit l l a b R) as H.
    destruct (parse_literal_loop l a l), (parse_literal_loop l b l); cbn; try contradiction; auto.
  - unfold parse_match. pose proof (sim_get a b R) as H.
    destruct (get_char a) as [[a' c]|a'], (get_char b) as [[b' c']|b']; try contradiction.
    + destruct H as [H ->]. destruct (match_char cs rs c'); [cbn; auto|]. apply sim_err. exact H.
    + apply sim_err. exact H.
  - apply sim_err. exact R.
  - unfold parse_dot. pose proof (sim_get a b R) as H.
    destruct (get_char a) as [[a' c]|a'], (get_char b) as [[b' c']|b']; try contradiction.
    + destruct H as [H ->]. cbn; auto.
    + apply sim_err. exact H.
  - unfold parse_eof. pose proof (sim_get a b R) as H.
    destruct (get_char a) as [[a' c]|a'], (get_char b) as [[b' c']|b']; try contradiction.
    + destruct H as [H ->]. apply sim_err. exact H.
    + cbn; auto.
Qed.

Section LoopsSim.
Variables pe1 pe2 : status -> expr -> result_expr.

Lemma sim_and : forall es,
  (forall a b e, In e es -> Rs a b -> Ro (pe1 a e) (pe2 b e)) ->
  forall a b acc, Rs a b -> Ro (parse_and pe1 a es acc) (parse_and pe2 b es acc).
Proof.
  induction es as [|e es IH]; intros H a b acc R; cbn [parse_and]; [cbn; auto|].
  pose proof (H a b e (or_introl eq_refl) R) as X.
  destruct (pe1 a e) as [[a' x]|x| |], (pe2 b e) as [[b' y]|y| |]; cbn in X; try contradiction; try exact I; [|exact X].
  destruct X as [X ->]. apply IH; [|exact X]. intros. apply H; [right|]; assumption.
Qed.

Lemma deep_err_sim : forall o1 o2 x y, Rop o1 o2 -> Re x y -> Rop (deep_err o1 x) (deep_err o2 y).
Proof.
  intros o1 o2 x y O R. unfold deep_err. destruct o1 as [x0|], o2 as [y0|]; cbn in O; try contradiction; [|exact R].
  rewrite (Hprio _ _ O), (Hprio _ _ R), (Hcmp _ _ _ _ O R).
  destruct (prio_gt (e_priority y0) (e_priority y)), (pn (e_pos y) <? pn (e_pos y0)); cbn; assumption.
Qed.

Lemma sim_or : forall es,
  (forall a b e, In e es -> Rs a b -> Ro (pe1 a e) (pe2 b e)) ->
  forall a b o1 o2, Rs a b -> Rop o1 o2 -> Ro (parse_or pe1 a es o1) (parse_or pe2 b es o2).
Proof.
  induction es as [|e es IH]; intros H a b o1 o2 R O; cbn [parse_or].
  - destruct o1 as [x|], o2 as [y|]; cbn in O; try contradiction; [exact O|]. apply sim_err. exact R.
  - pose proof (H a b e (or_introl eq_refl) R) as X.
    destruct (pe1 a e) as [[a' x]|x| |], (pe2 b e) as [[b' y]|y| |]; cbn in X; try contradiction; try exact X.
    rewrite (Hprio _ _ X). destruct (is_critical (e_priority y)); [exact X|].
    apply IH; [intros; apply H; [right|]; assumption|exact R|]. apply deep_err_sim; assumption.
Qed.

Lemma sim_not : forall e a b,
  Ro (pe1 a e) (pe2 b e) -> Rs a b -> Ro (parse_not pe1 a e) (parse_not pe2 b e).
Proof.
  intros e a b X R. unfold parse_not.
  destruct (pe1 a e) as [[a' x]|x| |], (pe2 b e) as [[b' y]|y| |]; cbn in X; try contradiction; try exact I.
  - apply sim_err. exact R.
  - cbn. auto.
Qed.

Lemma sim_repeat : forall e mn mx,
  (forall a b, Rs a b -> Ro (pe1 a e) (pe2 b e)) ->
  forall f a b c acc, Rs a b -> Ro (parse_repeat f pe1 a e mn mx c acc) (parse_repeat f pe2 b e mn mx c acc).
Proof.
  intros e mn mx H. induction f as [|f IH]; intros a b c acc R; cbn [parse_repeat]; [exact I|].
  pose proof (H a b R) as X.
  destruct (pe1 a e) as [[a' x]|x| |], (pe2 b e) as [[b' y]|y| |]; cbn in X; try contradiction; try exact I.
  - destruct X as [X ->]. destruct (touch_max_bound mx c); [cbn; auto|]. apply IH. exact X.
  - rewrite (Hprio _ _ X). destruct (big_min_bound mn c); [|exact X].
    destruct (is_critical (e_priority y)); [exact X|]. cbn. auto.
Qed.

End LoopsSim.

Lemma sim_rule_name : forall pe1 pe2 n a b,
  N n -> Rs a b ->
  (forall a b e, rules_get rs1 n = Some e -> Rs a b -> Ro (pe1 a e) (pe2 b e)) ->
  Ro (parse_rule_name pe1 rs1 a n) (parse_rule_name pe2 rs2 b n).
Proof.
  intros pe1 pe2 n a b Hn R H. unfold parse_rule_name. rewrite <- (Hrules n Hn).
  pose proof (Hpush a b n Hn R) as P. destruct (rules_get rs1 n) as [e|] eqn:E; [|apply sim_err; exact P].
  pose proof (H _ _ e eq_refl P) as X.
  destruct (pe1 _ e) as [[a' x]|x| |], (pe2 _ e) as [[b' y]|y| |]; cbn in *; try contradiction; try exact I; try exact X.
  destruct X as [X ->]. auto.
Qed.

Lemma sim_expr : forall f a b e, (forall n, In n (refs e) -> N n) -> Rs a b ->
  Ro (parse_expr rs1 f a e) (parse_expr rs2 f b e).
Proof.
  induction f as [|f IH]; intros a b e He R; [exact I|].
  destruct e as [x|es|es|e1|e1 mn mx|n]; cbn [parse_expr].
  - pose proof (sim_atom x a b R) as X.
    destruct (parse_atom a x) as [[a' t]|t| |], (parse_atom b x) as [[b' u]|u| |]; cbn in *; try contradiction; auto.
    destruct X as [X ->]. auto.
  - apply sim_and; [|exact R]. intros a0 b0 e Hin R0. apply IH; [|exact R0]. intros n Hn. apply He.
    cbn. apply in_flat_map. eauto.
  - apply sim_or; [|exact R|exact I]. intros a0 b0 e Hin R0. apply IH; [|exact R0]. intros n Hn. apply He.
    cbn. apply in_flat_map. eauto.
  - apply sim_not; [|exact R]. apply IH; assumption.
  - apply sim_repeat; [|exact R]. intros a0 b0 R0. apply IH; assumption.
  - assert (Hn : N n) by (apply He; left; reflexivity).
    pose proof (sim_rule_name (parse_expr rs1 f) (parse_expr rs2 f) n a b Hn R) as X.
    assert (Y : forall a b e, rules_get rs1 n = Some e -> Rs a b -> Ro (parse_expr rs1 f a e) (parse_expr rs2 f b e)).
    { intros a0 b0 e E R0. apply IH; [|exact R0]. intros m Hm. eapply Hclosed; eassumption. }
    specialize (X Y).
    destruct (parse_rule_name _ rs1 a n) as [[a' t]|t| |], (parse_rule_name _ rs2 b n) as [[b' u]|u| |];
      cbn in *; try contradiction; auto.
    destruct X as [X ->]. auto.
Qed.

Lemma sim_main : forall f a b, N (s_ "main") -> Rs a b ->
  Ro (expression_parse rs1 f a) (expression_parse rs2 f b).
Proof.
  intros f a b Hm R. unfold expression_parse. apply sim_rule_name; [exact Hm|exact R|].
  intros a0 b0 e E R0. apply sim_expr; [|exact R0]. intros n Hn. eapply Hclosed; eassumption.
Qed.

End Sim.
