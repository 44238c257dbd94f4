(** Renaming rules renames the result and changes nothing else. *)
From Verif Require Import Base ModelAst ModelParser SpecPeg SpecPos SpecReport SpecApi SpecAst SpecRename.
From Verif Require Import ProofParser ProofEngine ProofApi ProofSim ProofAst.

Section Rename.
Variable f : str -> str.
Variables rs rs' : rules.
Hypothesis RN : renamed f rs rs'.

Notation er := (error_renamed f rs).

Definition orel (o o' : option perror) : Prop :=
  match o, o' with Some x, Some y => er x y | None, None => True | _, _ => False end.

Record srel (a b : status) : Prop := SRel {
  sr_text : text2parse b = text2parse a;
  sr_it : it_parsing b = it_parsing a;
  sr_pos : st_pos b = st_pos a;
  sr_trace : trace_rules b = trace_rules a;
  sr_walk : Forall2 (entry_renamed f) (walking_rules a) (walking_rules b);
  sr_pot : orel (potential_error a) (potential_error b) }.

Definition rrel {A} (g : A -> A) (r1 r2 : outcome perror (status * A)) : Prop :=
  match r1, r2 with
  | Ok (a, x), Ok (b, y) => srel a b /\ y = g x
  | Err x, Err y => er x y
  | Panic, Panic => True
  | Fuel, Fuel => True
  | _, _ => False
  end.

Lemma from_rel : forall a b d p, srel a b ->
  match from_status a d p, from_status b d p with Some x, Some y => er x y | None, None => True | _, _ => False end.
Proof.
  intros a b d p [T I P R W _]. unfold from_status. rewrite T, P, I. destruct (slice _ _ _); [|exact Logic.I].
  constructor; try reflexivity; [exact W|left; reflexivity].
Qed.

Lemma err_rel : forall A (g : A -> A) a b d p, srel a b -> rrel g (err_status a d p) (err_status b d p).
Proof.
  intros A g a b d p R. pose proof (from_rel a b d p R) as H. unfold err_status.
  destruct (from_status a d p), (from_status b d p); cbn; tauto.
Qed.

Lemma get_rel : forall a b, srel a b ->
  match get_char a, get_char b with
  | inl (a', c), inl (b', c') => srel a' b' /\ c = c'
  | inr a', inr b' => srel a' b'
  | _, _ => False
  end.
Proof.
  intros a b R. destruct R as [T I P TR W PE]. unfold get_char. rewrite I, P. destruct (it_parsing a) as [|c rest] eqn:E; [constructor; congruence || assumption|].
  split; [|reflexivity]. constructor; cbn; try assumption; reflexivity.
Qed.

Lemma lit_rel : forall l chs a b, srel a b ->
  match parse_literal_loop l a chs, parse_literal_loop l b chs with
  | Ok a', Ok b' => srel a' b'
  | Err x, Err y => er x y
  | Panic, Panic => True
  | _, _ => False
  end.
Proof.
  intros l chs. induction chs as [|ch chs IH]; intros a b R; cbn [parse_literal_loop]; [exact R|].
  unfold parse_char. pose proof (get_rel a b R) as H.
  destruct (get_char a) as [[a' c]|a'], (get_char b) as [[b' c']|b']; try contradiction.
  - destruct H as [H ->]. destruct (N.eqb ch c'); [apply IH; exact H|].
    pose proof (from_rel a' b' (s_ "expected literal: <" ++ l ++ s_ ">") Normal H) as F.
    unfold err_normal, err_status. destruct (from_status a' _ _), (from_status b' _ _); try contradiction; assumption.
  - pose proof (from_rel a' b' (s_ "expected literal: <" ++ l ++ s_ ">") Normal H) as F.
    unfold err_normal, err_status. destruct (from_status a' _ _), (from_status b' _ _); try contradiction; assumption.
Qed.

Lemma atom_rel : forall x a b, srel a b -> rrel (rename_node f) (parse_atom a x) (parse_atom b x).
Proof.
  intros x a b R. destruct x as [l|cs rgs|m| |]; cbn [parse_atom].
  - unfold parse_literal. pose proof (lit_rel l l a b R) as H.
    destruct (parse_literal_loop l a l), (parse_literal_loop l b l); cbn; try contradiction; auto.
  - unfold parse_match. pose proof (get_rel a b R) as H.
    destruct (get_char a) as [[a' c]|a'], (get_char b) as [[b' c']|b']; try contradiction.
    + destruct H as [H ->]. destruct (match_char cs rgs c'); [cbn; auto|]. apply err_rel. exact H.
    + apply err_rel. exact H.
  - apply err_rel. exact R.
  - unfold parse_dot. pose proof (get_rel a b R) as H.
    destruct (get_char a) as [[a' c]|a'], (get_char b) as [[b' c']|b']; try contradiction.
    + destruct H as [H ->]. cbn; auto.
    + apply err_rel. exact H.
  - unfold parse_eof. pose proof (get_rel a b R) as H.
    destruct (get_char a) as [[a' c]|a'], (get_char b) as [[b' c']|b']; try contradiction.
    + destruct H as [H ->]. apply err_rel. exact H.
    + cbn; auto.
Qed.

Notation rns := (map (rename_node f)).

Section LoopsRel.
Variables pe1 pe2 : status -> expr -> result_expr.

Lemma and_rel : forall es,
  (forall a b e, In e es -> srel a b -> rrel rns (pe1 a e) (pe2 b (rename f e))) ->
  forall a b acc, srel a b -> rrel rns (parse_and pe1 a es acc) (parse_and pe2 b (map (rename f) es) (rns acc)).
Proof.
  induction es as [|e es IH]; intros H a b acc R; cbn [parse_and map]; [cbn; auto|].
  pose proof (H a b e (or_introl eq_refl) R) as X.
  destruct (pe1 a e) as [[a' x]|x| |], (pe2 b (rename f e)) as [[b' y]|y| |]; cbn in X; try contradiction; try exact I; [|exact X].
  destruct X as [X ->]. rewrite <- map_app. apply IH; [|exact X]. intros. apply H; [right|]; assumption.
Qed.

Lemma deep_err_rel : forall o1 o2 x y, orel o1 o2 -> er x y -> orel (deep_err o1 x) (deep_err o2 y).
Proof.
  intros o1 o2 x y O R. unfold deep_err. destruct o1 as [x0|], o2 as [y0|]; cbn in O; try contradiction; [|exact R].
  rewrite (ern_prio _ _ _ _ O), (ern_prio _ _ _ _ R), (ern_pos _ _ _ _ O), (ern_pos _ _ _ _ R).
  destruct (prio_gt (e_priority x0) (e_priority x)), (pn (e_pos x) <? pn (e_pos x0)); cbn; assumption.
Qed.

Lemma or_rel : forall es,
  (forall a b e, In e es -> srel a b -> rrel rns (pe1 a e) (pe2 b (rename f e))) ->
  forall a b o1 o2, srel a b -> orel o1 o2 -> rrel rns (parse_or pe1 a es o1) (parse_or pe2 b (map (rename f) es) o2).
Proof.
  induction es as [|e es IH]; intros H a b o1 o2 R O; cbn [parse_or map].
  - destruct o1 as [x|], o2 as [y|]; cbn in O; try contradiction; [exact O|]. apply err_rel. exact R.
  - pose proof (H a b e (or_introl eq_refl) R) as X.
    destruct (pe1 a e) as [[a' x]|x| |], (pe2 b (rename f e)) as [[b' y]|y| |]; cbn in X; try contradiction; try exact X.
    rewrite (ern_prio _ _ _ _ X). destruct (is_critical (e_priority x)); [exact X|].
    apply IH; [intros; apply H; [right|]; assumption|exact R|]. apply deep_err_rel; assumption.
Qed.

Lemma not_rel : forall e a b,
  rrel rns (pe1 a e) (pe2 b (rename f e)) -> srel a b -> rrel rns (parse_not pe1 a e) (parse_not pe2 b (rename f e)).
Proof.
  intros e a b X R. unfold parse_not.
  destruct (pe1 a e) as [[a' x]|x| |], (pe2 b (rename f e)) as [[b' y]|y| |]; cbn in X; try contradiction; try exact I.
  - apply err_rel. exact R.
  - cbn. auto.
Qed.

Lemma repeat_rel : forall e mn mx,
  (forall a b, srel a b -> rrel rns (pe1 a e) (pe2 b (rename f e))) ->
  forall k a b c acc, srel a b -> rrel rns (parse_repeat k pe1 a e mn mx c acc) (parse_repeat k pe2 b (rename f e) mn mx c (rns acc)).
Proof.
  intros e mn mx H. induction k as [|k IH]; intros a b c acc R; cbn [parse_repeat]; [exact I|].
  pose proof (H a b R) as X.
  destruct (pe1 a e) as [[a' x]|x| |], (pe2 b (rename f e)) as [[b' y]|y| |]; cbn in X; try contradiction; try exact I.
  - destruct X as [X ->]. rewrite <- map_app. destruct (touch_max_bound mx c); [cbn; auto|]. apply IH. exact X.
  - rewrite (ern_prio _ _ _ _ X). destruct (big_min_bound mn c); [|exact X].
    destruct (is_critical (e_priority x)); [exact X|]. cbn. split; [|reflexivity]. destruct R. constructor; assumption.
Qed.

End LoopsRel.

Lemma push_rel : forall a b n, srel a b ->
  srel (if trace_rules a then push_rule a (s_ "r:" ++ n) else a) (if trace_rules b then push_rule b (s_ "r:" ++ f n) else b).
Proof.
  intros a b n R. destruct R as [T I P TR W PE]. rewrite TR. destruct (trace_rules a) eqn:Q; [|constructor; try assumption; congruence].
  constructor; cbn; try assumption; [congruence|]. apply Forall2_app; [exact W|]. constructor; [|constructor]. exists n. split; reflexivity.
Qed.

Lemma rule_rel : forall pe1 pe2 n a b, reachable rs n -> srel a b ->
  (forall a b e, rules_get rs n = Some e -> srel a b -> rrel rns (pe1 a e) (pe2 b (rename f e))) ->
  rrel (rename_node f) (parse_rule_name pe1 rs a n) (parse_rule_name pe2 rs' b (f n)).
Proof.
  intros pe1 pe2 n a b Hn R H. unfold parse_rule_name. rewrite (proj2 RN n Hn).
  pose proof (push_rel a b n R) as P. destruct (rules_get rs n) as [e|] eqn:E; cbn [option_map].
  - pose proof (H _ _ e eq_refl P) as X.
    destruct (pe1 _ e) as [[a' x]|x| |], (pe2 _ (rename f e)) as [[b' y]|y| |]; cbn [bind rrel] in *; try contradiction; try exact I; try exact X.
    destruct X as [X ->]. auto.
  - destruct P as [T I P TR W PE]. unfold err_status, from_status. rewrite T, P, I. destruct (slice _ _ _); [|exact Logic.I].
    constructor; try reflexivity; [exact W|]. right. split; [reflexivity|]. exists n. repeat split; assumption.
Qed.

Lemma expr_rel : forall k a b e, (forall n, has_ref n e -> reachable rs n) -> srel a b ->
  rrel rns (parse_expr rs k a e) (parse_expr rs' k b (rename f e)).
Proof.
  induction k as [|k IH]; intros a b e He R; [exact I|].
  destruct e as [x|es|es|e1|e1 mn mx|n]; cbn [parse_expr rename].
  - pose proof (atom_rel x a b R) as X.
    destruct (parse_atom a x) as [[a' t]|t| |], (parse_atom b x) as [[b' u]|u| |]; cbn in *; try contradiction; auto.
    destruct X as [X ->]. auto.
  - apply (and_rel _ _ es); [|exact R]. intros a0 b0 e Hin R0. apply IH; [|exact R0]. intros n Hn. apply He. eapply hr_and; eassumption.
  - apply (or_rel _ _ es); [|exact R|exact I]. intros a0 b0 e Hin R0. apply IH; [|exact R0]. intros n Hn. apply He. eapply hr_or; eassumption.
  - apply not_rel; [|exact R]. apply IH; [|exact R]. intros n Hn. apply He. constructor. exact Hn.
  - apply (repeat_rel _ _ e1 mn mx); [|exact R]. intros a0 b0 R0. apply IH; [|exact R0]. intros n Hn. apply He. constructor. exact Hn.
  - assert (Hn : reachable rs n) by (apply He; constructor).
    pose proof (rule_rel (parse_expr rs k) (parse_expr rs' k) n a b Hn R) as X.
    assert (Y : forall a b e, rules_get rs n = Some e -> srel a b -> rrel rns (parse_expr rs k a e) (parse_expr rs' k b (rename f e))).
    { intros a0 b0 e E R0. apply IH; [|exact R0]. intros m Hm. eapply reach_step; eassumption. }
    specialize (X Y).
    destruct (parse_rule_name _ rs a n) as [[a' t]|t| |], (parse_rule_name _ rs' b (f n)) as [[b' u]|u| |];
      cbn in *; try contradiction; auto.
    destruct X as [X ->]. auto.
Qed.

Lemma parse_renamed : forall fuel s d, outcome_renamed f rs (parse_with_debug fuel s rs d) (parse_with_debug fuel s rs' d).
Proof.
  intros fuel s d. rewrite !parse_unfold.
  assert (S0 : srel (status_init_debug s d) (status_init_debug s d)) by (constructor; cbn; auto).
  assert (X : rrel (rename_node f) (expression_parse rs fuel (status_init_debug s d)) (expression_parse rs' fuel (status_init_debug s d))).
  { unfold expression_parse. change (s_ "main") with main. rewrite <- (proj1 RN) at 2. apply rule_rel; [apply reach_main|exact S0|].
    intros a b e E R. apply expr_rel; [|exact R]. intros m Hm. eapply reach_step; [apply reach_main|exact E|exact Hm]. }
  destruct (expression_parse rs fuel _) as [[a t]|x| |], (expression_parse rs' fuel _) as [[b u]|y| |]; cbn [bind rrel] in *; try contradiction; try exact I; try exact X.
  destruct X as [R ->]. rewrite (sr_pos _ _ R). destruct (pn (st_pos a) =? byte_len s); [reflexivity|].
  pose proof (sr_pot _ _ R) as P. destruct (potential_error a), (potential_error b); cbn in P; try contradiction; [exact P|].
  pose proof (from_rel a b (s_ "not consumed full input") Normal R) as F. unfold err_normal, err_status.
  destruct (from_status a _ _), (from_status b _ _); try contradiction; exact F.
Qed.

End Rename.

(** Renaming every definition and reference, injectively on the names in use, renames. *)
Lemma rename_rules_renamed : forall f rs, f main = main ->
  (forall n m, In n (map fst rs) -> (In m (map fst rs) \/ reachable rs m) -> f n = f m -> n = m) ->
  renamed f rs (rename_rules f rs).
Proof.
  intros f rs M J. split; [exact M|]. intros n Hn.
  assert (L : forall l, (forall k, In k (map fst l) -> In k (map fst rs)) -> rules_get (rename_rules f l) (f n) = option_map (rename f) (rules_get l n)).
  { induction l as [|[k e] l IH]; intro S; [reflexivity|]. cbn [rename_rules map fst snd rules_get].
    destruct (str_eqb k n) eqn:E.
    - apply str_eqb_eq in E. subst k. rewrite str_eqb_refl. reflexivity.
    - destruct (str_eqb (f k) (f n)) eqn:E2.
      + apply str_eqb_eq in E2. apply str_eqb_neq in E. exfalso. apply E. apply J; [apply S; left; reflexivity|right; exact Hn|exact E2].
      + apply IH. intros x Hx. apply S. right. exact Hx. }
  apply L. auto.
Qed.

(** Names can be confused if their rules are the same after it. *)
Lemma rename_first : forall f n l,
  (rules_get (rename_rules f l) (f n) = None /\ rules_get l n = None) \/
  exists k, In k (map fst l) /\ f k = f n /\ rules_get (rename_rules f l) (f n) = option_map (rename f) (rules_get l k).
Proof.
  intros f n l. induction l as [|[k e] l IH]; [left; split; reflexivity|]. cbn [rename_rules map fst snd rules_get].
  destruct (str_eqb (f k) (f n)) eqn:E.
  - right. exists k. split; [left; reflexivity|]. split; [apply str_eqb_eq; exact E|]. rewrite str_eqb_refl. reflexivity.
  - destruct IH as [[H1 H2]|(k' & I & EK & H)].
    + left. split; [exact H1|]. destruct (str_eqb k n) eqn:E2; [|exact H2]. apply str_eqb_eq in E2. subst k. rewrite str_eqb_refl in E. discriminate.
    + right. exists k'. split; [right; exact I|]. split; [exact EK|]. rewrite H at 1. destruct (str_eqb k k') eqn:E2; [|reflexivity].
      apply str_eqb_eq in E2. subst k'. rewrite EK, str_eqb_refl in E. discriminate.
Qed.
Lemma merge_rules_renamed : forall f rs, f main = main ->
  (forall n m, In n (map fst rs) -> (In m (map fst rs) \/ reachable rs m) -> f n = f m -> option_map (rename f) (rules_get rs n) = option_map (rename f) (rules_get rs m)) ->
  renamed f rs (rename_rules f rs).
Proof.
  intros f rs M J. split; [exact M|]. intros n Hn. destruct (rename_first f n rs) as [[H1 H2]|(k & I & EK & H)]; [rewrite H1, H2; reflexivity|].
  rewrite H. apply J; [exact I|right; exact Hn|exact EK].
Qed.

Lemma rename_rules_unique : forall f rs, unique_names rs ->
  (forall n m, In n (map fst rs) -> (In m (map fst rs) \/ reachable rs m) -> f n = f m -> n = m) -> unique_names (rename_rules f rs).
Proof.
  intros f rs U J. unfold unique_names in *. unfold rename_rules. rewrite map_map. cbn [fst].
  assert (G : forall l, (forall k, In k (map fst l) -> In k (map fst rs)) -> NoDup (map fst l) -> NoDup (map (fun p : str * expr => f (fst p)) l)).
  { induction l as [|[k e] l IH]; intros S N; [constructor|]. cbn [map fst] in *. inversion N as [|? ? N1 N2]; subst. constructor.
    - intro H. apply in_map_iff in H. destruct H as ([k2 e2] & E & H). cbn in E. apply N1.
      assert (k2 = k). { apply J; [apply S; right; apply in_map_iff; exists (k2, e2); auto|left; apply S; left; reflexivity|exact E]. }
      subst. apply in_map_iff. exists (k, e2). auto.
    - apply IH; [|exact N2]. intros x Hx. apply S. right. exact Hx. }
  apply G; auto.
Qed.
