(** Runs of the parser with the number of calls they make, as a relation on texts (C54). *)
From Verif Require Import Base ModelAst ModelParser ModelCost SpecPeg SpecPos SpecApi ProofParser ProofEngine PegTools.

(** How a run ends: it matches and leaves a rest, fails, aborts, or is cut off (by a panic, or for lack of fuel). *)
Inductive ending : Type := OM (rest : str) | OF | OA | OC.

Definition halts (o : ending) : Prop := o = OA \/ o = OC.

Section Runs.
Variable G : str -> option expr.

(** [costs e s o k]: a run of [e] on [s] makes [k] calls and ends with [o]. *)
Inductive costs : expr -> str -> ending -> nat -> Prop :=
| c_none e s : costs e s OC 0
| c_cut a s : costs (Simple a) s OC 1
| c_match a s ts rest : peg G (Simple a) s (PMatch ts rest) -> costs (Simple a) s (OM rest) 1
| c_fail a s : peg G (Simple a) s PFail -> costs (Simple a) s OF 1
| c_abort a s m rest : peg G (Simple a) s (PAbort m rest) -> costs (Simple a) s OA 1
| c_and es s o k : costs_and es s o k -> costs (And es) s o (S k)
| c_or es s o k : costs_or es s o k -> costs (Or es) s o (S k)
| c_not_fail e s rest k : costs e s (OM rest) k -> costs (Not e) s OF (S k)
| c_not_ok e s o k : costs e s o k -> o = OF \/ o = OA -> costs (Not e) s (OM s) (S k)
| c_not_cut e s o k : costs e s o k -> costs (Not e) s OC (S k)
| c_rep e mn mx s o k : costs_rep e mn mx s o k -> costs (Repeat e mn mx) s o (S k)
| c_rule n e s o k : G n = Some e -> costs e s o k -> costs (RuleName n) s o (S k)
| c_missing n s o : G n = None -> halts o -> costs (RuleName n) s o 1
with costs_and : list expr -> str -> ending -> nat -> Prop :=
| ca_nil s : costs_and [] s (OM s) 0
| ca_cons e es s s1 o k k' : costs e s (OM s1) k -> costs_and es s1 o k' -> costs_and (e :: es) s o (k + k')
| ca_fail e es s k : costs e s OF k -> costs_and (e :: es) s OF k
| ca_halt e es s o k : costs e s o k -> halts o -> costs_and (e :: es) s o k
with costs_or : list expr -> str -> ending -> nat -> Prop :=
| co_nil s : costs_or [] s OF 0
| co_cut s : costs_or [] s OC 0
| co_match e es s s1 k : costs e s (OM s1) k -> costs_or (e :: es) s (OM s1) k
| co_halt e es s o k : costs e s o k -> halts o -> costs_or (e :: es) s o k
| co_next e es s o k k' : costs e s OF k -> costs_or es s o k' -> costs_or (e :: es) s o (k + k')
with costs_rep : expr -> nat -> option nat -> str -> ending -> nat -> Prop :=
| cr_cut e mn mx s : costs_rep e mn mx s OC 0
| cr_last e mn s s1 k : costs e s (OM s1) k -> costs_rep e mn (Some 1) s (OM s1) k
| cr_more e mn mx s s1 o k k' : mx <> Some 1 -> costs e s (OM s1) k -> costs_rep e (pred mn) (option_map pred mx) s1 o k' ->
    costs_rep e mn mx s o (k + k')
| cr_done e mx s k : costs e s OF k -> costs_rep e 0 mx s (OM s) k
| cr_short e mn mx s k : 0 < mn -> costs e s OF k -> costs_rep e mn mx s OF k
| cr_halt e mn mx s o k : costs e s o k -> halts o -> costs_rep e mn mx s o k.

Scheme costs_m := Minimality for costs Sort Prop
  with costs_and_m := Minimality for costs_and Sort Prop
  with costs_or_m := Minimality for costs_or Sort Prop
  with costs_rep_m := Minimality for costs_rep Sort Prop.
Combined Scheme costs_mind from costs_m, costs_and_m, costs_or_m, costs_rep_m.

(** What a run says about the semantics. *)
Definition says (e : expr) (s : str) (o : ending) : Prop :=
  match o with
  | OM rest => exists ts, peg G e s (PMatch ts rest)
  | OF => peg G e s PFail
  | OA => exists m rest, peg G e s (PAbort m rest)
  | OC => True
  end.

Hypothesis SG : forall n e, G n = Some e -> sane e.

Lemma says_halt : forall e e' s s' o, halts o -> (forall m rest, peg G e s (PAbort m rest) -> peg G e' s' (PAbort m rest)) ->
  says e s o -> says e' s' o.
Proof. intros e e' s s' o [->| ->] H; cbn; [|exact id]. intros (m & rest & P). exists m, rest. apply H, P. Qed.

Lemma costs_says :
  (forall e s o k, costs e s o k -> sane e -> says e s o) /\
  (forall es s o k, costs_and es s o k -> Forall sane es -> says (And es) s o) /\
  (forall es s o k, costs_or es s o k -> Forall sane es -> says (Or es) s o) /\
  (forall e mn mx s o k, costs_rep e mn mx s o k -> sane e -> (match mx with None => True | Some m => 1 <= m /\ mn <= m end) ->
     says (Repeat e mn mx) s o).
Proof.
  apply costs_mind.
  - intros e s _. exact I.
  - intros a s _. exact I.
  - intros a s ts rest P _. exists ts. exact P.
  - intros a s P _. exact P.
  - intros a s m rest P _. exists m, rest. exact P.
  - intros es s o k _ H S. apply H. apply sane_list. exact S.
  - intros es s o k _ H S. apply H. apply sane_list. exact S.
  - intros e s rest k _ H S. destruct (H S) as [ts P]. cbn. eapply peg_not_fail. exact P.
  - intros e s o k _ H [->| ->] S; cbn; exists [].
    + eapply peg_not_ok; [exact (H S)|exact I].
    + destruct (H S) as (m & rest & P). eapply peg_not_ok; [exact P|exact I].
  - intros e s o k _ _ _. exact I.
  - intros e mn mx s o k _ H [S1 S2]. apply H; assumption.
  - intros n e s o k E _ H _. specialize (H (SG n e E)). destruct o as [rest| | |]; cbn in *.
    + destruct H as [ts P]. exists [Rule n ts]. exact (peg_rule G n e s _ E P).
    + exact (peg_rule G n e s _ E H).
    + destruct H as (m & rest & P). exists m, rest. exact (peg_rule G n e s _ E P).
    + exact I.
  - intros n s o E [->| ->] _; cbn; [|exact I]. do 2 eexists. apply peg_rule_missing. exact E.
  - intros s _. exists []. constructor.
  - intros e es s s1 o k k' _ H _ H' S. inversion S as [|? ? S1 S2]; subst. destruct (H S1) as [ts P]. specialize (H' S2).
    destruct o as [rest| | |]; cbn in *.
    + destruct H' as [us Q]. exists (ts ++ us). exact (peg_and_cons G e es s ts s1 _ P Q).
    + exact (peg_and_cons G e es s ts s1 _ P H').
    + destruct H' as (m & rest & Q). exists m, rest. exact (peg_and_cons G e es s ts s1 _ P Q).
    + exact I.
  - intros e es s k _ H S. inversion S as [|? ? S1 S2]; subst. cbn. apply peg_and_stop; [exact (H S1)|exact I].
  - intros e es s o k _ H L S. inversion S as [|? ? S1 S2]; subst. eapply says_halt; [exact L| |exact (H S1)].
    intros m rest P. apply peg_and_stop; [exact P|exact I].
  - intros s _. constructor.
  - intros s _. exact I.
  - intros e es s s1 k _ H S. inversion S as [|? ? S1 S2]; subst. destruct (H S1) as [ts P]. exists ts. apply peg_or_first; [exact P|discriminate].
  - intros e es s o k _ H L S. inversion S as [|? ? S1 S2]; subst. eapply says_halt; [exact L| |exact (H S1)].
    intros m rest P. apply peg_or_first; [exact P|discriminate].
  - intros e es s o k k' _ H _ H' S. inversion S as [|? ? S1 S2]; subst. specialize (H S1). specialize (H' S2). cbn in H.
    destruct o as [rest| | |]; cbn in *.
    + destruct H' as [us Q]. exists us. apply peg_or_next; assumption.
    + apply peg_or_next; assumption.
    + destruct H' as (m & rest & Q). exists m, rest. apply peg_or_next; assumption.
    + exact I.
  - intros e mn mx s _ _. exact I.
  - intros e mn s s1 k _ H S B. destruct (H S) as [ts P]. exists (ts ++ []). assert (M : pred mn = 0) by lia.
    apply (peg_rep_more G e mn (Some 1) s ts s1 (PMatch [] s1)); [discriminate|exact P|]. rewrite M. constructor.
  - intros e mn mx s s1 o k k' N _ H _ H' S B. destruct (H S) as [ts P].
    assert (Z : mx <> Some 0) by (destruct mx as [m|]; [intro X; injection X as ->; lia|discriminate]).
    assert (B' : match option_map pred mx with Some m => 1 <= m /\ pred mn <= m | None => True end).
    { destruct mx as [m|]; cbn; [|exact I]. assert (m <> 1) by congruence. lia. }
    specialize (H' S B'). destruct o as [rest| | |]; cbn in *.
    + destruct H' as [us Q]. exists (ts ++ us). exact (peg_rep_more G e mn mx s ts s1 _ Z P Q).
    + exact (peg_rep_more G e mn mx s ts s1 _ Z P H').
    + destruct H' as (m & rest & Q). exists m, rest. exact (peg_rep_more G e mn mx s ts s1 _ Z P Q).
    + exact I.
  - intros e mx s k _ H S B. exists []. apply peg_rep_done; [|exact (H S)].
    destruct mx as [m|]; [intro X; injection X as ->; lia|discriminate].
  - intros e mn mx s k L _ H S B. apply peg_rep_short; [|exact L|exact (H S)].
    destruct mx as [m|]; [intro X; injection X as ->; lia|discriminate].
  - intros e mn mx s o k _ H L S B. eapply says_halt; [exact L| |exact (H S)].
    intros m rest P. apply peg_rep_abort; [|exact P]. destruct mx as [n|]; [intro X; injection X as ->; lia|discriminate].
Qed.

End Runs.

(* ------------------------------------------------------------------------------------------- *)
(** * The calls of the parser *)

Section Tally.
Variable rs : rules.
Hypothesis SR : sane_rules rs.
Let G := rules_get rs.

(** How a result of the parser ends a run. *)
Definition ends (r : result_expr) : ending :=
  match r with
  | Ok (st, _) => OM (it_parsing st)
  | Err er => if is_critical (e_priority er) then OA else OF
  | _ => OC
  end.

Lemma ends_err : forall er, ends (Err er) = OF \/ halts (ends (Err er)).
Proof. intro er. cbn. destruct (is_critical (e_priority er)); [right; left; reflexivity|left; reflexivity]. Qed.

Definition counts (f : nat) : Prop := forall st e, sane e -> inv st ->
  costs G e (it_parsing st) (ends (parse_expr rs f st e)) (tally Nat.add rs f st e).

Lemma stays : forall f st e st' ts, inv st -> parse_expr rs f st e = Ok (st', ts) -> inv st'.
Proof. intros f st e st' ts I H. pose proof (parse_expr_good rs f st e I) as X. rewrite H in X. exact (proj1 X). Qed.

Lemma and_counts : forall f, counts f -> forall es st acc, Forall sane es -> inv st ->
  costs_and G es (it_parsing st) (ends (parse_and (parse_expr rs f) st es acc)) (tally_and Nat.add (parse_expr rs f) (tally Nat.add rs f) st es).
Proof.
  intros f C es. induction es as [|e es IH]; intros st acc S I; cbn [parse_and tally_and]; [constructor|].
  inversion S as [|? ? S1 S2]; subst. pose proof (C st e S1 I) as H.
  destruct (parse_expr rs f st e) as [[st' ts]|er| |] eqn:E.
  - eapply ca_cons; [exact H|]. apply IH; [exact S2|]. eapply stays; eassumption.
  - rewrite Nat.add_0_r. destruct (ends_err er) as [X|X]; [rewrite X in *; apply ca_fail|apply ca_halt]; assumption.
  - rewrite Nat.add_0_r. apply ca_halt; [exact H|right; reflexivity].
  - rewrite Nat.add_0_r. apply ca_halt; [exact H|right; reflexivity].
Qed.

Lemma or_counts : forall f, counts f -> forall es st o, Forall sane es -> inv st -> (forall er, o = Some er -> e_priority er = Normal) ->
  costs_or G es (it_parsing st) (ends (parse_or (parse_expr rs f) st es o)) (tally_or Nat.add (parse_expr rs f) (tally Nat.add rs f) st es).
Proof.
  intros f C es. induction es as [|e es IH]; intros st o S I O; cbn [parse_or tally_or].
  { destruct o as [er|]; [cbn; rewrite (O er eq_refl); constructor|].
    unfold err_normal, err_status. destruct (from_status st msg_logic_error Normal) as [er|] eqn:F; [|apply co_cut].
    apply from_status_ok in F; [|exact I]. cbn. destruct F as (_ & P & _). 
    destruct (e_priority er) eqn:Q; [constructor|]. rewrite P in Q. discriminate. }
  inversion S as [|? ? S1 S2]; subst. pose proof (C st e S1 I) as H.
  destruct (parse_expr rs f st e) as [[st' ts]|er| |] eqn:E.
  - rewrite Nat.add_0_r. apply co_match. exact H.
  - cbn [ends] in H. destruct (e_priority er) eqn:P; cbn [is_critical] in *.
    + eapply co_next; [exact H|]. apply IH; [exact S2|exact I|]. intros e2 E2. unfold deep_err in E2.
      destruct o as [e1|]; [|injection E2 as <-; exact P]. pose proof (O e1 eq_refl).
      destruct (prio_gt (e_priority e1) (e_priority er)), (pn (e_pos er) <? pn (e_pos e1)); injection E2 as <-; assumption.
    + rewrite Nat.add_0_r. cbn [ends]. rewrite P. apply co_halt; [exact H|left; reflexivity].
  - rewrite Nat.add_0_r. apply co_halt; [exact H|right; reflexivity].
  - rewrite Nat.add_0_r. apply co_halt; [exact H|right; reflexivity].
Qed.

Lemma rep_counts : forall f, counts f -> forall e mn0 mx0, sane e -> (match mx0 with None => True | Some m => 1 <= m end) ->
  forall g st c acc, inv st -> (match mx0 with None => True | Some m => c < m end) ->
  costs_rep G e (mn0 - c) (rest_max mx0 c) (it_parsing st) (ends (parse_repeat g (parse_expr rs f) st e mn0 mx0 c acc))
    (tally_repeat Nat.add g (parse_expr rs f) (tally Nat.add rs f) st e mx0 c).
Proof.
  intros f C e mn0 mx0 S B g. induction g as [|g IH]; intros st c acc I L; cbn [parse_repeat tally_repeat]; [constructor|].
  pose proof (C st e S I) as H. destruct (parse_expr rs f st e) as [[st' ts]|er| |] eqn:E.
  - unfold touch_max_bound in *. destruct mx0 as [m|]; cbn [rest_max option_map].
    + destruct (c + 1 =? m) eqn:T.
      * apply Nat.eqb_eq in T. rewrite Nat.add_0_r. replace (m - c) with 1 by lia. apply cr_last. exact H.
      * apply Nat.eqb_neq in T. eapply cr_more; [intro X; injection X as X; lia|exact H|]. cbn [option_map].
        replace (pred (mn0 - c)) with (mn0 - (c + 1)) by lia. replace (pred (m - c)) with (m - (c + 1)) by lia.
        apply IH; [eapply stays; eassumption|lia].
    + eapply cr_more; [discriminate|exact H|]. cbn [option_map]. replace (pred (mn0 - c)) with (mn0 - (c + 1)) by lia.
      apply IH; [eapply stays; eassumption|exact Logic.I].
  - rewrite Nat.add_0_r. unfold big_min_bound. cbn [ends] in H. destruct (mn0 <=? c) eqn:M.
    + apply Nat.leb_le in M. replace (mn0 - c) with 0 by lia. destruct (is_critical (e_priority er)) eqn:P; cbn [ends].
      * rewrite P. apply cr_halt; [exact H|left; reflexivity].
      * apply cr_done. exact H.
    + apply Nat.leb_gt in M. cbn [ends]. destruct (is_critical (e_priority er)).
      * apply cr_halt; [exact H|left; reflexivity].
      * apply cr_short; [lia|exact H].
  - rewrite Nat.add_0_r. apply cr_halt; [exact H|right; reflexivity].
  - rewrite Nat.add_0_r. apply cr_halt; [exact H|right; reflexivity].
Qed.

Lemma expr_counts : forall f, counts f.
Proof.
  induction f as [|f IH]; intros st e S I; [constructor|].
  destruct e as [a|es|es|e1|e1 mn mx|n].
  - pose proof (parse_expr_ok rs SR (Datatypes.S f) st (Simple a) S I) as [_ H]. cbn [tally].
    destruct (parse_expr rs (Datatypes.S f) st (Simple a)) as [[st' ts]|er| |]; cbn [ends sound] in *.
    + eapply c_match. exact H.
    + destruct (e_priority er); cbn [is_critical]; [apply c_fail; exact H|]. destruct H as (rest & H & _). eapply c_abort. exact H.
    + apply c_cut.
    + apply c_cut.
  - cbn [parse_expr tally]. apply c_and. apply and_counts; [exact IH|apply sane_list; exact S|exact I].
  - cbn [parse_expr tally]. apply c_or. apply or_counts; [exact IH|apply sane_list; exact S|exact I|discriminate].
  - cbn [parse_expr tally]. unfold parse_not. pose proof (IH st e1 S I) as H. destruct (parse_expr rs f st e1) as [[st' ts]|er| |]; cbn [ends].
    + unfold err_normal, err_status. destruct (from_status st (s_ "not") Normal) as [er|] eqn:F; [|eapply c_not_cut; exact H].
      apply from_status_ok in F; [|exact I]. destruct F as (_ & P & _). cbn [ends]. rewrite P. eapply c_not_fail. exact H.
    + eapply c_not_ok; [exact H|]. cbn. destruct (is_critical (e_priority er)); auto.
    + eapply c_not_cut. exact H.
    + eapply c_not_cut. exact H.
  - cbn [parse_expr tally]. apply c_rep. destruct S as [S1 S2].
    pose proof (rep_counts f IH e1 mn mx S1) as H. specialize (H ltac:(destruct mx; [lia|exact Logic.I]) f st 0 [] I ltac:(destruct mx; [lia|exact Logic.I])).
    rewrite Nat.sub_0_r in H. replace (rest_max mx 0) with mx in H by (destruct mx; cbn; [f_equal; lia|reflexivity]). exact H.
  - cbn [parse_expr tally]. unfold parse_rule_name, tally_rule_name.
    set (st1 := if trace_rules st then push_rule st (s_ "r:" ++ n) else st).
    assert (I1 : inv st1) by (unfold st1; destruct (trace_rules st); [apply inv_push|]; exact I).
    assert (T : it_parsing st1 = it_parsing st) by (unfold st1; destruct (trace_rules st); reflexivity).
    fold G. destruct (G n) as [e|] eqn:E.
    + pose proof (IH st1 e (SR n e E) I1) as H. rewrite T in H.
      destruct (parse_expr rs f st1 e) as [[st' ts]|er| |]; cbn [bind ends] in *; (eapply c_rule; [exact E|exact H]).
    + unfold err_status. destruct (from_status st1 (s_ "Missing rule: " ++ n) Critical) as [er|] eqn:F; cbn [bind ends].
      * apply c_missing; [exact E|]. destruct (is_critical (e_priority er)) eqn:Q; [left; reflexivity|].
        apply from_status_ok in F; [|exact I1]. destruct F as (_ & P & _). rewrite P in Q. discriminate.
      * apply c_missing; [exact E|right; reflexivity].
Qed.

End Tally.
