(** Refinement between the engine and the PEG semantics. *)
From Verif Require Import Base ModelAst ModelParser SpecPeg SpecPos ProofParser.

(* ------------------------------------------------------------------------------------------- *)
(** * Induction on expressions *)

Section ExprInd.
Variable P : expr -> Prop.
Hypothesis HS : forall a, P (Simple a).
Hypothesis HA : forall es, Forall P es -> P (And es).
Hypothesis HO : forall es, Forall P es -> P (Or es).
Hypothesis HN : forall e, P e -> P (Not e).
Hypothesis HR : forall e mn mx, P e -> P (Repeat e mn mx).
Hypothesis HRN : forall n, P (RuleName n).

Fixpoint expr_ind' (e : expr) : P e :=
  let fix list_ind (es : list expr) : Forall P es :=
    match es with
    | [] => Forall_nil P
    | x :: r => Forall_cons x (expr_ind' x) (list_ind r)
    end in
  match e with
  | Simple a => HS a
  | And es => HA es (list_ind es)
  | Or es => HO es (list_ind es)
  | Not e1 => HN e1 (expr_ind' e1)
  | Repeat e1 mn mx => HR e1 mn mx (expr_ind' e1)
  | RuleName n => HRN n
  end.
End ExprInd.

Lemma sane_list : forall es, fold_right (fun x Q => sane x /\ Q) True es <-> Forall sane es.
Proof.
  induction es as [|e es IH]; cbn; split; intro H.
  - constructor.
  - exact I.
  - destruct H as [H1 H2]. constructor; [exact H1|]. apply IH. exact H2.
  - inversion H; subst. split; [assumption|]. apply IH. assumption.
Qed.

(* ------------------------------------------------------------------------------------------- *)
(** * Fuel only matters when there is too little of it *)

Definition le_out {E A} (a b : outcome E A) : Prop := a = Fuel \/ a = b.

Lemma le_out_refl : forall E A (a : outcome E A), le_out a a.
Proof. right. reflexivity. Qed.

Lemma le_bind : forall E A B (a b : outcome E A) (k k' : A -> outcome E B),
  le_out a b -> (forall x, le_out (k x) (k' x)) -> le_out (bind a k) (bind b k').
Proof.
  intros E A B a b k k' [-> | ->] K; [left; reflexivity|]. destruct b; cbn; try apply le_out_refl. apply K.
Qed.

Lemma parse_and_mono : forall pe pe', (forall st e, le_out (pe st e) (pe' st e)) ->
  forall es st acc, le_out (parse_and pe st es acc) (parse_and pe' st es acc).
Proof.
  intros pe pe' H. induction es as [|e es IH]; intros st acc; cbn [parse_and]; [apply le_out_refl|].
  destruct (H st e) as [-> | ->]; [left; reflexivity|].
  destruct (pe' st e) as [[st' ts]|er| |]; try apply le_out_refl. apply IH.
Qed.

Lemma parse_or_mono : forall pe pe', (forall st e, le_out (pe st e) (pe' st e)) ->
  forall es st o, le_out (parse_or pe st es o) (parse_or pe' st es o).
Proof.
  intros pe pe' H. induction es as [|e es IH]; intros st o; cbn [parse_or]; [apply le_out_refl|].
  destruct (H st e) as [-> | ->]; [left; reflexivity|].
  destruct (pe' st e) as [[st' ts]|er| |]; try apply le_out_refl.
  destruct (is_critical (e_priority er)); [apply le_out_refl|]. apply IH.
Qed.

Lemma parse_not_mono : forall pe pe', (forall st e, le_out (pe st e) (pe' st e)) ->
  forall st e, le_out (parse_not pe st e) (parse_not pe' st e).
Proof.
  intros pe pe' H st e. unfold parse_not. destruct (H st e) as [-> | ->]; [left; reflexivity|]. apply le_out_refl.
Qed.

Lemma parse_repeat_mono : forall pe pe', (forall st e, le_out (pe st e) (pe' st e)) ->
  forall f f' st e mn mx c acc, f <= f' ->
  le_out (parse_repeat f pe st e mn mx c acc) (parse_repeat f' pe' st e mn mx c acc).
Proof.
  intros pe pe' H. induction f as [|f IH]; intros f' st e mn mx c acc L; [left; reflexivity|].
  destruct f' as [|f']; [lia|]. cbn [parse_repeat].
  destruct (H st e) as [-> | ->]; [left; reflexivity|].
  destruct (pe' st e) as [[st' ts]|er| |]; try apply le_out_refl.
  destruct (touch_max_bound mx c); [apply le_out_refl|]. apply IH. lia.
Qed.

Lemma parse_rule_name_mono : forall pe pe' rs, (forall st e, le_out (pe st e) (pe' st e)) ->
  forall st n, le_out (parse_rule_name pe rs st n) (parse_rule_name pe' rs st n).
Proof.
  intros pe pe' rs H st n. unfold parse_rule_name. destruct (rules_get rs n); [|apply le_out_refl].
  apply le_bind; [apply H|]. intros [st' nd]. apply le_out_refl.
Qed.

Lemma parse_expr_mono : forall rs f f' st e, f <= f' -> le_out (parse_expr rs f st e) (parse_expr rs f' st e).
Proof.
  intros rs. induction f as [|f IH]; intros f' st e L; [left; reflexivity|].
  destruct f' as [|f']; [lia|].
  assert (H : forall st e, le_out (parse_expr rs f st e) (parse_expr rs f' st e)) by (intros; apply IH; lia).
  destruct e as [a|es|es|e1|e1 mn mx|n]; cbn [parse_expr].
  - apply le_out_refl.
  - apply parse_and_mono. exact H.
  - apply parse_or_mono. exact H.
  - apply parse_not_mono. exact H.
  - apply parse_repeat_mono; [exact H|lia].
  - apply le_bind; [apply parse_rule_name_mono; exact H|]. intros [st' nd]. apply le_out_refl.
Qed.

Lemma expression_parse_mono : forall rs f f' st, f <= f' ->
  le_out (expression_parse rs f st) (expression_parse rs f' st).
Proof. intros. apply parse_rule_name_mono. intros. apply parse_expr_mono. assumption. Qed.

Lemma parse_with_debug_mono : forall f f' s rs d, f <= f' ->
  le_out (parse_with_debug f s rs d) (parse_with_debug f' s rs d).
Proof.
  intros. unfold parse_with_debug. apply le_bind; [|intros [st nd]; apply le_out_refl].
  destruct d; apply expression_parse_mono; assumption.
Qed.

Lemma parse_mono : forall f f' s rs, f <= f' -> parse f s rs <> Fuel -> parse f' s rs = parse f s rs.
Proof. intros f f' s rs L H. destruct (parse_with_debug_mono f f' s rs false L) as [E|E]; [contradiction|auto]. Qed.

(* ------------------------------------------------------------------------------------------- *)
(** * Degenerate repetition bounds: [max = 0] is "no max", [min > max] is [min = max] *)

Lemma norm_rules_get : forall rs n, rules_get (norm_rules rs) n = option_map norm (rules_get rs n).
Proof.
  induction rs as [|[k e] rs IH]; intro n; cbn; [reflexivity|].
  destruct (str_eqb k n); [reflexivity|apply IH].
Qed.

Lemma norm_sane : forall e, sane (norm e).
Proof.
  induction e as [a|es IH|es IH|e IH|e mn mx IH|n] using expr_ind'; cbn; try tauto.
  - apply sane_list. rewrite Forall_map. exact IH.
  - apply sane_list. rewrite Forall_map. exact IH.
  - split; [exact IH|]. destruct mx as [[|m]|]; cbn; try tauto. lia.
Qed.

Lemma norm_rules_sane : forall rs, sane_rules (norm_rules rs).
Proof.
  intros rs n e H. rewrite norm_rules_get in H. destruct (rules_get rs n); [|discriminate].
  injection H as <-. apply norm_sane.
Qed.

Lemma sane_norm : forall e, sane e -> norm e = e.
Proof.
  induction e as [a|es IH|es IH|e IH|e mn mx IH|n] using expr_ind'; cbn; intro S; try reflexivity.
  - f_equal. apply sane_list in S. rewrite <- (map_id es) at 2. apply map_ext_Forall.
    rewrite Forall_forall in *. intros x Hx. auto.
  - f_equal. apply sane_list in S. rewrite <- (map_id es) at 2. apply map_ext_Forall.
    rewrite Forall_forall in *. intros x Hx. auto.
  - f_equal. auto.
  - destruct S as [S1 S2]. f_equal; [auto| |]; destruct mx as [[|m]|]; cbn; try reflexivity; lia.
Qed.

Lemma parse_and_norm : forall pe pe' es, (forall st e, pe st e = pe' st (norm e)) ->
  forall st acc, parse_and pe st es acc = parse_and pe' st (map norm es) acc.
Proof.
  intros pe pe' es H. induction es as [|e es IH]; intros st acc; cbn [parse_and map]; [reflexivity|].
  rewrite H. destruct (pe' st (norm e)) as [[st' ts]|er| |]; try reflexivity. apply IH.
Qed.

Lemma parse_or_norm : forall pe pe' es, (forall st e, pe st e = pe' st (norm e)) ->
  forall st o, parse_or pe st es o = parse_or pe' st (map norm es) o.
Proof.
  intros pe pe' es H. induction es as [|e es IH]; intros st o; cbn [parse_or map]; [reflexivity|].
  rewrite H. destruct (pe' st (norm e)) as [[st' ts]|er| |]; try reflexivity.
  destruct (is_critical (e_priority er)); [reflexivity|]. apply IH.
Qed.

Lemma parse_repeat_norm : forall pe pe' e mn mx, (forall st e, pe st e = pe' st (norm e)) ->
  forall f st c acc, (forall m, norm_max mx = Some m -> c < m) ->
  parse_repeat f pe st e mn mx c acc = parse_repeat f pe' st (norm e) (norm_min mn mx) (norm_max mx) c acc.
Proof.
  intros pe pe' e mn mx H. induction f as [|f IH]; intros st c acc L; [reflexivity|].
  cbn [parse_repeat]. rewrite H. destruct (pe' st (norm e)) as [[st' ts]|er| |]; try reflexivity.
  - assert (T : touch_max_bound mx c = touch_max_bound (norm_max mx) c).
    { destruct mx as [[|m]|]; cbn; try reflexivity. apply Nat.eqb_neq. lia. }
    rewrite T. destruct (touch_max_bound (norm_max mx) c) eqn:TM; [reflexivity|]. apply IH.
    intros m Hm. specialize (L m Hm). rewrite Hm in TM. cbn in TM. apply Nat.eqb_neq in TM. lia.
  - assert (B : big_min_bound mn c = big_min_bound (norm_min mn mx) c).
    { unfold big_min_bound. destruct mx as [[|m]|]; cbn [norm_min]; try reflexivity.
      specialize (L (S m) eq_refl). destruct (Nat.leb_spec mn c), (Nat.leb_spec (Nat.min mn (S m)) c); lia. }
    rewrite B. reflexivity.
Qed.

Lemma parse_expr_norm : forall rs f st e, parse_expr rs f st e = parse_expr (norm_rules rs) f st (norm e).
Proof.
  intros rs. induction f as [|f IH]; intros st e; [reflexivity|].
  destruct e as [a|es|es|e1|e1 mn mx|n]; cbn [parse_expr norm].
  - reflexivity.
  - apply parse_and_norm. exact IH.
  - apply parse_or_norm. exact IH.
  - unfold parse_not. rewrite IH. reflexivity.
  - apply parse_repeat_norm; [exact IH|]. intros m Hm. destruct mx as [[|k]|]; cbn in Hm; inversion Hm. lia.
  - unfold parse_rule_name. rewrite norm_rules_get. destruct (rules_get rs n) as [e|]; cbn [option_map]; [|reflexivity].
    rewrite IH. reflexivity.
Qed.

Lemma expression_parse_norm : forall rs f st, expression_parse rs f st = expression_parse (norm_rules rs) f st.
Proof.
  intros rs f st. unfold expression_parse, parse_rule_name. rewrite norm_rules_get.
  destruct (rules_get rs (s_ "main")) as [e|]; cbn [option_map]; [|reflexivity].
  rewrite parse_expr_norm. reflexivity.
Qed.

Lemma parse_with_debug_norm : forall f s rs d, parse_with_debug f s rs d = parse_with_debug f s (norm_rules rs) d.
Proof.
  intros f s rs d. unfold parse_with_debug.
  rewrite (expression_parse_norm rs f (status_init_debug s d)), (expression_parse_norm rs f (status_init s)).
  reflexivity.
Qed.

(* ------------------------------------------------------------------------------------------- *)
(** * Soundness *)

Definition sound_acc (acc : list node) (G : str -> option expr) (st : status) (e : expr) (r : result_expr) : Prop :=
  match r with
  | Ok (st', ts) => exists us, ts = acc ++ us /\ peg G e (it_parsing st) (PMatch us (it_parsing st'))
  | Err er =>
      match e_priority er with
      | Normal => peg G e (it_parsing st) PFail
      | Critical => exists rest, peg G e (it_parsing st) (PAbort (e_descr er) rest) /\
                      pn (e_pos er) + length rest = length (text2parse st)
      end
  | _ => True
  end.

Lemma sound_acc_nil : forall G st e r, sound_acc [] G st e r -> sound G st e r.
Proof. intros G st e [[st' ts]|er| |] H; cbn in *; try assumption. destruct H as (us & -> & H). exact H. Qed.

Section Loops.
Variable G : str -> option expr.
Variable pe : status -> expr -> result_expr.

Definition ok_at (st : status) (e : expr) : Prop := good st (pe st e) /\ sound G st e (pe st e).

Lemma parse_and_ok : forall es,
  (forall st e, In e es -> inv st -> ok_at st e) ->
  forall st acc, inv st -> good st (parse_and pe st es acc) /\ sound_acc acc G st (And es) (parse_and pe st es acc).
Proof.
  induction es as [|e es IH]; intros H st acc I; cbn [parse_and].
  - cbn. split; [split; [exact I|apply adv_refl]|]. exists []. rewrite app_nil_r. split; [reflexivity|apply peg_and_nil].
  - destruct (H st e (or_introl eq_refl) I) as [G1 S1]. destruct (pe st e) as [[st' ts]|er| |].
    + destruct G1 as [I' AD]. cbn in S1.
      destruct (IH (fun st e Hin => H st e (or_intror Hin)) st' (acc ++ ts) I') as [G2 S2].
      split; [apply (good_adv _ st st'); assumption|]. destruct AD as (T & _).
      destruct (parse_and pe st' es (acc ++ ts)) as [[st2 ts2]|er| |]; cbn in *; try exact Logic.I.
      * destruct S2 as (us & -> & S2). exists (ts ++ us). rewrite app_assoc. split; [reflexivity|].
        change (PMatch (ts ++ us) (it_parsing st2)) with (prepend ts (PMatch us (it_parsing st2))).
        eapply peg_and_cons; eassumption.
      * destruct (e_priority er).
        -- change PFail with (prepend ts PFail). eapply peg_and_cons; eassumption.
        -- destruct S2 as (rest & S2 & L). exists rest. split; [|rewrite <- T; exact L].
           change (PAbort (e_descr er) rest) with (prepend ts (PAbort (e_descr er) rest)).
           eapply peg_and_cons; eassumption.
    + split; [exact G1|]. cbn in *. destruct (e_priority er).
      * apply peg_and_stop; [assumption|exact Logic.I].
      * destruct S1 as (rest & S1 & L). exists rest. split; [|exact L]. apply peg_and_stop; [assumption|exact Logic.I].
    + split; [exact G1|exact Logic.I].
    + split; exact Logic.I.
Qed.

Definition onormal (st : status) (o : option perror) : Prop :=
  match o with Some er => err_ok (text2parse st) (pn (st_pos st)) er /\ e_priority er = Normal | None => True end.

Lemma parse_or_ok : forall es,
  (forall st e, In e es -> inv st -> ok_at st e) ->
  forall st o, inv st -> onormal st o ->
  good st (parse_or pe st es o) /\ sound G st (Or es) (parse_or pe st es o).
Proof.
  induction es as [|e es IH]; intros H st o I O; cbn [parse_or].
  - destruct o as [er|].
    + destruct O as [O1 O2]. split; [exact O1|]. cbn. rewrite O2. apply peg_or_nil.
    + pose proof (err_status_good (list node) st st msg_logic_error Normal I I (adv_refl st)) as G'.
      unfold err_normal, err_status in *. destruct (from_status st msg_logic_error Normal) as [er|] eqn:F.
      * split; [exact G'|]. apply from_status_ok in F; [|exact I]. destruct F as (_ & F & _).
        unfold sound. rewrite F. apply peg_or_nil.
      * split; [exact G'|exact Logic.I].
  - destruct (H st e (or_introl eq_refl) I) as [G1 S1]. destruct (pe st e) as [[st' ts]|er| |].
    + split; [exact G1|]. cbn in *. apply peg_or_first; [exact S1|discriminate].
    + cbn in G1, S1. destruct (e_priority er) eqn:PR; cbn [is_critical].
      * assert (O' : onormal st (deep_err o er)).
        { unfold deep_err. destruct o as [er0|]; [|cbn; auto]. cbn in O. destruct O as [O1 O2].
          destruct (prio_gt (e_priority er0) (e_priority er)), (pn (e_pos er) <? pn (e_pos er0)); cbn; auto. }
        destruct (IH (fun st e Hin => H st e (or_intror Hin)) st (deep_err o er) I O') as [G2 S2].
        split; [exact G2|].
        destruct (parse_or pe st es (deep_err o er)) as [[st2 ts2]|er2| |]; cbn in *; try exact Logic.I.
        -- apply peg_or_next; assumption.
        -- destruct (e_priority er2); [apply peg_or_next; assumption|].
           destruct S2 as (rest & S2 & L). exists rest. split; [|exact L]. apply peg_or_next; assumption.
      * split; [exact G1|]. cbn. rewrite PR. destruct S1 as (rest & S1 & L). exists rest. split; [|exact L].
        apply peg_or_first; [exact S1|discriminate].
    + split; [exact G1|exact Logic.I].
    + split; exact Logic.I.
Qed.

Lemma parse_not_ok : forall e,
  (forall st, inv st -> ok_at st e) ->
  forall st, inv st -> good st (parse_not pe st e) /\ sound G st (Not e) (parse_not pe st e).
Proof.
  intros e H st I. unfold parse_not. destruct (H st I) as [G1 S1]. destruct (pe st e) as [[st' ts]|er| |].
  - pose proof (err_status_good (list node) st st (s_ "not") Normal I I (adv_refl st)) as G'.
    unfold err_normal, err_status in *. destruct (from_status st (s_ "not") Normal) as [er|] eqn:F.
    + split; [exact G'|]. apply from_status_ok in F; [|exact I]. destruct F as (_ & F & _).
      unfold sound. rewrite F. cbn in S1. eapply peg_not_fail. exact S1.
    + split; [exact G'|exact Logic.I].
  - split; [split; [exact I|apply adv_refl]|]. cbn in *. destruct (e_priority er).
    + eapply peg_not_ok; [exact S1|exact Logic.I].
    + destruct S1 as (rest & S1 & _). eapply peg_not_ok; [exact S1|exact Logic.I].
  - split; [exact G1|exact Logic.I].
  - split; exact Logic.I.
Qed.

Definition rest_max (mx : option nat) (c : nat) : option nat := option_map (fun m => m - c) mx.

Lemma parse_repeat_ok : forall e mn mx,
  (forall st, inv st -> ok_at st e) ->
  match mx with Some m => mn <= m | None => True end ->
  forall f st c acc, inv st -> match mx with Some m => c < m | None => True end ->
  good st (parse_repeat f pe st e mn mx c acc) /\
  sound_acc acc G st (Repeat e (mn - c) (rest_max mx c)) (parse_repeat f pe st e mn mx c acc).
Proof.
  intros e mn mx H SN. induction f as [|f IH]; intros st c acc I L; cbn [parse_repeat]; [split; exact Logic.I|].
  assert (NZ : rest_max mx c <> Some 0).
  { destruct mx as [m|]; cbn; [|discriminate]. intro E. injection E as E. lia. }
  destruct (H st I) as [G1 S1]. destruct (pe st e) as [[st' ts]|er| |].
  - destruct G1 as [I' AD]. cbn in S1. destruct (touch_max_bound mx c) eqn:TM.
    + split; [split; assumption|]. cbn. exists ts. split; [reflexivity|].
      replace (PMatch ts (it_parsing st')) with (prepend ts (PMatch [] (it_parsing st')))
        by (cbn; rewrite app_nil_r; reflexivity).
      eapply peg_rep_more; [exact NZ|exact S1|]. destruct mx as [m|]; [|discriminate]. cbn in *.
      apply Nat.eqb_eq in TM. replace (pred (mn - c)) with 0 by lia. replace (pred (m - c)) with 0 by lia.
      apply peg_rep_full.
    + assert (L' : match mx with Some m => c + 1 < m | None => True end).
      { destruct mx as [m|]; [|exact Logic.I]. cbn in TM. apply Nat.eqb_neq in TM. lia. }
      destruct (IH st' (c + 1) (acc ++ ts) I' L') as [G2 S2].
      assert (E1 : mn - (c + 1) = pred (mn - c)) by lia.
      assert (E2 : rest_max mx (c + 1) = option_map pred (rest_max mx c)).
      { destruct mx as [m|]; cbn; [|reflexivity]. f_equal. lia. }
      rewrite E1, E2 in S2.
      split; [apply (good_adv _ st st'); assumption|]. destruct AD as (T & _).
      destruct (parse_repeat f pe st' e mn mx (c + 1) (acc ++ ts)) as [[st2 ts2]|er| |]; cbn in *; try exact Logic.I.
      * destruct S2 as (us & -> & S2). exists (ts ++ us). rewrite app_assoc. split; [reflexivity|].
        change (PMatch (ts ++ us) (it_parsing st2)) with (prepend ts (PMatch us (it_parsing st2))).
        eapply peg_rep_more; eassumption.
      * destruct (e_priority er).
        -- change PFail with (prepend ts PFail). eapply peg_rep_more; eassumption.
        -- destruct S2 as (rest & S2 & L2). exists rest. split; [|rewrite <- T; exact L2].
           change (PAbort (e_descr er) rest) with (prepend ts (PAbort (e_descr er) rest)).
           eapply peg_rep_more; eassumption.
  - cbn in S1. unfold big_min_bound. destruct (Nat.leb_spec mn c) as [B|B].
    + destruct (e_priority er) eqn:PR; cbn [is_critical].
      * split.
        -- split; [|repeat split; exists []; reflexivity]. destruct I as [I1 I2]. split; [exact I1|].
           cbn. intros er0 E0. injection E0 as <-. split; [|exact PR].
           eapply err_ok_weaken; [|exact G1]. lia.
        -- cbn. exists []. rewrite app_nil_r. split; [reflexivity|]. replace (mn - c) with 0 by lia.
           apply peg_rep_done; assumption.
      * split; [exact G1|]. cbn. rewrite PR. destruct S1 as (rest & S1 & L1). exists rest. split; [|exact L1].
        apply peg_rep_abort; assumption.
    + split; [exact G1|]. cbn. destruct (e_priority er) eqn:PR.
      * apply peg_rep_short; [assumption|lia|assumption].
      * destruct S1 as (rest & S1 & L1). exists rest. split; [|exact L1]. apply peg_rep_abort; assumption.
  - split; [exact G1|exact Logic.I].
  - split; exact Logic.I.
Qed.

End Loops.

Lemma inv_push : forall st n, inv st -> inv (push_rule st n).
Proof. intros st n I. exact I. Qed.

Lemma adv_push : forall st n, adv st (push_rule st n).
Proof. intros st n. repeat split. exists []. reflexivity. Qed.

Lemma parse_rule_name_ok : forall rs pe,
  (forall e st, rules_get rs e <> None -> inv st -> forall x, rules_get rs e = Some x -> ok_at (rules_get rs) pe st x) ->
  forall st n, inv st ->
  let r := (let? (st', nd) := parse_rule_name pe rs st n in Ok (st', [nd])) in
  good st r /\ sound (rules_get rs) st (RuleName n) r.
Proof.
  intros rs pe H st n I r. subst r. unfold parse_rule_name.
  set (st1 := if trace_rules st then push_rule st (s_ "r:" ++ n) else st).
  assert (I1 : inv st1) by (subst st1; destruct (trace_rules st); exact I).
  assert (A1 : adv st st1) by (subst st1; destruct (trace_rules st); [apply adv_push|apply adv_refl]).
  assert (T1 : it_parsing st1 = it_parsing st /\ text2parse st1 = text2parse st)
    by (subst st1; destruct (trace_rules st); split; reflexivity).
  destruct T1 as [T1 T2].
  destruct (rules_get rs n) as [e|] eqn:E.
  - destruct (H n st1 ltac:(congruence) I1 e E) as [G1 S1].
    destruct (pe st1 e) as [[st' ts]|er| |]; cbn in *.
    + split; [split; [tauto|eapply adv_trans; [exact A1|tauto]]|].
      change (PMatch [Rule n ts] (it_parsing st')) with (wrap n (PMatch ts (it_parsing st'))).
      eapply peg_rule; [exact E|]. rewrite <- T1. exact S1.
    + split; [apply (good_adv (list node) st st1 (Err er)); assumption|]. rewrite T1, T2 in S1. destruct (e_priority er).
      * change PFail with (wrap n PFail). eapply peg_rule; eassumption.
      * destruct S1 as (rest & S1 & L). exists rest. split; [|exact L].
        change (PAbort (e_descr er) rest) with (wrap n (PAbort (e_descr er) rest)). eapply peg_rule; eassumption.
    + split; [rewrite T2 in G1; exact G1|exact Logic.I].
    + split; exact Logic.I.
  - pose proof (err_status_good (list node) st st1 (s_ "Missing rule: " ++ n) Critical I I1 A1) as G'.
    unfold err_status in *. destruct (from_status st1 (s_ "Missing rule: " ++ n) Critical) as [er|] eqn:F; cbn [bind].
    + split; [exact G'|]. apply from_status_ok in F; [|exact I1]. destruct F as (_ & F & D & P & _).
      unfold sound. rewrite F, D, P. exists (it_parsing st). split; [apply peg_rule_missing; exact E|].
      rewrite <- T1, <- T2. apply inv_pn. exact I1.
    + split; [exact G'|exact Logic.I].
Qed.

Lemma parse_expr_ok : forall rs, sane_rules rs -> forall f st e, sane e -> inv st ->
  good st (parse_expr rs f st e) /\ sound (rules_get rs) st e (parse_expr rs f st e).
Proof.
  intros rs SR. induction f as [|f IH]; intros st e S I; [split; exact Logic.I|].
  destruct e as [a|es|es|e1|e1 mn mx|n]; cbn [parse_expr].
  - pose proof (parse_atom_good (rules_get rs) st a I) as H. destruct (parse_atom st a) as [[st' t]|er| |]; cbn [bind].
    + split; [split; tauto|]. cbn. tauto.
    + tauto.
    + split; [exact H|exact Logic.I].
    + contradiction.
  - cbn in S. apply sane_list in S. rewrite Forall_forall in S.
    destruct (parse_and_ok (rules_get rs) (parse_expr rs f) es (fun st e Hin I => IH st e (S e Hin) I) st [] I) as [A B].
    split; [exact A|]. apply sound_acc_nil. exact B.
  - cbn in S. apply sane_list in S. rewrite Forall_forall in S.
    apply parse_or_ok; [|exact I|exact Logic.I]. intros st0 e Hin I0. apply IH; auto.
  - apply parse_not_ok; [|exact I]. intros st0 I0. apply IH; assumption.
  - cbn in S. destruct S as [S1 S2].
    assert (A : match mx with Some m => mn <= m | None => True end) by (destruct mx; tauto).
    assert (B : match mx with Some m => 0 < m | None => True end) by (destruct mx; [lia|exact Logic.I]).
    destruct (parse_repeat_ok (rules_get rs) (parse_expr rs f) e1 mn mx (fun st I => IH st e1 S1 I) A f st 0 [] I B) as [C D].
    split; [exact C|]. apply sound_acc_nil. replace (mn - 0) with mn in D by lia.
    assert (E : rest_max mx 0 = mx) by (destruct mx as [m|]; cbn; [f_equal; lia|reflexivity]).
    rewrite E in D. exact D.
  - apply parse_rule_name_ok; [|exact I]. intros n0 st0 _ I0 x Hx. apply IH; [|exact I0]. eapply SR. exact Hx.
Qed.

Lemma parse_expr_good : forall rs f st e, inv st -> good st (parse_expr rs f st e).
Proof.
  intros rs f st e I. rewrite parse_expr_norm. apply parse_expr_ok; [apply norm_rules_sane|apply norm_sane|exact I].
Qed.

(* ------------------------------------------------------------------------------------------- *)
(** * The PEG semantics is deterministic *)

Lemma prepend_stops : forall ts r, stops r -> prepend ts r = r.
Proof. intros ts [us rest| |m rest] H; [destruct H|reflexivity|reflexivity]. Qed.

Lemma stops_not_match : forall ts rest, stops (PMatch ts rest) -> False.
Proof. intros ts rest H. exact H. Qed.

Lemma peg_det : forall G e s r1, peg G e s r1 -> forall r2, peg G e s r2 -> r1 = r2.
Proof.
  intros G e s r1 D1. induction D1; intros r2 D2; inversion D2; subst; try reflexivity; try congruence;
    repeat match goal with
    | H : ?l ++ _ = ?l ++ _ |- _ => apply app_inv_head in H; subst
    | H : forall rest, ?s <> ?l ++ rest |- _ => exfalso; eapply H; reflexivity
    | H : forall c rest, ?x = c :: rest -> ~ in_class _ _ c |- _ => exfalso; eapply H; [reflexivity|eassumption]
    | H : forall r2, peg G ?e ?s r2 -> ?r = r2, H' : peg G ?e ?s ?x |- _ => apply H in H'; subst
    | H : PMatch _ _ = PMatch _ _ |- _ => injection H as ? ?; subst
    | H : stops (PMatch _ _) |- _ => destruct H
    | H : PFail = PMatch _ _ |- _ => discriminate H
    | H : PMatch _ _ = PFail |- _ => discriminate H
    | H : PAbort _ _ = PMatch _ _ |- _ => discriminate H
    | H : PMatch _ _ = PAbort _ _ |- _ => discriminate H
    | H : PFail = PAbort _ _ |- _ => discriminate H
    | H : PAbort _ _ = PFail |- _ => discriminate H
    end; try reflexivity; try congruence; try lia.
  match goal with A : G n = Some ?x, B : G n = Some ?y |- _ => assert (x = y) by congruence; subst end.
  f_equal. auto.
Qed.

(* ------------------------------------------------------------------------------------------- *)
(** * Completeness: where the PEG semantics has an outcome, the engine terminates *)

Lemma le_out_eq : forall E A (a b : outcome E A), le_out a b -> a <> Fuel -> b = a.
Proof. intros E A a b [H|H] N; [contradiction|auto]. Qed.

Lemma le_out_nofuel : forall E A (a b : outcome E A), le_out a b -> a <> Fuel -> b <> Fuel.
Proof. intros E A a b L N. rewrite (le_out_eq _ _ _ _ L N). exact N. Qed.

Lemma err_status_nofuel : forall A st d p, @err_status A st d p <> Fuel.
Proof. intros A st d p. unfold err_status. destruct (from_status st d p); discriminate. Qed.

Section Complete.
Variable rs : rules.
Hypothesis SR : sane_rules rs.
Let G := rules_get rs.

Definition loops_terminate (e : expr) (s : str) : Prop :=
  match e with
  | And es => forall st acc, Forall sane es -> inv st -> it_parsing st = s ->
                exists f, parse_and (parse_expr rs f) st es acc <> Fuel
  | Or es => forall st o, Forall sane es -> inv st -> it_parsing st = s ->
                exists f, parse_or (parse_expr rs f) st es o <> Fuel
  | Repeat e1 mn' mx' =>
      forall st mn mx c acc, sane e1 -> inv st -> it_parsing st = s ->
      mn' = mn - c -> mx' = rest_max mx c -> match mx with Some m => c < m /\ mn <= m | None => True end ->
      exists f, parse_repeat f (parse_expr rs f) st e1 mn mx c acc <> Fuel
  | _ => True
  end.

Lemma run_outcome : forall f st e r, sane e -> inv st -> peg G e (it_parsing st) r ->
  parse_expr rs f st e <> Fuel ->
  match parse_expr rs f st e with
  | Ok (st', ts) => r = PMatch ts (it_parsing st') /\ inv st' /\ adv st st'
  | Err er => match e_priority er with
              | Normal => r = PFail
              | Critical => exists rest, r = PAbort (e_descr er) rest /\
                              pn (e_pos er) + length rest = length (text2parse st)
              end
  | Panic => ~ ascii (text2parse st)
  | Fuel => False
  end.
Proof.
  intros f st e r S I D N. destruct (parse_expr_ok rs SR f st e S I) as [A B].
  destruct (parse_expr rs f st e) as [[st' ts]|er| |]; cbn in *.
  - split; [apply (peg_det _ _ _ _ D _ B)|exact A].
  - destruct (e_priority er); [apply (peg_det _ _ _ _ D _ B)|].
    destruct B as (rest & B & L). exists rest. split; [apply (peg_det _ _ _ _ D _ B)|exact L].
  - exact A.
  - contradiction.
Qed.

Lemma combine_and : forall f1 st e es acc,
  parse_expr rs f1 st e <> Fuel ->
  (forall st' ts, parse_expr rs f1 st e = Ok (st', ts) ->
     exists f, parse_and (parse_expr rs f) st' es (acc ++ ts) <> Fuel) ->
  exists f, parse_and (parse_expr rs f) st (e :: es) acc <> Fuel.
Proof.
  intros f1 st e es acc N K. destruct (parse_expr rs f1 st e) as [[st' ts]|er| |] eqn:E.
  - destruct (K st' ts eq_refl) as [f2 K2]. exists (Nat.max f1 f2). cbn [parse_and].
    rewrite (le_out_eq _ _ _ _ (parse_expr_mono rs f1 (Nat.max f1 f2) st e ltac:(lia))) by congruence.
    rewrite E. eapply le_out_nofuel; [|exact K2]. apply parse_and_mono. intros. apply parse_expr_mono. lia.
  - exists f1. cbn [parse_and]. rewrite E. discriminate.
  - exists f1. cbn [parse_and]. rewrite E. discriminate.
  - contradiction.
Qed.

Lemma combine_or : forall f1 st e es o,
  parse_expr rs f1 st e <> Fuel ->
  (forall er, parse_expr rs f1 st e = Err er -> e_priority er = Normal ->
     exists f, parse_or (parse_expr rs f) st es (deep_err o er) <> Fuel) ->
  exists f, parse_or (parse_expr rs f) st (e :: es) o <> Fuel.
Proof.
  intros f1 st e es acc N K. destruct (parse_expr rs f1 st e) as [[st' ts]|er| |] eqn:E.
  - exists f1. cbn [parse_or]. rewrite E. discriminate.
  - destruct (e_priority er) eqn:PR.
    + destruct (K er eq_refl PR) as [f2 K2]. exists (Nat.max f1 f2). cbn [parse_or].
      rewrite (le_out_eq _ _ _ _ (parse_expr_mono rs f1 (Nat.max f1 f2) st e ltac:(lia))) by congruence.
      rewrite E, PR. cbn [is_critical].
      eapply le_out_nofuel; [|exact K2]. apply parse_or_mono. intros. apply parse_expr_mono. lia.
    + exists f1. cbn [parse_or]. rewrite E, PR. discriminate.
  - exists f1. cbn [parse_or]. rewrite E. discriminate.
  - contradiction.
Qed.

Lemma combine_rep : forall f1 st e mn mx c acc,
  parse_expr rs f1 st e <> Fuel ->
  (forall st' ts, parse_expr rs f1 st e = Ok (st', ts) -> touch_max_bound mx c = false ->
     exists f, parse_repeat f (parse_expr rs f) st' e mn mx (c + 1) (acc ++ ts) <> Fuel) ->
  exists f, parse_repeat f (parse_expr rs f) st e mn mx c acc <> Fuel.
Proof.
  intros f1 st e mn mx c acc N K. destruct (parse_expr rs f1 st e) as [[st' ts]|er| |] eqn:E.
  - destruct (touch_max_bound mx c) eqn:T.
    + exists (S f1). cbn [parse_repeat].
      rewrite (le_out_eq _ _ _ _ (parse_expr_mono rs f1 (S f1) st e ltac:(lia))) by congruence.
      rewrite E, T. discriminate.
    + destruct (K st' ts eq_refl eq_refl) as [f2 K2]. exists (S (Nat.max f1 f2)). cbn [parse_repeat].
      rewrite (le_out_eq _ _ _ _ (parse_expr_mono rs f1 (S (Nat.max f1 f2)) st e ltac:(lia))) by congruence.
      rewrite E, T. eapply le_out_nofuel; [|exact K2].
      apply parse_repeat_mono; [|lia]. intros. apply parse_expr_mono. lia.
  - exists (S f1). cbn [parse_repeat].
    rewrite (le_out_eq _ _ _ _ (parse_expr_mono rs f1 (S f1) st e ltac:(lia))) by congruence.
    rewrite E. destruct (big_min_bound mn c), (is_critical (e_priority er)); discriminate.
  - exists (S f1). cbn [parse_repeat].
    rewrite (le_out_eq _ _ _ _ (parse_expr_mono rs f1 (S f1) st e ltac:(lia))) by congruence.
    rewrite E. discriminate.
  - contradiction.
Qed.

Lemma peg_terminates : forall e s r, peg G e s r ->
  (forall st, sane e -> inv st -> it_parsing st = s -> exists f, parse_expr rs f st e <> Fuel) /\
  loops_terminate e s.
Proof.
  assert (W : forall e s, loops_terminate e s ->
              (match e with And _ | Or _ | Repeat _ _ _ => True | _ =>
                 forall st, sane e -> inv st -> it_parsing st = s -> exists f, parse_expr rs f st e <> Fuel end) ->
              (forall st, sane e -> inv st -> it_parsing st = s -> exists f, parse_expr rs f st e <> Fuel) /\
              loops_terminate e s).
  { intros e s L O. split; [|exact L]. intros st S I E. destruct e as [a|es|es|e1|e1 mn mx|n]; try (apply O; assumption).
    - cbn in S. apply sane_list in S. destruct (L st [] S I E) as [f F]. exists (Datatypes.S f). exact F.
    - cbn in S. apply sane_list in S. destruct (L st None S I E) as [f F]. exists (Datatypes.S f). exact F.
    - cbn in S. destruct S as [S1 S2].
      destruct (L st mn mx 0 [] S1 I E) as [f F].
      + lia.
      + destruct mx; cbn; [f_equal; lia|reflexivity].
      + destruct mx; [lia|exact Logic.I].
      + exists (Datatypes.S f). exact F. }
  assert (ATOM : forall a st, exists f, parse_expr rs f st (Simple a) <> Fuel).
  { intros a st. exists 1. cbn [parse_expr].
    assert (parse_atom st a <> Fuel).
    { destruct a; cbn [parse_atom]; unfold parse_literal, parse_match, parse_error, parse_dot, parse_eof, err_normal.
      - assert (forall l chs st, parse_literal_loop l st chs <> Fuel).
        { intros l chs. induction chs as [|c chs IH]; intros st0; cbn; [discriminate|].
          destruct (parse_char st0 c); [apply IH|]. apply err_status_nofuel. }
        specialize (H s s st). destruct (parse_literal_loop s st s); cbn; congruence.
      - destruct (get_char st) as [[? ?]|?]; [destruct (match_char _ _ _); [discriminate|]|]; apply err_status_nofuel.
      - apply err_status_nofuel.
      - destruct (get_char st) as [[? ?]|?]; [discriminate|]; apply err_status_nofuel.
      - destruct (get_char st) as [[? ?]|?]; [|discriminate]; apply err_status_nofuel. }
    destruct (parse_atom st a) as [[? ?]| | |]; cbn; congruence. }
  intros e s r D. induction D; try (apply W; [exact Logic.I|]; intros st0 _ _ _; apply ATOM); apply W; clear W; try exact Logic.I.
  - (* and nil *) intros st acc _ _ _. exists 0. discriminate.
  - (* and cons *)
    intros st acc S I E. inversion S; subst.
    destruct IHD1 as [T1 _]. destruct (T1 st H1 I eq_refl) as [f1 F1].
    apply (combine_and f1); [exact F1|]. intros st' ts' R.
    pose proof (run_outcome f1 st e _ H1 I D1 F1) as O. rewrite R in O. destruct O as (O1 & O2 & O3).
    injection O1 as O0 O1. destruct IHD2 as [_ L2]. apply L2; [assumption|assumption|]. congruence.
  - intros st acc S I E. inversion S; subst.
    destruct IHD as [T1 _]. destruct (T1 st H2 I eq_refl) as [f1 F1].
    apply (combine_and f1); [exact F1|]. intros st' ts' R.
    pose proof (run_outcome f1 st e _ H2 I D F1) as O. rewrite R in O. destruct O as (O1 & O2 & O3).
    subst r. destruct H.
  - intros st o _ _ _. exists 0. cbn. destruct o; [discriminate|]. apply err_status_nofuel.
  - intros st o S I E. inversion S; subst.
    destruct IHD as [T1 _]. destruct (T1 st H2 I eq_refl) as [f1 F1].
    apply (combine_or f1); [exact F1|]. intros er R PR.
    pose proof (run_outcome f1 st e _ H2 I D F1) as O. rewrite R, PR in O. contradiction.
  - intros st o S I E. inversion S; subst.
    destruct IHD1 as [T1 _]. destruct (T1 st H1 I eq_refl) as [f1 F1].
    apply (combine_or f1); [exact F1|]. intros er R PR.
    destruct IHD2 as [_ L2]. apply L2; [assumption|assumption|reflexivity].
  - intros st S I E. destruct IHD as [T1 _]. destruct (T1 st S I E) as [f F]. exists (Datatypes.S f).
    cbn [parse_expr]. unfold parse_not. destruct (parse_expr rs f st e) as [[? ?]|?| |]; try discriminate; [|contradiction].
    apply err_status_nofuel.
  - intros st S I E. destruct IHD as [T1 _]. destruct (T1 st S I E) as [f F]. exists (Datatypes.S f).
    cbn [parse_expr]. unfold parse_not. destruct (parse_expr rs f st e) as [[? ?]|?| |]; try discriminate; [|contradiction].
    apply err_status_nofuel.
  - intros st mn mx c acc S I E M X B. exfalso. destruct mx as [m|]; [|discriminate]. cbn in X. injection X as X. lia.
  - intros st mn0 mx0 c acc S I E M X B. subst mn mx.
    destruct IHD1 as [T1 _]. destruct (T1 st S I E) as [f1 F1].
    apply (combine_rep f1); [exact F1|]. intros st' ts' R TM.
    rewrite <- E in D1.
    pose proof (run_outcome f1 st e _ S I D1 F1) as O. rewrite R in O. destruct O as (O1 & O2 & O3).
    injection O1 as O0 O1. destruct IHD2 as [_ L2]. apply L2; try assumption; try congruence.
    + lia.
    + destruct mx0 as [m|]; cbn; [f_equal; lia|reflexivity].
    + destruct mx0 as [m|]; [|exact Logic.I]. cbn in TM. apply Nat.eqb_neq in TM. lia.
  - intros st mn0 mx0 c acc S I E M X B.
    destruct IHD as [T1 _]. destruct (T1 st S I E) as [f1 F1].
    apply (combine_rep f1); [exact F1|]. intros st' ts' R TM. rewrite <- E in D.
    pose proof (run_outcome f1 st e _ S I D F1) as O. rewrite R in O. destruct O as (O1 & _). discriminate.
  - intros st mn0 mx0 c acc S I E M X B.
    destruct IHD as [T1 _]. destruct (T1 st S I E) as [f1 F1].
    apply (combine_rep f1); [exact F1|]. intros st' ts' R TM. rewrite <- E in D.
    pose proof (run_outcome f1 st e _ S I D F1) as O. rewrite R in O. destruct O as (O1 & _). discriminate.
  - intros st mn0 mx0 c acc S I E M X B.
    destruct IHD as [T1 _]. destruct (T1 st S I E) as [f1 F1].
    apply (combine_rep f1); [exact F1|]. intros st' ts' R TM. rewrite <- E in D.
    pose proof (run_outcome f1 st e _ S I D F1) as O. rewrite R in O. destruct O as (O1 & _). discriminate.
  - intros st S I E. destruct IHD as [T1 _].
    set (st1 := if trace_rules st then push_rule st (s_ "r:" ++ n) else st).
    assert (I1 : inv st1) by (subst st1; destruct (trace_rules st); exact I).
    assert (E1 : it_parsing st1 = s) by (subst st1; destruct (trace_rules st); exact E).
    destruct (T1 st1 (SR n e H) I1 E1) as [f F]. exists (Datatypes.S f). cbn [parse_expr]. unfold parse_rule_name.
    fold st1. unfold G in H. rewrite H. destruct (parse_expr rs f st1 e) as [[? ?]|?| |]; cbn; congruence.
  - intros st S I E. exists 1. cbn [parse_expr]. unfold parse_rule_name. unfold G in H. rewrite H.
    pose proof (err_status_nofuel (status * node) (if trace_rules st then push_rule st (s_ "r:" ++ n) else st) (s_ "Missing rule: " ++ n) Critical) as F.
    destruct (err_status _ _ _) as [[? ?]|?| |]; cbn; congruence.
Qed.

End Complete.

(** Both directions, for the engine started in any coherent state. *)
Lemma engine_complete : forall rs st e r,
  sane_rules rs -> sane e -> inv st -> peg (rules_get rs) e (it_parsing st) r ->
  exists f, parse_expr rs f st e <> Fuel /\
  match parse_expr rs f st e with
  | Ok (st', ts) => r = PMatch ts (it_parsing st') /\ inv st' /\ adv st st'
  | Err er => match e_priority er with
              | Normal => r = PFail
              | Critical => exists rest, r = PAbort (e_descr er) rest /\
                              pn (e_pos er) + length rest = length (text2parse st)
              end
  | Panic => ~ ascii (text2parse st)
  | Fuel => False
  end.
Proof.
  intros rs st e r SR S I D. destruct (peg_terminates rs SR e _ r D) as [T _].
  destruct (T st S I eq_refl) as [f F]. exists f. split; [exact F|]. apply run_outcome; assumption.
Qed.
