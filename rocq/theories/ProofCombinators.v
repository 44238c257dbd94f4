(** Proofs about single combinators. *)
From Verif Require Import Base ModelAst ModelParser SpecPeg SpecPos SpecApi SpecCombinators
  ProofParser ProofEngine ProofSim ProofApi.

(* ------------------------------------------------------------------------------------------- *)
(** * [run] *)

Lemma run_at : forall rs st e r f, run rs st e r -> parse_expr rs f st e = r \/ parse_expr rs f st e = Fuel.
Proof.
  intros rs st e r f [N [f0 E]]. destruct (Nat.le_ge_cases f f0) as [L|L].
  - destruct (parse_expr_mono rs f f0 st e L) as [H|H]; [right; exact H|left; congruence].
  - left. rewrite (le_out_eq _ _ _ _ (parse_expr_mono rs f0 f st e L)); congruence.
Qed.

Lemma run_big : forall rs st e r, run rs st e r -> exists f0, forall f, f0 <= f -> parse_expr rs f st e = r.
Proof.
  intros rs st e r [N [f0 E]]. exists f0. intros f L.
  rewrite (le_out_eq _ _ _ _ (parse_expr_mono rs f0 f st e L)); congruence.
Qed.

Lemma run_det : forall rs st e r r', run rs st e r -> run rs st e r' -> r = r'.
Proof.
  intros rs st e r r' H [N [f E]]. destruct (run_at _ _ _ _ f H) as [H0|H0]; congruence.
Qed.

Lemma run_intro : forall rs st e r f, r <> Fuel -> parse_expr rs f st e = r -> run rs st e r.
Proof. intros. split; eauto. Qed.

(* ------------------------------------------------------------------------------------------- *)
(** * not *)

Lemma run_not : forall rs st e r,
  run rs st (Not e) r <->
  ((exists st' ts, run rs st e (Ok (st', ts)) /\ r = err_normal st (s_ "not")) \/
   (exists er, run rs st e (Err er) /\ r = Ok (st, [])) \/
   (run rs st e Panic /\ r = Panic)).
Proof.
  intros rs st e r. split.
  - intros [N [f E]]. destruct f as [|f]; [cbn in E; congruence|]. cbn [parse_expr] in E. unfold parse_not in E.
    destruct (parse_expr rs f st e) as [[st' ts]|er| |] eqn:F; try congruence.
    + left. exists st', ts. split; [eapply run_intro; [discriminate|exact F]|congruence].
    + right. left. exists er. split; [eapply run_intro; [discriminate|exact F]|congruence].
    + right. right. split; [eapply run_intro; [discriminate|exact F]|congruence].
  - intros [(st' & ts & [_ [f E]] & ->)|[(er & [_ [f E]] & ->)|([_ [f E]] & ->)]].
    + apply run_intro with (f := S f); [apply err_status_nofuel|]. cbn [parse_expr]. unfold parse_not. rewrite E. reflexivity.
    + apply run_intro with (f := S f); [discriminate|]. cbn [parse_expr]. unfold parse_not. rewrite E. reflexivity.
    + apply run_intro with (f := S f); [discriminate|]. cbn [parse_expr]. unfold parse_not. rewrite E. reflexivity.
Qed.

Lemma err_status_spec : forall A st d p er, @err_status A st d p = Err er ->
  e_descr er = d /\ e_priority er = p /\ e_pos er = st_pos st /\ e_parsing_rules er = walking_rules st.
Proof.
  intros A st d p er H. unfold err_status, from_status in H. destruct (slice _ _ _); [|discriminate].
  injection H as <-. repeat split.
Qed.

(* ------------------------------------------------------------------------------------------- *)
(** * and *)

Definition run_and (rs : rules) (st : status) (es : list expr) (acc : list node) (r : result_expr) : Prop :=
  r <> Fuel /\ exists f, parse_and (parse_expr rs f) st es acc = r.

Lemma run_and_iff : forall rs st es r, run rs st (And es) r <-> run_and rs st es [] r.
Proof.
  intros rs st es r. split; intros [N [f E]]; (split; [exact N|]).
  - destruct f as [|f]; [cbn in E; congruence|]. exists f. exact E.
  - exists (S f). exact E.
Qed.

Lemma run_and_nil : forall rs st acc r, run_and rs st [] acc r <-> r = Ok (st, acc).
Proof.
  intros rs st acc r. split.
  - intros [N [f E]]. cbn in E. congruence.
  - intros ->. split; [discriminate|]. exists 0. reflexivity.
Qed.

Lemma run_and_cons : forall rs st e es acc r,
  run_and rs st (e :: es) acc r <->
  ((exists st' ts, run rs st e (Ok (st', ts)) /\ run_and rs st' es (acc ++ ts) r) \/
   (exists er, run rs st e (Err er) /\ r = Err er) \/ (run rs st e Panic /\ r = Panic)).
Proof.
  intros rs st e es acc r. split.
  - intros [N [f E]]. cbn [parse_and] in E.
    destruct (parse_expr rs f st e) as [[st' ts]|er| |] eqn:F; try congruence.
    + left. exists st', ts. split; [eapply run_intro; [discriminate|exact F]|]. split; [exact N|]. eauto.
    + right. left. exists er. split; [eapply run_intro; [discriminate|exact F]|congruence].
    + right. right. split; [eapply run_intro; [discriminate|exact F]|congruence].
  - intros [(st' & ts & R & [N [f2 E2]])|[(er & [_ [f E]] & ->)|([_ [f E]] & ->)]].
    + split; [exact N|]. destruct (run_big _ _ _ _ R) as [f0 H0]. exists (Nat.max f0 f2). cbn [parse_and].
      rewrite H0 by lia.
      rewrite (le_out_eq _ _ _ _ (parse_and_mono (parse_expr rs f2) (parse_expr rs (Nat.max f0 f2))
                (fun st e => parse_expr_mono rs f2 (Nat.max f0 f2) st e (Nat.le_max_r f0 f2)) es st' (acc ++ ts))); congruence.
    + split; [discriminate|]. exists f. cbn [parse_and]. rewrite E. reflexivity.
    + split; [discriminate|]. exists f. cbn [parse_and]. rewrite E. reflexivity.
Qed.

Definition prefix_nodes (acc : list node) (r : result_expr) : result_expr :=
  match r with Ok (st, ts) => Ok (st, acc ++ ts) | _ => r end.

Lemma prefix_nodes_nofuel : forall acc r, prefix_nodes acc r <> Fuel <-> r <> Fuel.
Proof. intros acc [[st ts]|er| |]; cbn; split; intro H; congruence. Qed.

Lemma prefix_nodes_app : forall a b r, prefix_nodes a (prefix_nodes b r) = prefix_nodes (a ++ b) r.
Proof. intros a b [[st ts]|er| |]; cbn; try reflexivity. rewrite app_assoc. reflexivity. Qed.

Lemma prefix_nodes_nil : forall r, prefix_nodes [] r = r.
Proof. intros [[st ts]|er| |]; reflexivity. Qed.

Lemma parse_and_acc : forall pe es st acc, parse_and pe st es acc = prefix_nodes acc (parse_and pe st es []).
Proof.
  intros pe es. induction es as [|e es IH]; intros st acc; cbn [parse_and].
  - cbn. rewrite app_nil_r. reflexivity.
  - destruct (pe st e) as [[st' ts]|er| |]; try reflexivity.
    rewrite (IH st' (acc ++ ts)), (IH st' ([] ++ ts)), prefix_nodes_app. reflexivity.
Qed.

Lemma run_and_acc : forall rs st es acc r,
  run_and rs st es acc r <-> exists r0, run_and rs st es [] r0 /\ r = prefix_nodes acc r0.
Proof.
  intros rs st es acc r. split.
  - intros [N [f E]]. rewrite parse_and_acc in E. exists (parse_and (parse_expr rs f) st es []).
    split; [|congruence]. split; [|eauto]. rewrite <- E in N. apply prefix_nodes_nofuel in N. exact N.
  - intros (r0 & [N [f E]] & ->). split; [apply prefix_nodes_nofuel; exact N|]. exists f.
    rewrite parse_and_acc, E. reflexivity.
Qed.

Lemma run_and_app : forall rs es1 es2 st acc r,
  run_and rs st (es1 ++ es2) acc r <->
  ((exists st' ts, run_and rs st es1 acc (Ok (st', ts)) /\ run_and rs st' es2 ts r) \/
   (exists er, run_and rs st es1 acc (Err er) /\ r = Err er) \/ (run_and rs st es1 acc Panic /\ r = Panic)).
Proof.
  intros rs es1. induction es1 as [|e es1 IH]; intros es2 st acc r.
  - cbn [app]. split.
    + intro H. left. exists st, acc. split; [apply run_and_nil; reflexivity|exact H].
    + intros [(st' & ts & H1 & H2)|[(er & H1 & _)|(H1 & _)]]; apply run_and_nil in H1; [|discriminate|discriminate].
      injection H1 as -> ->. exact H2.
  - cbn [app]. rewrite run_and_cons. split.
    + intros [(st' & ts & R & H)|[(er & R & ->)|(R & ->)]].
      * apply IH in H. destruct H as [(st2 & us & H1 & H2)|[(er & H1 & ->)|(H1 & ->)]].
        -- left. exists st2, us. split; [|exact H2]. apply run_and_cons. left. eauto.
        -- right. left. exists er. split; [|reflexivity]. apply run_and_cons. left. eauto.
        -- right. right. split; [|reflexivity]. apply run_and_cons. left. eauto.
      * right. left. exists er. split; [|reflexivity]. apply run_and_cons. right. left. eauto.
      * right. right. split; [|reflexivity]. apply run_and_cons. right. right. auto.
    + intros [(st' & ts & H1 & H2)|[(er & H1 & ->)|(H1 & ->)]]; apply run_and_cons in H1;
        (destruct H1 as [(st1 & us & R & H1)|[(er0 & R & E)|(R & E)]]; try discriminate).
      * left. exists st1, us. split; [exact R|]. apply IH. left. eauto.
      * left. exists st1, us. split; [exact R|]. apply IH. right. left. eauto.
      * right. left. injection E as <-. eauto.
      * left. exists st1, us. split; [exact R|]. apply IH. right. right. auto.
      * right. right. auto.
Qed.

Lemma and_assoc : forall rs st es1 es2 es3 r,
  run rs st (And (es1 ++ And es2 :: es3)) r <-> run rs st (And (es1 ++ es2 ++ es3)) r.
Proof.
  intros rs st es1 es2 es3 r.
  assert (H : forall st acc r, run_and rs st (And es2 :: es3) acc r <-> run_and rs st (es2 ++ es3) acc r).
  { clear. intros st acc r. rewrite run_and_cons, run_and_app. split.
    - intros [(st' & ts & R & H)|[(er & R & ->)|(R & ->)]]; rewrite run_and_iff in R.
      + left. exists st', (acc ++ ts). split; [|exact H]. apply run_and_acc. eexists. split; [exact R|reflexivity].
      + right. left. exists er. split; [|reflexivity]. apply run_and_acc. eexists. split; [exact R|reflexivity].
      + right. right. split; [|reflexivity]. apply run_and_acc. eexists. split; [exact R|reflexivity].
    - intros [(st' & ts & R & H)|[(er & R & ->)|(R & ->)]]; apply run_and_acc in R; destruct R as (r0 & R & E).
      + destruct r0 as [[st0 ts0]|er| |]; cbn in E; try discriminate. injection E as -> ->.
        left. exists st0, ts0. split; [apply run_and_iff; exact R|exact H].
      + destruct r0 as [[st0 ts0]|er0| |]; cbn in E; try discriminate. injection E as ->.
        right. left. exists er0. split; [apply run_and_iff; exact R|reflexivity].
      + destruct r0 as [[st0 ts0]|er0| |]; cbn in E; try discriminate.
        right. right. split; [apply run_and_iff; exact R|reflexivity]. }
  rewrite !run_and_iff, !(run_and_app rs es1). split.
  - intros [(st' & ts & R & X)|X]; [left; exists st', ts; split; [exact R|apply H; exact X]|right; exact X].
  - intros [(st' & ts & R & X)|X]; [left; exists st', ts; split; [exact R|apply H; exact X]|right; exact X].
Qed.

Lemma and_single : forall rs st e r, run rs st (And [e]) r <-> run rs st e r.
Proof.
  intros rs st e r. rewrite run_and_iff, run_and_cons. split.
  - intros [(st' & ts & R & H)|[(er & R & ->)|(R & ->)]]; try exact R. apply run_and_nil in H. subst r. exact R.
  - intro R. destruct r as [[st' ts]|er| |].
    + left. exists st', ts. split; [exact R|]. apply run_and_nil. reflexivity.
    + right. left. eauto.
    + right. right. auto.
    + destruct R as [N _]. contradiction.
Qed.

(* ------------------------------------------------------------------------------------------- *)
(** * or *)

Definition run_or (rs : rules) (st : status) (es : list expr) (o : option perror) (r : result_expr) : Prop :=
  r <> Fuel /\ exists f, parse_or (parse_expr rs f) st es o = r.

Lemma run_or_iff : forall rs st es r, run rs st (Or es) r <-> run_or rs st es None r.
Proof.
  intros rs st es r. split; intros [N [f E]]; (split; [exact N|]).
  - destruct f as [|f]; [cbn in E; congruence|]. exists f. exact E.
  - exists (S f). exact E.
Qed.

Definition or_end (st : status) (o : option perror) : result_expr :=
  match o with Some er => Err er | None => err_normal st msg_logic_error end.

Lemma run_or_nil : forall rs st o r, run_or rs st [] o r <-> r = or_end st o.
Proof.
  intros rs st o r. split.
  - intros [N [f E]]. cbn [parse_or] in E. symmetry. exact E.
  - intros ->. split; [destruct o; [discriminate|apply err_status_nofuel]|]. exists 0. reflexivity.
Qed.

Lemma run_or_cons : forall rs st e es o r,
  run_or rs st (e :: es) o r <->
  ((run rs st e r /\ ~ fails_normally r) \/
   (exists er, run rs st e (Err er) /\ e_priority er = Normal /\ run_or rs st es (deep_err o er) r)).
Proof.
  intros rs st e es o r. split.
  - intros [N [f E]]. cbn [parse_or] in E.
    destruct (parse_expr rs f st e) as [[st' ts]|er| |] eqn:F; try congruence.
    + left. subst r. split; [eapply run_intro; [discriminate|exact F]|]. intros (er & H & _). discriminate.
    + destruct (e_priority er) eqn:P; cbn [is_critical] in E.
      * right. exists er. split; [eapply run_intro; [discriminate|exact F]|]. split; [exact P|]. split; [exact N|]. eauto.
      * left. subst r. split; [eapply run_intro; [discriminate|exact F]|]. intros (er0 & H & H2). injection H as <-. congruence.
    + left. subst r. split; [eapply run_intro; [discriminate|exact F]|]. intros (er & H & _). discriminate.
  - intros [[[N [f E]] H]|(er & R & P & [N [f2 E2]])].
    + split; [exact N|]. exists f. cbn [parse_or]. rewrite E. destruct r as [[st' ts]|er| |]; try congruence.
      destruct (e_priority er) eqn:P; [|reflexivity]. exfalso. apply H. exists er. auto.
    + split; [exact N|]. destruct (run_big _ _ _ _ R) as [f0 H0]. exists (Nat.max f0 f2). cbn [parse_or].
      rewrite H0 by lia. rewrite P. cbn [is_critical].
      rewrite (le_out_eq _ _ _ _ (parse_or_mono (parse_expr rs f2) (parse_expr rs (Nat.max f0 f2))
                (fun st e => parse_expr_mono rs f2 (Nat.max f0 f2) st e (Nat.le_max_r f0 f2)) es st (deep_err o er))); congruence.
Qed.

(** The errors of a list of alternatives that all fail normally. *)
Definition all_fail (rs : rules) (st : status) (es : list expr) (ers : list perror) : Prop :=
  Forall2 (fun e er => run rs st e (Err er) /\ e_priority er = Normal) es ers.

Definition deep_fold (o : option perror) (ers : list perror) : option perror := fold_left deep_err ers o.

Lemma run_or_spec : forall rs st es o r,
  run_or rs st es o r <->
  ((exists l1 e l2 ers, es = l1 ++ e :: l2 /\ all_fail rs st l1 ers /\ run rs st e r /\ ~ fails_normally r) \/
   (exists ers, all_fail rs st es ers /\ r = or_end st (deep_fold o ers))).
Proof.
  intros rs st es. induction es as [|e es IH]; intros o r.
  - rewrite run_or_nil. split.
    + intros ->. right. exists []. split; [constructor|reflexivity].
    + intros [(l1 & e & l2 & ers & H & _)|(ers & H & ->)]; [destruct l1; discriminate|]. inversion H; subst. reflexivity.
  - rewrite run_or_cons. split.
    + intros [[R N]|(er & R & P & H)].
      * left. exists [], e, es, []. repeat split; try assumption; try constructor; apply R.
      * apply IH in H. destruct H as [(l1 & e1 & l2 & ers & -> & A & R1 & N)|(ers & A & ->)].
        -- left. exists (e :: l1), e1, l2, (er :: ers). split; [reflexivity|]. split; [|split; assumption].
           constructor; [split; assumption|exact A].
        -- right. exists (er :: ers). split; [constructor; [split; assumption|exact A]|]. reflexivity.
    + intros [(l1 & e1 & l2 & ers & H & A & R1 & N)|(ers & A & ->)].
      * destruct l1 as [|x l1]; cbn in H; injection H as -> ->.
        -- left. split; assumption.
        -- inversion A; subst. right. exists y. destruct H1 as [H1 H2]. split; [exact H1|]. split; [exact H2|].
           apply IH. left. exists l1, e1, l2, l'. auto.
      * inversion A; subst. destruct H1 as [H1 H2]. right. exists y. split; [exact H1|]. split; [exact H2|].
        apply IH. right. exists l'. auto.
Qed.

Lemma all_fail_det : forall rs st es a b, all_fail rs st es a -> all_fail rs st es b -> a = b.
Proof.
  intros rs st es a b A. revert b. induction A as [|e x es a [R _] A IH]; intros b B.
  - inversion B. reflexivity.
  - inversion B as [|e0 y es0 b0 [R0 _] B0]; subst. f_equal; [|apply IH; assumption].
    pose proof (run_det _ _ _ _ _ R R0). congruence.
Qed.

Lemma deep_err_normal : forall x y, e_priority x = Normal -> e_priority y = Normal ->
  deep_err (Some x) y = if pn (e_pos y) <? pn (e_pos x) then Some x else Some y.
Proof. intros x y Hx Hy. unfold deep_err. rewrite Hx, Hy. reflexivity. Qed.

Lemma deep_fold_some : forall ers x, e_priority x = Normal -> Forall (fun e => e_priority e = Normal) ers ->
  exists y, deep_fold (Some x) ers = Some y /\ last_furthest (x :: ers) y.
Proof.
  intros ers. induction ers as [|e ers IH] using rev_ind; intros x Hx HN.
  - exists x. split; [reflexivity|]. exists [], []. repeat split; constructor.
  - apply Forall_app in HN. destruct HN as [HN He]. inversion He; subst. destruct (IH x Hx HN) as (y & D & before & after & E & B & A).
    unfold deep_fold in *. rewrite fold_left_app, D. cbn [fold_left].
    assert (Hy : e_priority y = Normal).
    { assert (Forall (fun e => e_priority e = Normal) (x :: ers)) by (constructor; assumption).
      rewrite E in H. apply Forall_app in H. destruct H as [_ H]. inversion H; assumption. }
    rewrite deep_err_normal by assumption. destruct (Nat.ltb_spec (pn (e_pos e)) (pn (e_pos y))).
    + exists y. split; [reflexivity|]. exists before, (after ++ [e]). rewrite app_comm_cons, E, <- app_assoc. cbn.
      split; [reflexivity|]. split; [exact B|]. apply Forall_app. split; [exact A|]. constructor; [lia|constructor].
    + exists e. split; [reflexivity|]. exists (x :: ers), []. cbn. split; [reflexivity|]. split; [|constructor].
      rewrite E. apply Forall_app. split.
      * eapply Forall_impl; [|exact B]. cbn. intros; lia.
      * constructor; [lia|]. eapply Forall_impl; [|exact A]. cbn. intros; lia.
Qed.

Lemma deep_fold_first : forall er ers, deep_fold None (er :: ers) = deep_fold (Some er) ers.
Proof. reflexivity. Qed.

Lemma or_furthest : forall rs st es ers r,
  es <> [] -> all_fail rs st es ers -> run rs st (Or es) r ->
  exists er, r = Err er /\ last_furthest ers er.
Proof.
  intros rs st es ers r NE A R. apply run_or_iff, run_or_spec in R.
  destruct R as [(l1 & e & l2 & ers1 & -> & A1 & R1 & N)|(ers1 & A1 & ->)].
  - exfalso. apply Forall2_app_inv_l in A. destruct A as (x & y & A2 & A3 & ->). inversion A3; subst.
    apply N. destruct H1 as [H1 H2]. exists y0. split; [|exact H2]. eapply run_det; eassumption.
  - pose proof (all_fail_det _ _ _ _ _ A A1) as <-.
    destruct A as [|e er es' ers' [H1 H2] A]; [contradiction|].
    destruct (deep_fold_some ers' er H2) as (y & D & L).
    { clear - A. induction A as [|? ? ? ? [_ H]]; constructor; assumption. }
    exists y. split; [|exact L]. rewrite deep_fold_first, D. reflexivity.
Qed.

Lemma deep_fold_normal : forall ers o y, match o with Some x => e_priority x = Normal | None => True end ->
  Forall (fun e => e_priority e = Normal) ers -> deep_fold o ers = Some y -> e_priority y = Normal.
Proof.
  intros ers. induction ers as [|e ers IH]; intros o y Ho Hn H; cbn in H.
  - subst o. exact Ho.
  - inversion Hn; subst. eapply IH; [|exact H3|exact H]. unfold deep_err. destruct o as [x|]; [|assumption].
    destruct (prio_gt (e_priority x) (e_priority e)), (pn (e_pos e) <? pn (e_pos x)); assumption.
Qed.

Lemma deep_err_assoc : forall o x y, match o with Some x => e_priority x = Normal | None => True end ->
  e_priority x = Normal -> e_priority y = Normal ->
  deep_err (deep_err o x) y = match deep_err (Some x) y with Some z => deep_err o z | None => None end.
Proof.
  intros o x y Ho Hx Hy. rewrite (deep_err_normal x y Hx Hy). destruct o as [w|].
  - rewrite (deep_err_normal w x Ho Hx).
    destruct (Nat.ltb_spec (pn (e_pos x)) (pn (e_pos w))), (Nat.ltb_spec (pn (e_pos y)) (pn (e_pos x)));
      rewrite ?deep_err_normal by assumption;
      destruct (Nat.ltb_spec (pn (e_pos y)) (pn (e_pos w)));
      destruct (Nat.ltb_spec (pn (e_pos y)) (pn (e_pos x)));
      destruct (Nat.ltb_spec (pn (e_pos x)) (pn (e_pos w))); try reflexivity; try lia.
  - unfold deep_err at 2. rewrite (deep_err_normal x y Hx Hy). destruct (pn (e_pos y) <? pn (e_pos x)); reflexivity.
Qed.

Lemma deep_fold_nested : forall ers o x, match o with Some x => e_priority x = Normal | None => True end ->
  e_priority x = Normal -> Forall (fun e => e_priority e = Normal) ers ->
  deep_fold o (x :: ers) = match deep_fold (Some x) ers with Some z => deep_err o z | None => None end.
Proof.
  intros ers. induction ers as [|e ers IH] using rev_ind; intros o x Ho Hx Hn; [reflexivity|].
  apply Forall_app in Hn. destruct Hn as [Hn He]. inversion He; subst.
  specialize (IH o x Ho Hx Hn). unfold deep_fold in *. rewrite app_comm_cons, !fold_left_app, IH. cbn [fold_left].
  destruct (deep_fold_some ers x Hx Hn) as (y & D & L). unfold deep_fold in D. rewrite D.
  apply deep_err_assoc; try assumption. eapply (deep_fold_normal ers (Some x)); eassumption.
Qed.

Lemma all_fail_normal : forall rs st es ers, all_fail rs st es ers -> Forall (fun e => e_priority e = Normal) ers.
Proof. intros rs st es ers A. induction A as [|? ? ? ? [_ H]]; constructor; assumption. Qed.

Lemma or_nested : forall rs st es2 es3 o r, es2 <> [] ->
  match o with Some x => e_priority x = Normal | None => True end ->
  (run_or rs st (Or es2 :: es3) o r <-> run_or rs st (es2 ++ es3) o r).
Proof.
  intros rs st es2 es3 o r NE Ho. split.
  - intro H. apply run_or_cons in H. destruct H as [[R N]|(er & R & P & H)].
    + apply run_or_iff, run_or_spec in R. destruct R as [(l1 & e & l2 & ers & -> & A & R1 & N1)|(ers & A & ->)].
      * apply run_or_spec. left. exists l1, e, (l2 ++ es3), ers. rewrite <- app_assoc. auto.
      * exfalso. apply N. destruct A as [|e er es' ers' [H1 H2] A]; [contradiction|].
        destruct (deep_fold_some ers' er H2 (all_fail_normal _ _ _ _ A)) as (y & D & L).
        rewrite deep_fold_first, D. exists y. split; [reflexivity|].
        eapply (deep_fold_normal ers' (Some er)); [exact H2|apply (all_fail_normal _ _ _ _ A)|exact D].
    + apply run_or_iff, run_or_spec in R. destruct R as [(l1 & e & l2 & ers & -> & A & R1 & N1)|(ers & A & E)].
      * exfalso. apply N1. exists er. auto.
      * destruct A as [|e er0 es' ers' [H1 H2] A]; [contradiction|].
        assert (D : deep_err o er = deep_fold o (er0 :: ers')).
        { rewrite deep_fold_nested; [|exact Ho|exact H2|apply (all_fail_normal _ _ _ _ A)].
          destruct (deep_fold_some ers' er0 H2 (all_fail_normal _ _ _ _ A)) as (y & D & L).
          rewrite deep_fold_first, D in E. rewrite D. cbn in E. congruence. }
        rewrite D in H. apply run_or_spec in H. apply run_or_spec.
        destruct H as [(l1 & e1 & l2 & ers & -> & A1 & R1 & N1)|(ers & A1 & ->)].
        -- left. exists ((e :: es') ++ l1), e1, l2, ((er0 :: ers') ++ ers). rewrite <- app_assoc. split; [reflexivity|].
           split; [|auto]. apply Forall2_app; [constructor; [split; assumption|exact A]|exact A1].
        -- right. exists ((er0 :: ers') ++ ers). split.
           ++ apply Forall2_app; [constructor; [split; assumption|exact A]|exact A1].
           ++ unfold deep_fold. rewrite fold_left_app. reflexivity.
  - intro H. apply run_or_spec in H.
    assert (SPLIT : forall ers, all_fail rs st es2 ers -> forall r1, run_or rs st es3 (deep_fold o ers) r1 -> run_or rs st (Or es2 :: es3) o r1).
    { intros ers A r1 H1. apply run_or_cons. right.
      destruct A as [|e er0 es' ers' [X1 X2] A]; [contradiction|].
      destruct (deep_fold_some ers' er0 X2 (all_fail_normal _ _ _ _ A)) as (y & D & L).
      assert (Y : e_priority y = Normal).
      { eapply (deep_fold_normal ers' (Some er0)); [exact X2|apply (all_fail_normal _ _ _ _ A)|exact D]. }
      exists y. split; [|split; [exact Y|]].
      - apply run_or_iff, run_or_spec. right. exists (er0 :: ers'). split; [constructor; [split; assumption|exact A]|].
        rewrite deep_fold_first, D. reflexivity.
      - rewrite deep_fold_nested in H1; [|exact Ho|exact X2|apply (all_fail_normal _ _ _ _ A)]. rewrite D in H1. exact H1. }
    destruct H as [(l1 & e & l2 & ers & E & A & R1 & N1)|(ers & A & ->)].
    + (* is the hit inside es2 ? *)
      assert (C : (exists l2', es2 = l1 ++ e :: l2') \/ (exists l1', l1 = es2 ++ l1' /\ es3 = l1' ++ e :: l2)).
      { clear - E. revert l1 E. induction es2 as [|x es2 IH]; intros l1 E; cbn in E.
        - right. exists l1. auto.
        - destruct l1 as [|y l1]; cbn in E; injection E as -> E.
          + left. exists es2. reflexivity.
          + destruct (IH l1 E) as [(l2' & ->)|(l1' & -> & ->)]; [left|right]; eexists; [reflexivity|split; reflexivity]. }
      destruct C as [(l2' & ->)|(l1' & -> & ->)].
      * apply run_or_cons. left. split; [|exact N1]. apply run_or_iff, run_or_spec. left. exists l1, e, l2', ers. auto.
      * apply Forall2_app_inv_l in A. destruct A as (x & y & A1 & A2 & ->). apply (SPLIT x A1).
        apply run_or_spec. left. exists l1', e, l2, y. auto.
    + apply Forall2_app_inv_l in A. destruct A as (x & y & A1 & A2 & ->). apply (SPLIT x A1).
      apply run_or_spec. right. exists y. split; [exact A2|]. unfold deep_fold. rewrite fold_left_app. reflexivity.
Qed.

Lemma or_assoc : forall rs st es1 es2 es3 r, es2 <> [] ->
  (run rs st (Or (es1 ++ Or es2 :: es3)) r <-> run rs st (Or (es1 ++ es2 ++ es3)) r).
Proof.
  intros rs st es1 es2 es3 r NE. rewrite !run_or_iff.
  assert (H : forall o, match o with Some x => e_priority x = Normal | None => True end ->
     (run_or rs st (es1 ++ Or es2 :: es3) o r <-> run_or rs st (es1 ++ es2 ++ es3) o r)).
  { induction es1 as [|e es1 IH]; intros o Ho; cbn [app]; [apply or_nested; assumption|].
    rewrite !run_or_cons.
    assert (K : forall er, e_priority er = Normal -> match deep_err o er with Some x => e_priority x = Normal | None => True end).
    { intros er P. unfold deep_err. destruct o as [x|]; [|exact P].
      destruct (prio_gt (e_priority x) (e_priority er)), (pn (e_pos er) <? pn (e_pos x)); assumption. }
    split; intros [X|(er & R & P & X)].
    - left. exact X.
    - right. exists er. split; [exact R|]. split; [exact P|]. apply (IH (deep_err o er) (K er P)). exact X.
    - left. exact X.
    - right. exists er. split; [exact R|]. split; [exact P|]. apply (IH (deep_err o er) (K er P)). exact X. }
  apply H. exact I.
Qed.

Lemma or_single : forall rs st e r, run rs st (Or [e]) r <-> run rs st e r.
Proof.
  intros rs st e r. rewrite run_or_iff, run_or_cons. split.
  - intros [[R _]|(er & R & P & H)]; [exact R|]. apply run_or_nil in H. cbn in H. subst r. exact R.
  - intro R. destruct r as [[st' ts]|er| |].
    + left. split; [exact R|]. intros (er & H & _). discriminate.
    + destruct (e_priority er) eqn:P.
      * right. exists er. split; [exact R|]. split; [exact P|]. apply run_or_nil. reflexivity.
      * left. split; [exact R|]. intros (er0 & H & H2). congruence.
    + left. split; [exact R|]. intros (er & H & _). discriminate.
    + destruct R as [N _]. contradiction.
Qed.

(* ------------------------------------------------------------------------------------------- *)
(** * repeat *)

Definition run_rep (rs : rules) (st : status) (e : expr) mn mx c acc (r : result_expr) : Prop :=
  r <> Fuel /\ exists f, parse_repeat f (parse_expr rs f) st e mn mx c acc = r.

Lemma run_rep_iff : forall rs st e mn mx r, run rs st (Repeat e mn mx) r <-> run_rep rs st e mn mx 0 [] r.
Proof.
  intros. split; intros [N [f E]]; (split; [exact N|]).
  - destruct f as [|f]; [cbn in E; congruence|]. exists f. exact E.
  - exists (S f). exact E.
Qed.

Definition rep_stop (st : status) (mn c : nat) (acc : list node) (er : perror) : result_expr :=
  if big_min_bound mn c then
    if is_critical (e_priority er) then Err er else Ok (set_potential_error st er, acc)
  else Err er.

Lemma run_rep_unfold : forall rs st e mn mx c acc r,
  run_rep rs st e mn mx c acc r <->
  ((exists st' ts, run rs st e (Ok (st', ts)) /\
      if touch_max_bound mx c then r = Ok (st', acc ++ ts) else run_rep rs st' e mn mx (c + 1) (acc ++ ts) r) \/
   (exists er, run rs st e (Err er) /\ r = rep_stop st mn c acc er) \/
   (run rs st e Panic /\ r = Panic)).
Proof.
  intros rs st e mn mx c acc r. split.
  - intros [N [f E]]. destruct f as [|f]; [cbn in E; congruence|]. cbn [parse_repeat] in E.
    destruct (parse_expr rs (S f) st e) as [[st' ts]|er| |] eqn:F; try congruence.
    + left. exists st', ts. split; [eapply run_intro; [discriminate|exact F]|].
      destruct (touch_max_bound mx c); [congruence|]. split; [exact N|]. exists (S f).
      rewrite <- E. apply le_out_eq; [|congruence]. apply parse_repeat_mono; [intros; apply le_out_refl|lia].
    + right. left. exists er. split; [eapply run_intro; [discriminate|exact F]|]. unfold rep_stop. congruence.
    + right. right. split; [eapply run_intro; [discriminate|exact F]|congruence].
  - intros [(st' & ts & R & H)|[(er & R & ->)|(R & ->)]]; destruct (run_big _ _ _ _ R) as [f0 H0].
    + destruct (touch_max_bound mx c) eqn:T.
      * subst r. split; [discriminate|]. exists (S f0). cbn [parse_repeat]. rewrite H0 by lia. rewrite T. reflexivity.
      * destruct H as [N [f E]]. split; [exact N|]. exists (S (Nat.max f f0)). cbn [parse_repeat]. rewrite H0 by lia. rewrite T.
        rewrite <- E. apply le_out_eq; [|congruence]. apply parse_repeat_mono; [intros; apply parse_expr_mono; lia|lia].
    + split; [unfold rep_stop; destruct (big_min_bound mn c), (is_critical (e_priority er)); discriminate|].
      exists (S f0). cbn [parse_repeat]. rewrite H0 by lia. reflexivity.
    + split; [discriminate|]. exists (S f0). cbn [parse_repeat]. rewrite H0 by lia. reflexivity.
Qed.

(** Fuel-indexed soundness of the loop with respect to [reps]. *)
Lemma parse_repeat_reps : forall rs e mn mx f g st c acc,
  match mx with Some m => c < m | None => True end ->
  match parse_repeat g (parse_expr rs f) st e mn mx c acc with
  | Ok (st', ts) =>
      exists k us stk, reps rs e st k us stk /\ ts = acc ++ us /\
        ((mx = Some (c + k) /\ st' = stk) \/
         (exists er, run rs stk e (Err er) /\ e_priority er = Normal /\ st' = set_potential_error stk er /\
            mn <= c + k /\ match mx with Some m => c + k < m | None => True end))
  | Err er =>
      exists k us stk, reps rs e st k us stk /\ run rs stk e (Err er) /\
        (e_priority er = Critical \/ c + k < mn) /\ match mx with Some m => c + k < m | None => True end
  | Panic => exists k us stk, reps rs e st k us stk /\ run rs stk e Panic
  | Fuel => True
  end.
Proof.
  intros rs e mn mx f g. induction g as [|g IH]; intros st c acc L; cbn [parse_repeat]; [exact I|].
  destruct (parse_expr rs f st e) as [[st1 ts1]|er| |] eqn:F; [| | |exact I].
  - assert (R : run rs st e (Ok (st1, ts1))) by (eapply run_intro; [discriminate|exact F]).
    destruct (touch_max_bound mx c) eqn:T.
    + exists 1, (ts1 ++ []), st1. split; [econstructor; [exact R|constructor]|]. rewrite app_nil_r. split; [reflexivity|].
      left. destruct mx as [m|]; [|discriminate]. cbn in T. apply Nat.eqb_eq in T. subst m. auto.
    + assert (L' : match mx with Some m => c + 1 < m | None => True end).
      { destruct mx as [m|]; [|exact I]. cbn in T. apply Nat.eqb_neq in T. lia. }
      specialize (IH st1 (c + 1) (acc ++ ts1) L').
      destruct (parse_repeat g (parse_expr rs f) st1 e mn mx (c + 1) (acc ++ ts1)) as [[st2 ts2]|er| |]; [| | |exact I].
      * destruct IH as (k & us & stk & Rk & -> & H). exists (S k), (ts1 ++ us), stk.
        split; [econstructor; eassumption|]. rewrite app_assoc. split; [reflexivity|].
        replace (c + S k) with (c + 1 + k) by lia. exact H.
      * destruct IH as (k & us & stk & Rk & Re & H). exists (S k), (ts1 ++ us), stk.
        split; [econstructor; eassumption|]. replace (c + S k) with (c + 1 + k) by lia. auto.
      * destruct IH as (k & us & stk & Rk & Re). exists (S k), (ts1 ++ us), stk. split; [econstructor; eassumption|exact Re].
  - assert (R : run rs st e (Err er)) by (eapply run_intro; [discriminate|exact F]).
    unfold big_min_bound. destruct (Nat.leb_spec mn c) as [B|B].
    + destruct (e_priority er) eqn:P; cbn [is_critical].
      * exists 0, [], st. split; [constructor|]. rewrite app_nil_r. split; [reflexivity|]. right.
        exists er. rewrite Nat.add_0_r. auto.
      * exists 0, [], st. split; [constructor|]. rewrite Nat.add_0_r. auto.
    + exists 0, [], st. split; [constructor|]. rewrite Nat.add_0_r. auto.
  - exists 0, [], st. split; [constructor|]. eapply run_intro; [discriminate|exact F].
Qed.

Lemma rep_bounds : forall rs st e mn mx r,
  match mx with Some m => 1 <= m /\ mn <= m | None => True end ->
  run rs st (Repeat e mn mx) r ->
  match r with
  | Ok (st', ts) =>
      exists k stk, reps rs e st k ts stk /\ mn <= k /\ match mx with Some m => k <= m | None => True end /\
        ((mx = Some k /\ st' = stk) \/
         (exists er, run rs stk e (Err er) /\ e_priority er = Normal /\ st' = set_potential_error stk er))
  | Err er =>
      exists k ts stk, reps rs e st k ts stk /\ run rs stk e (Err er) /\
        (e_priority er = Critical \/ k < mn) /\ match mx with Some m => k < m | None => True end
  | Panic => exists k ts stk, reps rs e st k ts stk /\ run rs stk e Panic
  | Fuel => False
  end.
Proof.
  intros rs st e mn mx r B [N [f E]]. destruct f as [|f]; [cbn in E; congruence|]. cbn [parse_expr] in E.
  assert (L : match mx with Some m => 0 < m | None => True end) by (destruct mx; [lia|exact I]).
  pose proof (parse_repeat_reps rs e mn mx f f st 0 [] L) as H. rewrite E in H.
  destruct r as [[st' ts]|er| |]; try assumption; [|contradiction].
  destruct H as (k & us & stk & R & -> & H). cbn in *. exists k, stk. split; [exact R|].
  destruct H as [[-> ->]|(er & H1 & H2 & H3 & H4 & H5)].
  - repeat split; try lia. left. auto.
  - repeat split; try lia; [destruct mx; lia|]. right. eauto.
Qed.

(** One-or-more is one followed by zero-or-more. *)
Lemma run_rep_shift : forall rs e f g st c d acc acc' mn mn',
  mn <= c -> mn' <= d ->
  forall r, r <> Fuel -> parse_repeat g (parse_expr rs f) st e mn None c acc = prefix_nodes acc r ->
  parse_repeat g (parse_expr rs f) st e mn' None d acc' = prefix_nodes acc' r.
Proof.
  intros rs e f g. induction g as [|g IH]; intros st c d acc acc' mn mn' H1 H2 r N H; cbn [parse_repeat] in *.
  - destruct r as [[? ?]|?| |]; cbn in H; congruence.
  - destruct (parse_expr rs f st e) as [[st1 ts1]|er| |] eqn:F.
    + cbn [touch_max_bound] in *.
      assert (X : exists r0, r0 <> Fuel /\ r = prefix_nodes ts1 r0 /\ 
         parse_repeat g (parse_expr rs f) st1 e mn None (c + 1) (acc ++ ts1) = prefix_nodes (acc ++ ts1) r0).
      { assert (G : forall g st c acc mn, exists r0, parse_repeat g (parse_expr rs f) st e mn None c acc = prefix_nodes acc r0).
        { clear. induction g as [|g IH]; intros st c acc mn; cbn [parse_repeat]; [exists Fuel; reflexivity|].
          destruct (parse_expr rs f st e) as [[st1 ts1]|er| |].
          - cbn [touch_max_bound]. destruct (IH st1 (c + 1) (acc ++ ts1) mn) as [r0 ->]. exists (prefix_nodes ts1 r0).
            rewrite prefix_nodes_app. reflexivity.
          - destruct (big_min_bound mn c), (is_critical (e_priority er)); try (exists (Err er); reflexivity).
            exists (Ok (set_potential_error st er, [])). cbn. rewrite app_nil_r. reflexivity.
          - exists Panic. reflexivity.
          - exists Fuel. reflexivity. }
        destruct (G g st1 (c + 1) (acc ++ ts1) mn) as [r0 E0]. exists r0. rewrite E0 in H. rewrite <- prefix_nodes_app in H.
        assert (I : forall a x y, prefix_nodes a x = prefix_nodes a y -> x = y).
        { clear. intros a [[? ?]|?| |] [[? ?]|?| |] H; cbn in H; try congruence. injection H as -> H. apply app_inv_head in H. congruence. }
        apply I in H. split; [intro Z; subst r0; cbn in H; congruence|]. split; [congruence|exact E0]. }
      destruct X as (r0 & N0 & -> & E0). rewrite prefix_nodes_app. eapply IH; [| |exact N0|exact E0]; lia.
    + assert (B1 : big_min_bound mn c = true) by (apply Nat.leb_le; exact H1).
      assert (B2 : big_min_bound mn' d = true) by (apply Nat.leb_le; exact H2).
      rewrite B1 in H. rewrite B2. destruct (is_critical (e_priority er)).
      * destruct r as [[? ?]|?| |]; cbn in *; congruence.
      * destruct r as [[? ?]|?| |]; cbn in *; try congruence. injection H as <- H.
        assert (l = []) by (apply (app_inv_head acc); rewrite app_nil_r; auto). subst l. rewrite app_nil_r. reflexivity.
    + destruct r as [[? ?]|?| |]; cbn in *; congruence.
    + destruct r as [[? ?]|?| |]; cbn in *; congruence.
Qed.

Lemma plus_is_one_star : forall rs st e r,
  run rs st (Repeat e 1 None) r <-> run rs st (And [e; Repeat e 0 None]) r.
Proof.
  intros rs st e r. rewrite run_rep_iff, run_rep_unfold, run_and_iff, run_and_cons. cbn [touch_max_bound].
  assert (K : forall st' ts, run_rep rs st' e 1 None (0 + 1) ([] ++ ts) r <-> run_and rs st' [Repeat e 0 None] ([] ++ ts) r).
  { intros st' ts. cbn [app]. rewrite run_and_cons. split.
    - intros [N [f E]].
      assert (X : exists r0, r0 <> Fuel /\ r = prefix_nodes ts r0 /\ parse_repeat f (parse_expr rs f) st' e 0 None 0 [] = r0).
      { pose proof (run_rep_shift rs e f f st' 1 0 ts [] 1 0 (le_n 1) (le_n 0)) as S.
        assert (G : exists r0, r = prefix_nodes ts r0).
        { rewrite <- E. clear. generalize f at 1. intro g. revert st' ts. generalize (0 + 1) as c.
          assert (forall g st c acc, exists r0, parse_repeat g (parse_expr rs f) st e 1 None c acc = prefix_nodes acc r0).
          { clear. induction g as [|g IH]; intros st c acc; cbn [parse_repeat]; [exists Fuel; reflexivity|].
            destruct (parse_expr rs f st e) as [[st1 ts1]|er| |].
            - cbn [touch_max_bound]. destruct (IH st1 (c + 1) (acc ++ ts1)) as [r0 ->]. exists (prefix_nodes ts1 r0).
              rewrite prefix_nodes_app. reflexivity.
            - destruct (big_min_bound 1 c), (is_critical (e_priority er)); try (exists (Err er); reflexivity).
              exists (Ok (set_potential_error st er, [])). cbn. rewrite app_nil_r. reflexivity.
            - exists Panic. reflexivity.
            - exists Fuel. reflexivity. }
          intros. apply H. }
        destruct G as [r0 G]. exists r0. assert (N0 : r0 <> Fuel) by (intro Z; rewrite Z in G; apply N; exact G).
        split; [exact N0|]. split; [exact G|]. rewrite <- (prefix_nodes_nil r0). apply S; [exact N0|]. cbn in E. congruence. }
      destruct X as (r0 & N0 & -> & E0).
      assert (R : run rs st' (Repeat e 0 None) r0) by (apply run_rep_iff; split; [exact N0|eauto]).
      destruct r0 as [[st2 us]|er| |]; cbn.
      + left. exists st2, us. split; [exact R|]. apply run_and_nil. reflexivity.
      + right. left. eauto.
      + right. right. auto.
      + contradiction.
    - intro H.
      assert (X : exists r0, run rs st' (Repeat e 0 None) r0 /\ r = prefix_nodes ts r0).
      { destruct H as [(st2 & us & R & H)|[(er & R & ->)|(R & ->)]].
        - apply run_and_nil in H. subst r. exists (Ok (st2, us)). split; [exact R|reflexivity].
        - exists (Err er). split; [exact R|reflexivity].
        - exists Panic. split; [exact R|reflexivity]. }
      destruct X as (r0 & R & ->). apply run_rep_iff in R. destruct R as [N [f E]].
      split; [apply prefix_nodes_nofuel; exact N|]. exists f.
      apply (run_rep_shift rs e f f st' 0 (0 + 1) [] ts 0 1); [lia|lia|exact N|]. rewrite prefix_nodes_nil. exact E. }
  split.
  - intros [(st' & ts & R & H)|[(er & R & ->)|(R & ->)]].
    + left. exists st', ts. split; [exact R|]. apply K. exact H.
    + right. left. exists er. split; [exact R|reflexivity].
    + right. right. auto.
  - intros [(st' & ts & R & H)|[(er & R & ->)|(R & ->)]].
    + left. exists st', ts. split; [exact R|]. apply K. exact H.
    + right. left. exists er. split; [exact R|reflexivity].
    + right. right. auto.
Qed.

(** [e?] is [e / ()], except that the failed attempt is remembered as pending error. *)
Lemma optional_is_choice : forall rs st e r1 r2,
  run rs st (Repeat e 0 (Some 1)) r1 -> run rs st (Or [e; And []]) r2 -> forget r1 = forget r2.
Proof.
  intros rs st e r1 r2 H1 H2. apply run_rep_iff, run_rep_unfold in H1. cbn in H1.
  apply run_or_iff, run_or_cons in H2.
  destruct H1 as [(st' & ts & R & ->)|[(er & R & ->)|(R & ->)]].
  - destruct H2 as [[R2 N]|(er & R2 & _)]; pose proof (run_det _ _ _ _ _ R R2); [congruence|discriminate].
  - destruct H2 as [[R2 N]|(er2 & R2 & P & H2)]; pose proof (run_det _ _ _ _ _ R R2) as E.
    + subst r2. unfold rep_stop. cbn. destruct (e_priority er) eqn:P; [|reflexivity]. exfalso. apply N. exists er. auto.
    + injection E as <-. unfold rep_stop. rewrite P. cbn. apply run_or_cons in H2.
      destruct H2 as [[R3 N]|(er3 & R3 & _)]; apply run_and_iff, run_and_nil in R3; [subst r2; reflexivity|discriminate].
  - destruct H2 as [[R2 N]|(er & R2 & _)]; pose proof (run_det _ _ _ _ _ R R2); [subst r2; reflexivity|discriminate].
Qed.

Lemma optional_terminates_as_choice : forall rs st e,
  (exists r, run rs st (Repeat e 0 (Some 1)) r) <-> (exists r, run rs st (Or [e; And []]) r).
Proof.
  intros rs st e. split; intros [r H].
  - apply run_rep_iff, run_rep_unfold in H. cbn in H.
    destruct H as [(st' & ts & R & ->)|[(er & R & ->)|(R & ->)]].
    + eexists. apply run_or_iff, run_or_cons. left. split; [exact R|]. intros (er & E & _). discriminate.
    + destruct (e_priority er) eqn:P.
      * exists (Ok (st, [])). apply run_or_iff, run_or_cons. right. exists er. split; [exact R|]. split; [exact P|].
        apply run_or_cons. left. split; [|intros (er0 & E & _); discriminate]. apply run_and_iff, run_and_nil. reflexivity.
      * eexists. apply run_or_iff, run_or_cons. left. split; [exact R|]. intros (er0 & E & E2). congruence.
    + eexists. apply run_or_iff, run_or_cons. left. split; [exact R|]. intros (er & E & _). discriminate.
  - apply run_or_iff, run_or_cons in H. destruct H as [[R N]|(er & R & P & H)].
    + destruct r as [[st' ts]|er| |].
      * eexists. apply run_rep_iff, run_rep_unfold. left. exists st', ts. split; [exact R|]. cbn. reflexivity.
      * eexists. apply run_rep_iff, run_rep_unfold. right. left. exists er. split; [exact R|reflexivity].
      * eexists. apply run_rep_iff, run_rep_unfold. right. right. split; [exact R|reflexivity].
      * destruct R as [Z _]. contradiction.
    + eexists. apply run_rep_iff, run_rep_unfold. right. left. exists er. split; [exact R|reflexivity].
Qed.

(* ------------------------------------------------------------------------------------------- *)
(** * not not *)

Lemma not_not : forall rs st e st' ts,
  run rs st (Not (Not e)) (Ok (st', ts)) -> st' = st /\ ts = [] /\ exists st1 us, run rs st e (Ok (st1, us)).
Proof.
  intros rs st e st' ts H. apply run_not in H.
  destruct H as [(st1 & us & _ & H)|[(er & R & H)|(_ & H)]]; [|injection H as -> ->|discriminate].
  - unfold err_normal, err_status in H. destruct (from_status st (s_ "not") Normal); discriminate.
  - split; [reflexivity|]. split; [reflexivity|]. apply run_not in R.
    destruct R as [(st1 & us & R & _)|[(er1 & _ & R)|(_ & R)]]; try discriminate. eauto.
Qed.

Lemma not_not_conv : forall rs st e st1 us,
  from_status st (s_ "not") Normal <> None ->
  run rs st e (Ok (st1, us)) -> run rs st (Not (Not e)) (Ok (st, [])).
Proof.
  intros rs st e st1 us F R. apply run_not. right. left.
  destruct (from_status st (s_ "not") Normal) as [er|] eqn:E; [|contradiction]. exists er. split; [|reflexivity].
  apply run_not. left. exists st1, us. split; [exact R|]. unfold err_normal, err_status. rewrite E. reflexivity.
Qed.

(* ------------------------------------------------------------------------------------------- *)
(** * Divergence *)

Lemma left_recursion : forall rs n e, rules_get rs n = Some e -> starts_with n e ->
  forall fuel st x, starts_with n x -> parse_expr rs fuel st x = Fuel.
Proof.
  intros rs n e E S. induction fuel as [|f IH]; intros st x X; [reflexivity|].
  inversion X; subst; cbn [parse_expr].
  - unfold parse_rule_name. rewrite E. rewrite IH by exact S. reflexivity.
  - cbn [parse_and]. rewrite IH by assumption. reflexivity.
  - cbn [parse_or]. rewrite IH by assumption. reflexivity.
  - unfold parse_not. rewrite IH by assumption. reflexivity.
  - destruct f as [|f]; [reflexivity|]. cbn [parse_repeat]. rewrite IH by assumption. reflexivity.
Qed.

Lemma peg_empty_rep : forall G e s r, peg G e s r -> forall e1 mn ts,
  e = Repeat e1 mn None -> peg G e1 s (PMatch ts s) -> False.
Proof.
  intros G e s r D. induction D; intros e1 mn1 ts1 E M; try discriminate.
  - injection E as -> -> ->. pose proof (peg_det _ _ _ _ D1 _ M) as X. injection X as -> ->.
    eapply IHD2; [reflexivity|exact M].
  - injection E as -> _ _. pose proof (peg_det _ _ _ _ D _ M). discriminate.
  - injection E as -> _ _. pose proof (peg_det _ _ _ _ D _ M). discriminate.
  - injection E as -> _ _. pose proof (peg_det _ _ _ _ D _ M). discriminate.
Qed.

(** Soundness for any state with a coherent position. *)
Lemma engine_sound : forall rs f st e, sane_rules rs -> sane e -> coherent_pos st -> ascii (text2parse st) ->
  match parse_expr rs f st e with
  | Ok (st', ts) => peg (rules_get rs) e (it_parsing st) (PMatch ts (it_parsing st'))
  | Err er => match e_priority er with
              | Normal => peg (rules_get rs) e (it_parsing st) PFail
              | Critical => exists rest, peg (rules_get rs) e (it_parsing st) (PAbort (e_descr er) rest) /\
                              pn (e_pos er) + length rest = length (text2parse st)
              end
  | Panic => False
  | Fuel => True
  end.
Proof.
  intros rs f st e SR S C As.
  set (st0 := Status (text2parse st) (it_parsing st) (st_pos st) None (trace_rules st) (walking_rules st)).
  assert (I0 : inv st0). { split; [exact C|]. intros er E. discriminate. }
  destruct (parse_expr_ok rs SR f st0 e S I0) as [GD SD].
  pose proof (suffix_determinism rs f e st st0 eq_refl C C As As) as X.
  destruct (parse_expr rs f st e) as [[st1 ts1]|er| |], (parse_expr rs f st0 e) as [[st2 ts2]|er2| |]; cbn in X; try contradiction.
  - destruct X as [(E & _) ->]. rewrite E. exact SD.
  - destruct X as (D & P & _ & L). rewrite P, D. cbn in SD. destruct (e_priority er2); [exact SD|].
    destruct SD as (rest & SD & LL). exists rest. split; [exact SD|]. lia.
  - exact I.
Qed.

Lemma empty_repetition : forall rs st e mn ts, sane_rules rs -> sane e -> coherent_pos st -> ascii (text2parse st) ->
  peg (rules_get rs) e (it_parsing st) (PMatch ts (it_parsing st)) ->
  forall fuel, parse_expr rs fuel st (Repeat e mn None) = Fuel.
Proof.
  intros rs st e mn ts SR S C As D fuel.
  pose proof (engine_sound rs fuel st (Repeat e mn None) SR (conj S I) C As) as H.
  destruct (parse_expr rs fuel st (Repeat e mn None)) as [[st1 ts1]|er| |].
  - exfalso. eapply peg_empty_rep; [exact H|reflexivity|exact D].
  - exfalso. destruct (e_priority er); [|destruct H as (rest & H & _)]; (eapply peg_empty_rep; [exact H|reflexivity|exact D]).
  - contradiction.
  - reflexivity.
Qed.
