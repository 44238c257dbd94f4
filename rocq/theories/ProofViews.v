(** Rules that differ only in what prune, pass_through_except and compact take away. *)
From Verif Require Import Base ModelAst ModelParser SpecPeg SpecPos SpecApi SpecAst SpecWf SpecRefactor SpecLang SpecSwap SpecViews.
From Verif Require Import ProofParser ProofEngine ProofApi ProofWf ProofAst ProofPipeline ProofRefactor PegTools ProofLang ProofIdioms ProofSwap.

Section View.
Variables (a k : list str).
Notation see := (seen a k).
Notation show := (shown a k).

Lemma tools_rule : forall n ts, tools a k (Rule n ts) = Rule n (CL (pthr_vn k (prune_list a ts))).
Proof. intros n ts. unfold tools. rewrite prune_unfold. cbn [pass_through_except]. rewrite compact_rule. reflexivity. Qed.

Lemma seen_eq : forall ts, see ts = CL (pthr_vn k (prune_list a ts)).
Proof. intro ts. unfold seen. rewrite tools_rule. reflexivity. Qed.

Lemma tools_seen : forall n ts, tools a k (Rule n ts) = Rule n (see ts).
Proof. intros n ts. rewrite tools_rule, seen_eq. reflexivity. Qed.

Lemma seen_nil : see [] = [].
Proof. rewrite seen_eq. reflexivity. Qed.

Lemma pt_app : forall l r, pthr_vn k (l ++ r) = pthr_vn k l ++ pthr_vn k r.
Proof.
  induction l as [|x l IH]; intro r; [reflexivity|]. cbn [app]. rewrite !pthr_vn_cons, IH, app_assoc. reflexivity.
Qed.

(** Two views side by side. *)
Definition join (u v : list node) : list node := CL (u ++ v).

Lemma seen_app : forall l r, see (l ++ r) = join (see l) (see r).
Proof. intros l r. unfold join. rewrite !seen_eq, pl_app, pt_app, cl_app_l, cl_app_r. reflexivity. Qed.

Lemma join_assoc : forall u v w, join u (join v w) = join (join u v) w.
Proof. intros u v w. unfold join. rewrite cl_app_r, cl_app_l, app_assoc. reflexivity. Qed.

Lemma seen_idem : forall ts, CL (see ts) = see ts.
Proof. intro ts. rewrite seen_eq. apply cl_idem. Qed.

Lemma join_nil : forall ts, join (see ts) [] = see ts.
Proof. intro ts. unfold join. rewrite app_nil_r. apply seen_idem. Qed.

Lemma seen_rule : forall n ts us, see ts = see us -> see [Rule n ts] = see [Rule n us].
Proof.
  intros n ts us H. rewrite !seen_eq in *. rewrite !pl_rule. destruct (name_in a n); [reflexivity|].
  rewrite !pt_rule. destruct (name_in k n); [rewrite !cl_rule, H; reflexivity|]. cbn [prune_list flat_map].
  change (pthr_vn k []) with (@nil node). rewrite !app_nil_r. exact H.
Qed.

Lemma seen_open : forall n ts, ~ In n a -> ~ In n k -> see [Rule n ts] = see ts.
Proof.
  intros n ts A K. rewrite !seen_eq, pl_rule. destruct (name_in a n) eqn:E; [apply name_in_spec in E; contradiction|].
  rewrite pt_rule. destruct (name_in k n) eqn:F; [apply name_in_spec in F; contradiction|]. cbn [prune_list flat_map].
  change (pthr_vn k []) with (@nil node). rewrite !app_nil_r. reflexivity.
Qed.

Lemma seen_pruned : forall n ts, In n a -> see [Rule n ts] = [].
Proof. intros n ts A. rewrite seen_eq, pl_rule. destruct (name_in a n) eqn:E; [reflexivity|]. apply name_in_spec in A. congruence. Qed.

Definition push (u : list node) (o : presult) : presult := match o with PMatch v rest => PMatch (join u v) rest | _ => o end.

Lemma shown_prepend : forall ts r, show (prepend ts r) = push (see ts) (show r).
Proof. intros ts [us rest| |m rest]; cbn [prepend shown push]; [rewrite seen_app|..]; reflexivity. Qed.
Lemma push_push : forall u v o, push u (push v o) = push (join u v) o.
Proof. intros u v [us rest| |m rest]; cbn [push]; [rewrite join_assoc|..]; reflexivity. Qed.
Lemma shown_fail : forall r, show r = PFail -> r = PFail.
Proof. intros [us rest| |m rest] H; [discriminate|reflexivity|discriminate]. Qed.
Lemma shown_match : forall r v s, show r = PMatch v s -> exists us, r = PMatch us s /\ v = see us.
Proof. intros [us rest| |m rest] v s H; [|discriminate|discriminate]. injection H as <- <-. eauto. Qed.
Lemma shown_abort : forall r m s, show r = PAbort m s -> r = PAbort m s.
Proof. intros [us rest| |m0 rest] m s H; [discriminate|discriminate|exact H]. Qed.
Lemma shown_stops : forall r, stops r -> show r = r.
Proof. intros [us rest| |m0 rest] K; cbn [stops shown] in *; [destruct K|reflexivity|reflexivity]. Qed.
Lemma stops_shown : forall r, stops (show r) -> stops r.
Proof. intros [us rest| |m0 rest] K; exact K. Qed.
Lemma bare_shown : forall r, bare (show r) = bare r.
Proof. intros [us rest| |m rest]; reflexivity. Qed.
Lemma shown_wrap_open : forall n r, ~ In n a -> ~ In n k -> show (wrap n r) = show r.
Proof. intros n [us rest| |m rest] A K; cbn [wrap shown]; [rewrite seen_open by assumption|..]; reflexivity. Qed.
Lemma shown_wrap_pruned : forall n r r', In n a -> bare r = bare r' -> show (wrap n r) = show (wrap n r').
Proof.
  intros n [us rest| |m rest] [us' rest'| |m' rest'] A B; cbn [wrap shown bare] in *; try discriminate; try congruence.
  rewrite !seen_pruned by exact A. congruence.
Qed.
Lemma shown_wrap : forall n r r', show r = show r' -> show (wrap n r) = show (wrap n r').
Proof.
  intros n [us rest| |m rest] [us' rest'| |m' rest'] B; cbn [wrap shown] in *; try discriminate; try congruence.
  injection B as B ->. rewrite (seen_rule n us us' B). reflexivity.
Qed.

(* ------------------------------------------------------------------------------------------- *)
(** * The semantics seen through the tools *)

Section Sem.
Variable G : str -> option expr.

Definition view (e : expr) (s : str) (o : presult) : Prop := exists r, peg G e s r /\ show r = o.

Lemma view_peg : forall e s r, peg G e s r -> view e s (show r).
Proof. intros e s r H. exists r. auto. Qed.
Lemma view_det : forall e s o o', view e s o -> view e s o' -> o = o'.
Proof. intros e s o o' (r & H & <-) (r' & H' & <-). rewrite (peg_det _ _ _ _ H _ H'). reflexivity. Qed.
Lemma view_fail : forall e s, view e s PFail <-> peg G e s PFail.
Proof. intros e s. split; [intros (r & H & E); apply shown_fail in E; subst; exact H|intro H; exists PFail; auto]. Qed.
Lemma view_abort : forall e s m rest, view e s (PAbort m rest) <-> peg G e s (PAbort m rest).
Proof. intros e s m rest. split; [intros (r & H & E); apply shown_abort in E; subst; exact H|intro H; exists (PAbort m rest); auto]. Qed.
Lemma view_lang : forall e s o, view e s o -> lang G e s (bare o).
Proof. intros e s o (r & H & <-). rewrite bare_shown. exists r. auto. Qed.
Lemma view_norm : forall e s v rest, view e s (PMatch v rest) -> join v [] = v.
Proof. intros e s v rest (r & _ & E). apply shown_match in E. destruct E as (us & -> & ->). apply join_nil. Qed.

Lemma view_and_nil : forall s, view (And []) s (PMatch [] s).
Proof. intro s. exists (PMatch [] s). split; [constructor|cbn [shown]; rewrite seen_nil; reflexivity]. Qed.
Lemma view_and_cons : forall e es s v s1 o, view e s (PMatch v s1) -> view (And es) s1 o -> view (And (e :: es)) s (push v o).
Proof.
  intros e es s v s1 o (r0 & H & E) (r & R & <-). apply shown_match in E. destruct E as (us & -> & ->). exists (prepend us r).
  split; [eapply peg_and_cons; eassumption|apply shown_prepend].
Qed.
Lemma view_and_stop : forall e es s o, view e s o -> stops o -> view (And (e :: es)) s o.
Proof. intros e es s o (r & H & <-) K. exists r. split; [|reflexivity]. apply peg_and_stop; [exact H|exact (stops_shown _ K)]. Qed.
Lemma view_and_inv : forall e es s o, view (And (e :: es)) s o ->
  (exists v s1 o1, view e s (PMatch v s1) /\ view (And es) s1 o1 /\ o = push v o1) \/ (view e s o /\ stops o).
Proof.
  intros e es s o (r & H & <-). apply and_prepend_inv in H. destruct H as [(ts & s1 & r1 & D & N & ->)|[D K]].
  - left. exists (see ts), s1, (show r1). split; [exists (PMatch ts s1); split; [assumption|reflexivity]|]. split; [apply view_peg; exact N|]. apply shown_prepend.
  - right. split; [apply view_peg; exact D|]. rewrite (shown_stops _ K). exact K.
Qed.
Lemma view_and_one : forall e s o, view (And [e]) s o <-> view e s o.
Proof.
  intros e s o. split; intro H.
  - apply view_and_inv in H. destruct H as [(v & s1 & o1 & H1 & H2 & ->)|[H _]]; [|exact H].
    rewrite (view_det _ _ _ _ H2 (view_and_nil s1)). cbn [push]. rewrite (view_norm _ _ _ _ H1). exact H1.
  - destruct o as [v rest| |m rest]; [|apply view_and_stop; [exact H|exact I]..].
    pose proof (view_and_cons _ [] _ _ _ _ H (view_and_nil rest)) as K. cbn [push] in K. rewrite (view_norm _ _ _ _ H) in K. exact K.
Qed.

Lemma view_or_first : forall e es s o, view e s o -> o <> PFail -> view (Or (e :: es)) s o.
Proof. intros e es s o (r & H & <-) N. exists r. split; [|reflexivity]. apply peg_or_first; [exact H|]. intros ->. apply N. reflexivity. Qed.
Lemma view_or_next : forall e es s o, view e s PFail -> view (Or es) s o -> view (Or (e :: es)) s o.
Proof. intros e es s o H (r & R & <-). exists r. split; [|reflexivity]. apply peg_or_next; [apply view_fail; exact H|exact R]. Qed.
Lemma view_or_nil : forall s, view (Or []) s PFail.
Proof. intro s. apply view_fail. constructor. Qed.
Lemma view_or_inv : forall e es s o, view (Or (e :: es)) s o -> (view e s o /\ o <> PFail) \/ (view e s PFail /\ view (Or es) s o).
Proof.
  intros e es s o (r & H & <-). inversion H as [| | | | | | | | | | | | |? ? ? ? D NF|? ? ? ? DF D| | | | | | | | |]; subst.
  - left. split; [apply view_peg; exact D|]. intro K. apply shown_fail in K. contradiction.
  - right. split; [apply view_fail; exact DF|apply view_peg; exact D].
Qed.
Lemma view_or_one : forall e s o, view (Or [e]) s o <-> view e s o.
Proof.
  intros e s o. split; intro H.
  - apply view_or_inv in H. destruct H as [[H _]|[H K]]; [exact H|]. rewrite (view_det _ _ _ _ K (view_or_nil s)). exact H.
  - destruct o as [ts rest| |m rest]; [apply view_or_first; [exact H|discriminate]| |apply view_or_first; [exact H|discriminate]].
    apply view_or_next; [exact H|apply view_or_nil].
Qed.

Lemma view_not : forall e s o, view (Not e) s o <-> exists o1, view e s o1 /\ o = match o1 with PMatch _ _ => PFail | _ => PMatch [] s end.
Proof.
  intros e s o. split.
  - intros (r & H & <-). inversion H as [| | | | | | | | | | | | | | |? ? ? ? D|? ? r1 D K| | | | | | |]; subst.
    + eexists. split; [apply view_peg; exact D|reflexivity].
    + exists (show r1). split; [apply view_peg; exact D|]. destruct r1; [destruct K|cbn [shown]; rewrite seen_nil; reflexivity..].
  - intros (o1 & (r1 & D & <-) & ->). destruct r1 as [ts rest| |m rest]; cbn.
    + exists PFail. split; [eapply peg_not_fail; exact D|reflexivity].
    + exists (PMatch [] s). split; [eapply peg_not_ok; [exact D|exact I]|cbn [shown]; rewrite seen_nil; reflexivity].
    + exists (PMatch [] s). split; [eapply peg_not_ok; [exact D|exact I]|cbn [shown]; rewrite seen_nil; reflexivity].
Qed.

Lemma view_rep_full : forall e s, view (Repeat e 0 (Some 0)) s (PMatch [] s).
Proof. intros e s. eexists. split; [apply peg_rep_full|cbn [shown]; rewrite seen_nil; reflexivity]. Qed.
Lemma view_rep_more : forall e mn mx s v s1 o, mx <> Some 0 -> view e s (PMatch v s1) -> view (Repeat e (pred mn) (option_map pred mx)) s1 o ->
  view (Repeat e mn mx) s (push v o).
Proof.
  intros e mn mx s v s1 o N (r0 & H & E) (r & R & <-). apply shown_match in E. destruct E as (us & -> & ->). exists (prepend us r).
  split; [eapply peg_rep_more; eassumption|apply shown_prepend].
Qed.
Lemma view_rep_done : forall e mx s, mx <> Some 0 -> view e s PFail -> view (Repeat e 0 mx) s (PMatch [] s).
Proof. intros e mx s N H. eexists. split; [apply peg_rep_done; [exact N|apply view_fail; exact H]|cbn [shown]; rewrite seen_nil; reflexivity]. Qed.
Lemma view_rep_short : forall e mn mx s, mx <> Some 0 -> 0 < mn -> view e s PFail -> view (Repeat e mn mx) s PFail.
Proof. intros e mn mx s N L H. apply view_fail. apply peg_rep_short; [exact N|exact L|apply view_fail; exact H]. Qed.
Lemma view_rep_abort : forall e mn mx s m rest, mx <> Some 0 -> view e s (PAbort m rest) -> view (Repeat e mn mx) s (PAbort m rest).
Proof. intros e mn mx s m rest N H. apply view_abort. apply peg_rep_abort; [exact N|apply view_abort; exact H]. Qed.

Lemma view_rule_open : forall n e s o, ~ In n a -> ~ In n k -> G n = Some e -> (view (RuleName n) s o <-> view e s o).
Proof.
  intros n e s o A K E. split; intros (r & H & <-).
  - inversion H as [| | | | | | | | | | | | | | | | | | | | | |n0 e0 s0 r0 E0 D|]; subst; [|congruence].
    rewrite shown_wrap_open by assumption. apply view_peg. congruence.
  - exists (wrap n r). split; [eapply peg_rule; eassumption|apply shown_wrap_open; assumption].
Qed.

(** Induction along an unbounded repetition. *)
Lemma view_rep0_ind : forall e (P : str -> presult -> Prop),
  (forall s v s1 o, view e s (PMatch v s1) -> view (Repeat e 0 None) s1 o -> P s1 o -> P s (push v o)) ->
  (forall s, view e s PFail -> P s (PMatch [] s)) ->
  (forall s m rest, view e s (PAbort m rest) -> P s (PAbort m rest)) ->
  forall s o, view (Repeat e 0 None) s o -> P s o.
Proof.
  intros e P P1 P2 P3 s o (r & H & <-). remember (Repeat e 0 None) as x eqn:E. revert E.
  induction H; intros E; try discriminate.
  - injection E as -> -> ->. rewrite shown_prepend. cbn [pred option_map] in *. eapply P1; [exists (PMatch ts s1); split; [assumption|reflexivity]|apply view_peg; eassumption|].
    exact (IHpeg2 P1 eq_refl).
  - injection E as -> ->. cbn [shown]. rewrite seen_nil. apply P2. apply view_fail. assumption.
  - injection E as -> -> ->. lia.
  - injection E as -> -> ->. apply P3. apply view_abort. assumption.
Qed.

(* ------------------------------------------------------------------------------------------- *)
(** * Congruence *)

Notation same := (same_view a k G).

Lemma vsame_refl : forall e, same e e.
Proof. intros e s o. tauto. Qed.
Lemma vsame_sym : forall e e', same e e' -> same e' e.
Proof. intros e e' H s o. symmetry. apply H. Qed.
Lemma vsame_trans : forall x y z, same x y -> same y z -> same x z.
Proof. intros x y z H1 H2 s o. rewrite (H1 s o). apply H2. Qed.
Lemma vsame_of_equiv : forall e e', equiv G e e' -> same e e'.
Proof. intros e e' H s o. split; intros (r & D & E); exists r; (split; [apply H; exact D|exact E]). Qed.
Lemma same_of_vsame : forall e e', same e e' -> same_language G e e'.
Proof.
  intros e e' H s o. split; intros (r & D & <-); apply view_peg in D; apply H in D; destruct D as (r' & D & E); exists r'; (split; [exact D|]);
  rewrite <- (bare_shown r), <- (bare_shown r'), E; reflexivity.
Qed.

Lemma vsame_and_half : forall es es', Forall2 same es es' -> forall s o, view (And es) s o -> view (And es') s o.
Proof.
  intros es es' F. induction F as [|e e' es es' E F IH]; intros s o H; [exact H|].
  apply view_and_inv in H. destruct H as [(v & s1 & o1 & H1 & H2 & ->)|[H K]].
  - eapply view_and_cons; [apply E; exact H1|apply IH; exact H2].
  - apply view_and_stop; [apply E; exact H|exact K].
Qed.
Lemma vsame_or_half : forall es es', Forall2 same es es' -> forall s o, view (Or es) s o -> view (Or es') s o.
Proof.
  intros es es' F. induction F as [|e e' es es' E F IH]; intros s o H; [exact H|].
  apply view_or_inv in H. destruct H as [[H K]|[H1 H2]].
  - apply view_or_first; [apply E; exact H|exact K].
  - apply view_or_next; [apply E; exact H1|apply IH; exact H2].
Qed.
Lemma vsame_rep_half : forall e e', same e e' -> forall x s r, peg G x s r -> forall mn mx, x = Repeat e mn mx -> view (Repeat e' mn mx) s (show r).
Proof.
  intros e e' E x s r H. induction H; intros mn0 mx0 Q; try discriminate Q; injection Q; intros; subst.
  - cbn [shown]. rewrite seen_nil. apply view_rep_full.
  - rewrite shown_prepend. eapply view_rep_more; [assumption|apply E; exists (PMatch ts s1); split; [eassumption|reflexivity]|]. apply IHpeg2. reflexivity.
  - cbn [shown]. rewrite seen_nil. apply view_rep_done; [assumption|]. apply E. apply view_fail. assumption.
  - apply view_rep_short; [assumption|assumption|]. apply E. apply view_fail. assumption.
  - apply view_rep_abort; [assumption|]. apply E. apply view_abort. assumption.
Qed.
Lemma vsame_forall2_sym : forall es es', Forall2 same es es' -> Forall2 same es' es.
Proof. intros es es' H. induction H; constructor; [apply vsame_sym; assumption|assumption]. Qed.
Lemma vsame_and : forall es es', Forall2 same es es' -> same (And es) (And es').
Proof. intros es es' H s o. split; apply vsame_and_half; [exact H|apply vsame_forall2_sym; exact H]. Qed.
Lemma vsame_or : forall es es', Forall2 same es es' -> same (Or es) (Or es').
Proof. intros es es' H s o. split; apply vsame_or_half; [exact H|apply vsame_forall2_sym; exact H]. Qed.
Lemma vsame_not : forall e e', same e e' -> same (Not e) (Not e').
Proof. intros e e' H s o. fold (view (Not e) s o) (view (Not e') s o). rewrite !view_not. split; intros (o1 & D & Q); exists o1; (split; [apply H; exact D|exact Q]). Qed.
(** Under a negation the trees do not matter at all. *)
Lemma vsame_not_lang : forall e e', same_language G e e' -> same (Not e) (Not e').
Proof.
  assert (HALF : forall e e', same_language G e e' -> forall s o, view (Not e) s o -> view (Not e') s o).
  { intros e e' H s o V. apply view_not in V. destruct V as (o1 & (r & D & <-) & ->).
    destruct (proj1 (H s (bare r)) (ex_intro _ r (conj D eq_refl))) as (r' & D' & B). apply view_not. exists (show r'). split; [apply view_peg; exact D'|].
    destruct r, r'; try discriminate B; reflexivity. }
  intros e e' H s o. split; apply HALF; [exact H|apply same_sym; exact H].
Qed.
Lemma vsame_rep : forall e e' mn mx, same e e' -> same (Repeat e mn mx) (Repeat e' mn mx).
Proof.
  intros e e' mn mx H s o.
  split; intros (r & D & <-); eapply vsame_rep_half; try exact D; try reflexivity; [exact H|apply vsame_sym; exact H].
Qed.

Lemma replaced_vsame : forall e e', replaced same e e' -> same e e'.
Proof.
  fix IH 3. intros e e' H. destruct H as [e e' H|e|es es' H|es es' H|e e' H|e e' mn mx H].
  - exact H.
  - apply vsame_refl.
  - apply vsame_and. induction H as [|x x' l l' X L IHL]; constructor; [apply IH; exact X|exact IHL].
  - apply vsame_or. induction H as [|x x' l l' X L IHL]; constructor; [apply IH; exact X|exact IHL].
  - apply vsame_not. apply IH. exact H.
  - apply vsame_rep. apply IH. exact H.
Qed.
End Sem.

Lemma retooled_sound : forall G G', retooled a k G G' -> forall e s r, peg G' e s r -> view G e s (show r).
Proof.
  intros G G' R e s r H.
  induction H; try (apply view_peg; econstructor; eassumption).
  - rewrite shown_prepend. eapply view_and_cons; eassumption.
  - apply view_and_stop; [assumption|]. rewrite shown_stops by assumption. assumption.
  - apply view_or_first; [assumption|]. intro K. apply shown_fail in K. contradiction.
  - apply view_or_next; assumption.
  - apply view_not. eexists. split; [exact IHpeg|reflexivity].
  - apply view_not. eexists. split; [exact IHpeg|]. destruct r; [contradiction|cbn [shown]; rewrite seen_nil; reflexivity..].
  - rewrite shown_prepend. eapply view_rep_more; eassumption.
  - cbn [shown]. rewrite seen_nil. apply view_rep_done; assumption.
  - apply view_rep_short; assumption.
  - apply view_rep_abort; assumption.
  - specialize (R n). rewrite H in R. destruct (G n) as [e0|] eqn:E; [|contradiction]. destruct R as [R|[A [_ R]]].
    + apply (replaced_vsame _ _ _ R) in IHpeg. destruct IHpeg as (r0 & D & Q). exists (wrap n r0).
      split; [eapply peg_rule; eassumption|]. apply shown_wrap. exact Q.
    + apply view_lang in IHpeg. rewrite bare_shown in IHpeg. apply (replaced_same _ _ _ R) in IHpeg. destruct IHpeg as (r0 & D & Q). exists (wrap n r0).
      split; [eapply peg_rule; eassumption|]. apply shown_wrap_pruned; assumption.
  - specialize (R n). rewrite H in R. destruct (G n) as [e0|] eqn:E; [contradiction|]. apply view_peg. apply peg_rule_missing. exact E.
Qed.
End View.

(* ------------------------------------------------------------------------------------------- *)
(** * parse *)

Lemma retooled_rewritten : forall a k G G', retooled a k G G' -> rewritten G G'.
Proof.
  intros a k G G' R n. specialize (R n). destruct (G n), (G' n); try exact R. destruct R as [R|[_ [_ R]]]; [|exact R].
  eapply replaced_mono; [|exact R]. intros x y. apply same_of_vsame.
Qed.

Lemma retool_ok : forall a k rs rs' s fuel t, sane_rules rs -> sane_rules rs' -> ascii s -> retooled a k (grammar_of rs) (grammar_of rs') ->
  parse fuel s rs' = Ok t -> exists fuel' t', parse fuel' s rs = Ok t' /\ tools a k t' = tools a k t.
Proof.
  intros a k rs rs' s fuel t S S' A R H. destruct (parse_tree fuel s rs' t S' H) as (e' & kids & E' & -> & D & _).
  pose proof (R main) as M. unfold grammar_of in M. rewrite E' in M. destruct (rules_get rs main) as [e|] eqn:E; [|contradiction].
  destruct M as [M|[_ [N _]]]; [|congruence].
  assert (D2 : view a k (grammar_of rs) e s (shown a k (PMatch kids []))) by (apply (replaced_vsame _ _ _ _ _ M), (retooled_sound _ _ _ _ R _ _ _ D)).
  destruct D2 as (r & D2 & Q). apply shown_match in Q. destruct Q as (ts & -> & Q).
  destruct (proj2 (parse_accepts_iff s rs false S A (Rule main ts))) as [f F].
  { change (PMatch [Rule main ts] []) with (wrap main (PMatch ts [])). eapply peg_rule; [exact E|exact D2]. }
  exists f, (Rule main ts). split; [exact F|]. rewrite !tools_seen. congruence.
Qed.

Lemma retool_iff : forall a k rs rs', sane_rules rs -> sane_rules rs' ->
  retooled a k (grammar_of rs) (grammar_of rs') -> retooled a k (grammar_of rs') (grammar_of rs) -> same_views a k rs rs'.
Proof.
  intros a k rs rs' S S' R R' s A.
  assert (T : same_texts rs rs').
  { apply same_of_lang; [exact S|exact S'|]. intros s0 o.
    split; apply rewritten_lang; apply (retooled_rewritten a k); assumption. }
  destruct (T s A) as (_ & T2 & T3). split; [|split; assumption].
  intro t. split; intros (f & ast & F & Q).
  - destruct (retool_ok a k rs' rs s f ast S' S A R' F) as (f' & t' & F' & Q'). exists f', t'. split; [exact F'|congruence].
  - destruct (retool_ok a k rs rs' s f ast S S' A R F) as (f' & t' & F' & Q'). exists f', t'. split; [exact F'|congruence].
Qed.

Lemma retool_wf : forall a k rs rs' s, sane_rules rs -> sane_rules rs' -> ascii s -> retooled a k (grammar_of rs) (grammar_of rs') ->
  well_formed (grammar_of rs') -> forall t,
  (exists fuel ast, parse fuel s rs = Ok ast /\ tools a k ast = t) <-> (exists fuel ast, parse fuel s rs' = Ok ast /\ tools a k ast = t).
Proof.
  intros a k rs rs' s S S' A R W t. split.
  - intros (f & ast & F & Q). destruct (rewrite_iff rs rs' s S S' A (retooled_rewritten _ _ _ _ R) W) as [[I1 _] _].
    destruct (I1 (ex_intro _ f (ex_intro _ ast F))) as (f' & ast' & F'). exists f', ast'. split; [exact F'|].
    destruct (retool_ok a k rs rs' s f' ast' S S' A R F') as (f2 & t2 & F2 & Q2).
    assert (E : Ok ast = Ok t2) by (eapply (parse_same f f2); try eassumption; discriminate). injection E as <-. congruence.
  - intros (f & ast & F & Q). destruct (retool_ok a k rs rs' s f ast S S' A R F) as (f' & t' & F' & Q'). exists f', t'. split; [exact F'|congruence].
Qed.

Lemma swapped_retooled : forall a k e e' rs rs', swapped e e' rs rs' -> same_view a k (grammar_of rs) e e' ->
  retooled a k (grammar_of rs) (grammar_of rs').
Proof.
  intros a k e e' rs rs' H Q n. specialize (H n). unfold grammar_of in *. destruct (rules_get rs n), (rules_get rs' n); try exact H.
  left. eapply replaced_mono; [|exact H]. cbn. intros x y [-> ->]. exact Q.
Qed.

Lemma swap_views : forall a k e e' rs rs', sane_rules rs -> sane_rules rs' -> swapped e e' rs rs' ->
  same_view a k (grammar_of rs) e e' -> same_view a k (grammar_of rs') e e' -> same_views a k rs rs'.
Proof.
  intros a k e e' rs rs' S S' W Q Q'. apply retool_iff; [exact S|exact S'|apply (swapped_retooled a k e e'); assumption|].
  apply (swapped_retooled a k e' e); [apply swapped_back; exact W|apply vsame_sym; exact Q'].
Qed.

(* ------------------------------------------------------------------------------------------- *)
(** * Idioms *)

Section Idioms.
Variables (a k : list str) (G : str -> option expr).
Notation see := (seen a k).
Notation show := (shown a k).
Notation view := (view a k G).
Notation push := (push).

Lemma view_inline : forall n e, ~ In n a -> ~ In n k -> G n = Some e -> same_view a k G (RuleName n) e.
Proof. intros n e A K E s o. apply (view_rule_open a k G n e s o A K E). Qed.

Lemma view_split : forall x y, same_view a k G (lit (x ++ y)) (And [lit x; lit y]).
Proof.
  assert (V : forall v, see [Val v] = [Val v]) by (intro v; rewrite seen_eq; reflexivity).
  assert (J : forall x y, see ([Val x] ++ [Val y]) = see [Val (x ++ y)]).
  { intros x y. rewrite seen_app, !V. unfold join. cbn [app]. rewrite !cl_val. reflexivity. }
  intros x y. assert (HALF : forall s o, view (lit (x ++ y)) s o -> view (And [lit x; lit y]) s o).
  { intros s o (r & D & <-). inversion D as [l rest E1 E2 E3|l s0 N E1 E2 E3| | | | | | | | | | | | | | | | | | | | | |]; subst.
    - rewrite <- app_assoc. exists (prepend [Val x] (PMatch ([Val y] ++ []) rest)). split.
      + eapply peg_and_cons; [constructor|]. change (PMatch ([Val y] ++ []) rest) with (prepend [Val y] (PMatch [] rest)).
        eapply peg_and_cons; constructor.
      + cbn [prepend shown]. change ([Val y] ++ []) with [Val y]. rewrite J. reflexivity.
    - destruct (starts_dec x s) as [[s1 ->]|N1].
      + exists (prepend [Val x] PFail). split; [|reflexivity]. eapply peg_and_cons; [constructor|].
        apply peg_and_stop; [|exact I]. constructor. intros rest ->. apply (N rest). rewrite app_assoc. reflexivity.
      + exists PFail. split; [|reflexivity]. apply peg_and_stop; [|exact I]. constructor. exact N1. }
  intros s o. split; [apply HALF|]. intro H. destruct (starts_dec (x ++ y) s) as [[s1 E]|N].
  - assert (P : view (lit (x ++ y)) s (show (PMatch [Val (x ++ y)] s1))) by (apply view_peg; subst s; constructor).
    rewrite (view_det _ _ _ _ _ _ _ H (HALF _ _ P)). exact P.
  - assert (P : view (lit (x ++ y)) s PFail) by (apply view_fail; constructor; exact N).
    rewrite (view_det _ _ _ _ _ _ _ H (HALF _ _ P)). exact P.
Qed.

Lemma seen_nest : forall r l, ~ In r a -> ~ In r k -> see (nest r l) = see (concat l).
Proof.
  intros r l A K. induction l as [|t l IH]; [reflexivity|]. destruct l as [|u l].
  - cbn [nest concat]. rewrite app_nil_r. apply seen_open; assumption.
  - rewrite nest_cons, seen_open by assumption. rewrite seen_app, IH. cbn [concat] in *. rewrite (seen_app a k t). reflexivity.
Qed.

Lemma view_plus : forall r e, ~ In r a -> ~ In r k -> G r = Some (Or [And [e; RuleName r]; e]) ->
  same_view a k G (RuleName r) (Repeat e 1 None).
Proof.
  intros r e A K E.
  assert (HALF : forall s o, view (RuleName r) s o -> view (Repeat e 1 None) s o).
  { intros s o (p & H & <-). destruct p as [ts rest| |m rest].
    - destruct (rep_of_rec G r e E s ts rest H) as (l & _ & -> & D). eexists. split; [exact D|]. cbn [shown].
      rewrite seen_nest by assumption. reflexivity.
    - exists PFail. split; [|reflexivity]. apply (lang_fail G). apply (rec_is_plus G r e E). exists PFail. auto.
    - exists (PAbort m rest). split; [|reflexivity]. apply (lang_abort G). apply (rec_is_plus G r e E). exists (PAbort m rest). auto. }
  intros s o. split; [apply HALF|]. intros (p & H & <-).
  assert (L : lang G (RuleName r) s (bare p)) by (apply (rec_is_plus G r e E); exists p; auto).
  destruct L as (p' & H' & _). pose proof (HALF s _ (ex_intro _ p' (conj H' eq_refl))) as (p2 & H2 & Q).
  rewrite (peg_det _ _ _ _ H _ H2). rewrite Q. exists p'. auto.
Qed.

Section List.
Variables (r : str) (e sep : expr).
Hypothesis GR : G r = Some (Or [And [e; sep; RuleName r]; e]).
Hypothesis RA : ~ In r a.
Hypothesis RK : ~ In r k.
Let tail := Repeat (And [sep; e]) 0 None.

(** The rule gives what the repetition gives. *)
Lemma vlist_back : forall s1 o, view tail s1 o -> forall s v, view e s (PMatch v s1) -> view (RuleName r) s (push v o).
Proof.
  assert (NF : forall s, ~ view tail s PFail) by (intros s H; apply view_fail in H; exact (rep0_never_fails _ _ _ H)).
  assert (RF : forall s, view e s PFail -> view (RuleName r) s PFail).
  { intros s F. apply (view_rule_open a k G r _ s _ RA RK GR). apply view_or_next; [apply view_and_stop; [exact F|exact I]|]. apply view_or_one. exact F. }
  apply (view_rep0_ind a k G (And [sep; e]) (fun s1 o => forall s v, view e s (PMatch v s1) -> view (RuleName r) s (push v o))).
  - intros s1 v1 s2 o D T IH s v E. apply view_and_inv in D. destruct D as [(u & s3 & o3 & D1 & D2 & Q)|[_ []]]. apply (proj1 (view_and_one _ _ _ _ _ _)) in D2.
    destruct o3 as [w s4| |]; try discriminate Q. cbn [ProofViews.push] in Q. injection Q as -> ->.
    pose proof (IH _ _ D2) as R. apply (view_rule_open a k G r _ s _ RA RK GR). apply view_or_first.
    + rewrite <- push_push. eapply view_and_cons; [exact E|]. eapply view_and_cons; [exact D1|]. apply view_and_one. exact R.
    + intro F. apply (NF s4). destruct o as [? ?| |]; try discriminate F. exact T.
  - intros s1 F s v E. apply (view_rule_open a k G r _ s _ RA RK GR). apply view_or_next.
    + change PFail with (push v PFail). eapply view_and_cons; [exact E|]. apply view_and_inv in F. destruct F as [(u & s2 & o2 & F1 & F2 & Q)|[F1 _]].
      * apply (proj1 (view_and_one _ _ _ _ _ _)) in F2. destruct o2 as [? ?| |]; try discriminate Q. change PFail with (push u PFail). eapply view_and_cons; [exact F1|].
        apply view_and_one. apply RF. exact F2.
      * apply view_and_stop; [exact F1|exact I].
    + apply view_or_one. cbn [ProofViews.push]. rewrite (view_norm _ _ _ _ _ _ _ E). exact E.
  - intros s1 m rest A s v E. apply (view_rule_open a k G r _ s _ RA RK GR). apply view_or_first; [|discriminate]. eapply view_and_cons; [exact E|].
    apply view_and_inv in A. destruct A as [(u & s2 & o2 & A1 & A2 & Q)|[A1 _]].
    + apply (proj1 (view_and_one _ _ _ _ _ _)) in A2. rewrite Q. eapply view_and_cons; [exact A1|]. apply view_and_one.
      apply (view_rule_open a k G r _ _ _ RA RK GR). destruct o2 as [? ?| |]; try discriminate Q.
      apply view_or_first; [|discriminate]. apply view_and_stop; [exact A2|exact I].
    + apply view_and_stop; [exact A1|exact I].
Qed.

Lemma view_list : same_view a k G (RuleName r) (And [e; Repeat (And [sep; e]) 0 None]).
Proof.
  fold tail.
  assert (HALF : forall s o, view (And [e; tail]) s o -> view (RuleName r) s o).
  { intros s o H. apply view_and_inv in H. destruct H as [(v & s1 & o1 & H1 & H2 & ->)|[H K]].
    + apply (proj1 (view_and_one _ _ _ _ _ _)) in H2. eapply vlist_back; eassumption.
    + apply (view_rule_open a k G r _ s _ RA RK GR). destruct o; [destruct K| |].
      * apply view_or_next; [apply view_and_stop; [exact H|exact I]|]. apply view_or_one. exact H.
      * apply view_or_first; [|discriminate]. apply view_and_stop; [exact H|exact I]. }
  intros s o. split; [|apply HALF]. intros (p & H & <-).
  assert (L : lang G (And [e; tail]) s (bare p)) by (apply (rec_is_list G r e sep GR); exists p; auto).
  destruct L as (p' & H' & _). pose proof (HALF s _ (ex_intro _ p' (conj H' eq_refl))) as (p2 & H2 & Q).
  rewrite (peg_det _ _ _ _ H _ H2). rewrite Q. exists p'. auto.
Qed.
End List.
End Idioms.
