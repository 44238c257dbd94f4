(** Rewriting rules without changing the language. *)
From Verif Require Import Base ModelAst ModelParser SpecPeg SpecPos SpecApi SpecWf SpecRefactor SpecLang.
From Verif Require Import ProofParser ProofEngine ProofApi ProofWf ProofRefactor PegTools.

Lemma bare_bare : forall r, bare (bare r) = bare r.
Proof. intros [ts rest| |m rest]; reflexivity. Qed.
Lemma bare_prepend : forall ts r, bare (prepend ts r) = bare r.
Proof. intros ts [us rest| |m rest]; reflexivity. Qed.
Lemma bare_wrap : forall n r, bare (wrap n r) = bare r.
Proof. intros n [us rest| |m rest]; reflexivity. Qed.
Lemma bare_fail : forall r, bare r = PFail -> r = PFail.
Proof. intros [us rest| |m rest] H; [discriminate|reflexivity|discriminate]. Qed.
Lemma bare_match : forall r ts s, bare r = PMatch ts s -> exists us, r = PMatch us s /\ ts = [].
Proof. intros [us rest| |m rest] ts s H; [|discriminate|discriminate]. injection H as <- <-. eauto. Qed.
Lemma bare_abort : forall r m s, bare r = PAbort m s -> r = PAbort m s.
Proof. intros [us rest| |m0 rest] m s H; [discriminate|discriminate|exact H]. Qed.
Lemma bare_stops : forall r r', bare r = bare r' -> stops r -> stops r'.
Proof. intros [us rest| |m0 rest] [us' rest'| |m0' rest'] H K; cbn in *; try tauto; discriminate. Qed.
Lemma bare_of_stops : forall r, stops r -> bare r = r.
Proof. intros [us rest| |m0 rest] K; cbn in *; [destruct K|reflexivity|reflexivity]. Qed.

(* ------------------------------------------------------------------------------------------- *)
(** * The semantics without trees *)

Section Lang.
Variable G : str -> option expr.

Definition lang (e : expr) (s : str) (o : presult) : Prop := exists r, peg G e s r /\ bare r = o.

Lemma lang_peg : forall e s r, peg G e s r -> lang e s (bare r).
Proof. intros e s r H. exists r. auto. Qed.
Lemma lang_bare : forall e s o, lang e s o -> bare o = o.
Proof. intros e s o (r & _ & <-). apply bare_bare. Qed.
Lemma lang_det : forall e s o o', lang e s o -> lang e s o' -> o = o'.
Proof. intros e s o o' (r & H & <-) (r' & H' & <-). rewrite (peg_det _ _ _ _ H _ H'). reflexivity. Qed.
Lemma lang_fail : forall e s, lang e s PFail <-> peg G e s PFail.
Proof. intros e s. split; [intros (r & H & E); apply bare_fail in E; subst; exact H|intro H; exists PFail; auto]. Qed.
Lemma lang_match : forall e s rest, lang e s (PMatch [] rest) <-> exists ts, peg G e s (PMatch ts rest).
Proof. intros e s rest. split; [intros (r & H & E); apply bare_match in E; destruct E as (us & -> & _); eauto|intros [ts H]; exists (PMatch ts rest); auto]. Qed.
Lemma lang_abort : forall e s m rest, lang e s (PAbort m rest) <-> peg G e s (PAbort m rest).
Proof. intros e s m rest. split; [intros (r & H & E); apply bare_abort in E; subst; exact H|intro H; exists (PAbort m rest); auto]. Qed.

Lemma lang_and_nil : forall s, lang (And []) s (PMatch [] s).
Proof. intro s. exists (PMatch [] s). split; [constructor|reflexivity]. Qed.
Lemma lang_and_cons : forall e es s s1 o, lang e s (PMatch [] s1) -> lang (And es) s1 o -> lang (And (e :: es)) s o.
Proof.
  intros e es s s1 o H (r & R & <-). apply lang_match in H. destruct H as [ts H]. exists (prepend ts r).
  split; [eapply peg_and_cons; eassumption|apply bare_prepend].
Qed.
Lemma lang_and_stop : forall e es s o, lang e s o -> stops o -> lang (And (e :: es)) s o.
Proof.
  intros e es s o (r & H & <-) K. exists r. split; [|reflexivity]. apply peg_and_stop; [exact H|]. eapply bare_stops; [|exact K]. apply bare_bare.
Qed.
Lemma lang_and_inv : forall e es s o, lang (And (e :: es)) s o ->
  (exists s1, lang e s (PMatch [] s1) /\ lang (And es) s1 o) \/ (lang e s o /\ stops o).
Proof.
  intros e es s o (r & H & <-). apply and_prepend_inv in H. destruct H as [(ts & s1 & r1 & D & N & ->)|[D K]].
  - left. exists s1. split; [apply lang_match; eauto|]. rewrite bare_prepend. apply lang_peg. exact N.
  - right. rewrite (bare_of_stops _ K). split; [|exact K]. exists r. split; [exact D|apply bare_of_stops; exact K].
Qed.
Lemma lang_and_one : forall e s o, lang (And [e]) s o <-> lang e s o.
Proof.
  intros e s o. split; intro H.
  - apply lang_and_inv in H. destruct H as [(s1 & H1 & H2)|[H _]]; [|exact H]. rewrite (lang_det _ _ _ _ H2 (lang_and_nil s1)). exact H1.
  - destruct o as [ts rest| |m rest]; [|apply lang_and_stop; [exact H|exact I]..].
    pose proof (lang_bare _ _ _ H) as B. cbn in B. injection B as <-. eapply lang_and_cons; [exact H|apply lang_and_nil].
Qed.

Lemma lang_or_first : forall e es s o, lang e s o -> o <> PFail -> lang (Or (e :: es)) s o.
Proof. intros e es s o (r & H & <-) N. exists r. split; [|reflexivity]. apply peg_or_first; [exact H|]. intros ->. apply N. reflexivity. Qed.
Lemma lang_or_next : forall e es s o, lang e s PFail -> lang (Or es) s o -> lang (Or (e :: es)) s o.
Proof. intros e es s o H (r & R & <-). exists r. split; [|reflexivity]. apply peg_or_next; [apply lang_fail; exact H|exact R]. Qed.
Lemma lang_or_nil : forall s, lang (Or []) s PFail.
Proof. intro s. apply lang_fail. constructor. Qed.
Lemma lang_or_inv : forall e es s o, lang (Or (e :: es)) s o -> (lang e s o /\ o <> PFail) \/ (lang e s PFail /\ lang (Or es) s o).
Proof.
  intros e es s o (r & H & <-). inversion H as [| | | | | | | | | | | | |? ? ? ? D NF|? ? ? ? DF D| | | | | | | | |]; subst.
  - left. split; [apply lang_peg; exact D|]. intro K. apply bare_fail in K. contradiction.
  - right. split; [apply lang_fail; exact DF|apply lang_peg; exact D].
Qed.
Lemma lang_or_one : forall e s o, lang (Or [e]) s o <-> lang e s o.
Proof.
  intros e s o. split; intro H.
  - apply lang_or_inv in H. destruct H as [[H _]|[H K]]; [exact H|]. rewrite (lang_det _ _ _ _ K (lang_or_nil s)). exact H.
  - destruct o as [ts rest| |m rest]; [apply lang_or_first; [exact H|discriminate]| |apply lang_or_first; [exact H|discriminate]].
    apply lang_or_next; [exact H|apply lang_or_nil].
Qed.

Lemma lang_not : forall e s o, lang (Not e) s o <-> exists o1, lang e s o1 /\ o = match o1 with PMatch _ _ => PFail | _ => PMatch [] s end.
Proof.
  intros e s o. split.
  - intros (r & H & <-). inversion H as [| | | | | | | | | | | | | | |? ? ? ? D|? ? r1 D K| | | | | | |]; subst.
    + eexists. split; [apply lang_peg; exact D|reflexivity].
    + exists (bare r1). split; [apply lang_peg; exact D|]. destruct r1; [destruct K|reflexivity|reflexivity].
  - intros (o1 & (r1 & D & <-) & ->). destruct r1 as [ts rest| |m rest]; cbn.
    + exists PFail. split; [eapply peg_not_fail; exact D|reflexivity].
    + exists (PMatch [] s). split; [eapply peg_not_ok; [exact D|exact I]|reflexivity].
    + exists (PMatch [] s). split; [eapply peg_not_ok; [exact D|exact I]|reflexivity].
Qed.

Lemma lang_rep_full : forall e s, lang (Repeat e 0 (Some 0)) s (PMatch [] s).
Proof. intros e s. eexists. split; [apply peg_rep_full|reflexivity]. Qed.
Lemma lang_rep_more : forall e mn mx s s1 o, mx <> Some 0 -> lang e s (PMatch [] s1) -> lang (Repeat e (pred mn) (option_map pred mx)) s1 o ->
  lang (Repeat e mn mx) s o.
Proof.
  intros e mn mx s s1 o N H (r & R & <-). apply lang_match in H. destruct H as [ts H]. exists (prepend ts r).
  split; [eapply peg_rep_more; eassumption|apply bare_prepend].
Qed.
Lemma lang_rep_done : forall e mx s, mx <> Some 0 -> lang e s PFail -> lang (Repeat e 0 mx) s (PMatch [] s).
Proof. intros e mx s N H. eexists. split; [apply peg_rep_done; [exact N|apply lang_fail; exact H]|reflexivity]. Qed.
Lemma lang_rep_short : forall e mn mx s, mx <> Some 0 -> 0 < mn -> lang e s PFail -> lang (Repeat e mn mx) s PFail.
Proof. intros e mn mx s N L H. apply lang_fail. apply peg_rep_short; [exact N|exact L|apply lang_fail; exact H]. Qed.
Lemma lang_rep_abort : forall e mn mx s m rest, mx <> Some 0 -> lang e s (PAbort m rest) -> lang (Repeat e mn mx) s (PAbort m rest).
Proof. intros e mn mx s m rest N H. apply lang_abort. apply peg_rep_abort; [exact N|apply lang_abort; exact H]. Qed.

Lemma lang_rule : forall n e s o, G n = Some e -> (lang (RuleName n) s o <-> lang e s o).
Proof.
  intros n e s o E. split; intros (r & H & <-).
  - inversion H as [| | | | | | | | | | | | | | | | | | | | | |n0 e0 s0 r0 E0 D|]; subst; [|congruence].
    rewrite bare_wrap. apply lang_peg. congruence.
  - exists (wrap n r). split; [eapply peg_rule; eassumption|apply bare_wrap].
Qed.

(** Unbounded repetitions never fail once the minimum is met. *)
Lemma rep0_never_fails : forall e s, ~ peg G (Repeat e 0 None) s PFail.
Proof.
  intros e s H. remember (Repeat e 0 None) as x eqn:E. remember PFail as r eqn:R. revert E R.
  induction H; intros E R; try discriminate; injection E as -> -> ->.
  - destruct r; try discriminate. apply IHpeg2; reflexivity.
  - lia.
Qed.

(** Induction along an unbounded repetition. *)
Lemma lang_rep0_ind : forall e (P : str -> presult -> Prop),
  (forall s s1 o, lang e s (PMatch [] s1) -> lang (Repeat e 0 None) s1 o -> P s1 o -> P s o) ->
  (forall s, lang e s PFail -> P s (PMatch [] s)) ->
  (forall s m rest, lang e s (PAbort m rest) -> P s (PAbort m rest)) ->
  forall s o, lang (Repeat e 0 None) s o -> P s o.
Proof.
  intros e P P1 P2 P3 s o (r & H & <-). remember (Repeat e 0 None) as x eqn:E. revert E.
  induction H; intros E; try discriminate.
  - injection E as -> -> ->. rewrite bare_prepend. cbn [pred option_map] in *. eapply P1; [apply lang_match; eauto|apply lang_peg; eassumption|].
    exact (IHpeg2 P1 eq_refl).
  - injection E as -> ->. apply P2. apply lang_fail. assumption.
  - injection E as -> -> ->. lia.
  - injection E as -> -> ->. apply P3. apply lang_abort. assumption.
Qed.
Lemma lang_rep1 : forall e s o, lang (Repeat e 1 None) s o <->
  (exists s1, lang e s (PMatch [] s1) /\ lang (Repeat e 0 None) s1 o) \/ (lang e s o /\ stops o).
Proof.
  intros e s o. split.
  - intros (r & H & <-). inversion H; subst.
    + left. eexists. split; [apply lang_match; eauto|]. rewrite bare_prepend. apply lang_peg. assumption.
    + right. split; [apply lang_fail; assumption|exact I].
    + right. split; [apply lang_abort; assumption|exact I].
  - intros [(s1 & H1 & H2)|[H K]].
    + eapply lang_rep_more; [discriminate|exact H1|exact H2].
    + destruct o; [destruct K| |]; [apply lang_rep_short; [discriminate|lia|exact H]|apply lang_rep_abort; [discriminate|exact H]].
Qed.

(* ------------------------------------------------------------------------------------------- *)
(** * Congruence *)

Lemma same_refl : forall e, same_language G e e.
Proof. intros e s o. tauto. Qed.
Lemma same_sym : forall e e', same_language G e e' -> same_language G e' e.
Proof. intros e e' H s o. symmetry. apply H. Qed.
Lemma same_trans : forall a b c, same_language G a b -> same_language G b c -> same_language G a c.
Proof. intros a b c H1 H2 s o. rewrite (H1 s o). apply H2. Qed.
Lemma same_of_equiv : forall e e', equiv G e e' -> same_language G e e'.
Proof. intros e e' H s o. split; intros (r & D & E); exists r; (split; [apply H; exact D|exact E]). Qed.

Lemma same_and_half : forall es es', Forall2 (same_language G) es es' -> forall s o, lang (And es) s o -> lang (And es') s o.
Proof.
  intros es es' F. induction F as [|e e' es es' E F IH]; intros s o H; [exact H|].
  apply lang_and_inv in H. destruct H as [(s1 & H1 & H2)|[H K]].
  - eapply lang_and_cons; [apply E; exact H1|apply IH; exact H2].
  - apply lang_and_stop; [apply E; exact H|exact K].
Qed.
Lemma same_or_half : forall es es', Forall2 (same_language G) es es' -> forall s o, lang (Or es) s o -> lang (Or es') s o.
Proof.
  intros es es' F. induction F as [|e e' es es' E F IH]; intros s o H; [exact H|].
  apply lang_or_inv in H. destruct H as [[H K]|[H1 H2]].
  - apply lang_or_first; [apply E; exact H|exact K].
  - apply lang_or_next; [apply E; exact H1|apply IH; exact H2].
Qed.
Lemma same_rep_half : forall e e', same_language G e e' -> forall x s r, peg G x s r -> forall mn mx, x = Repeat e mn mx -> lang (Repeat e' mn mx) s (bare r).
Proof.
  intros e e' E x s r H. induction H; intros mn0 mx0 Q; try discriminate Q; injection Q; intros; subst.
  - apply lang_rep_full.
  - rewrite bare_prepend. eapply lang_rep_more; [assumption|apply E; apply lang_match; eauto|]. apply IHpeg2. reflexivity.
  - apply lang_rep_done; [assumption|]. apply E. apply lang_fail. assumption.
  - apply lang_rep_short; [assumption|assumption|]. apply E. apply lang_fail. assumption.
  - apply lang_rep_abort; [assumption|]. apply E. apply lang_abort. assumption.
Qed.
Lemma same_forall2_sym : forall es es', Forall2 (same_language G) es es' -> Forall2 (same_language G) es' es.
Proof. intros es es' H. induction H; constructor; [apply same_sym; assumption|assumption]. Qed.
Lemma same_and : forall es es', Forall2 (same_language G) es es' -> same_language G (And es) (And es').
Proof. intros es es' H s o. split; apply same_and_half; [exact H|apply same_forall2_sym; exact H]. Qed.
Lemma same_or : forall es es', Forall2 (same_language G) es es' -> same_language G (Or es) (Or es').
Proof. intros es es' H s o. split; apply same_or_half; [exact H|apply same_forall2_sym; exact H]. Qed.
Lemma same_not : forall e e', same_language G e e' -> same_language G (Not e) (Not e').
Proof. intros e e' H s o. fold (lang (Not e) s o) (lang (Not e') s o). rewrite !lang_not. split; intros (o1 & D & Q); exists o1; (split; [apply H; exact D|exact Q]). Qed.
Lemma same_rep : forall e e' mn mx, same_language G e e' -> same_language G (Repeat e mn mx) (Repeat e' mn mx).
Proof.
  intros e e' mn mx H s o.
  split; intros (r & D & <-); eapply same_rep_half; try exact D; try reflexivity; [exact H|apply same_sym; exact H].
Qed.

Lemma replaced_same : forall e e', replaced (same_language G) e e' -> same_language G e e'.
Proof.
  fix IH 3. intros e e' H. destruct H as [e e' H|e|es es' H|es es' H|e e' H|e e' mn mx H].
  - exact H.
  - apply same_refl.
  - apply same_and. induction H as [|x x' l l' X L IHL]; constructor; [apply IH; exact X|exact IHL].
  - apply same_or. induction H as [|x x' l l' X L IHL]; constructor; [apply IH; exact X|exact IHL].
  - apply same_not. apply IH. exact H.
  - apply same_rep. apply IH. exact H.
Qed.

End Lang.

Lemma rewritten_sound : forall G G', rewritten G G' -> forall e s r, peg G' e s r -> lang G e s (bare r).
Proof.
  intros G G' R e s r H.
  induction H; try (apply lang_peg; econstructor; eassumption).
  - rewrite bare_prepend. eapply lang_and_cons; eassumption.
  - apply lang_and_stop; [assumption|]. eapply bare_stops; [|eassumption]. symmetry. apply bare_bare.
  - apply lang_or_first; [assumption|]. intro K. apply bare_fail in K. contradiction.
  - apply lang_or_next; assumption.
  - apply lang_not. eexists. split; [exact IHpeg|reflexivity].
  - apply lang_not. eexists. split; [exact IHpeg|]. destruct r; [contradiction|reflexivity|reflexivity].
  - rewrite bare_prepend. eapply lang_rep_more; eassumption.
  - apply lang_rep_done; assumption.
  - apply lang_rep_short; assumption.
  - apply lang_rep_abort; assumption.
  - specialize (R n). rewrite H in R. destruct (G n) as [e0|] eqn:E; [|contradiction].
    rewrite bare_wrap. apply (lang_rule G n e0 _ _ E). apply (replaced_same _ _ _ R). exact IHpeg.
  - specialize (R n). rewrite H in R. destruct (G n) as [e0|] eqn:E; [contradiction|]. apply lang_peg. apply peg_rule_missing. exact E.
Qed.

(* ------------------------------------------------------------------------------------------- *)
(** * parse *)

Lemma rewrite_ok : forall rs rs' s fuel t, sane_rules rs -> sane_rules rs' -> ascii s -> rewritten (grammar_of rs) (grammar_of rs') ->
  parse fuel s rs' = Ok t -> exists fuel' t', parse fuel' s rs = Ok t'.
Proof.
  intros rs rs' s fuel t S S' A R H. destruct (parse_tree fuel s rs' t S' H) as (e' & kids & E' & -> & D & _).
  pose proof (R main) as M. unfold grammar_of in M. rewrite E' in M. destruct (rules_get rs main) as [e|] eqn:E; [|contradiction].
  assert (D2 : lang (grammar_of rs) e s (PMatch [] [])) by (apply (replaced_same _ _ _ M), (rewritten_sound _ _ R _ _ _ D)).
  apply lang_match in D2. destruct D2 as [ts D2]. apply (parse_accepts s rs S A). exists e, ts. auto.
Qed.

Lemma rewrite_err : forall rs rs' s fuel er, sane_rules rs -> sane_rules rs' -> ascii s -> rewritten (grammar_of rs) (grammar_of rs') ->
  parse fuel s rs' = Err er -> exists fuel' er', parse fuel' s rs = Err er'.
Proof.
  intros rs rs' s fuel er S S' A R H. destruct (proj1 (parse_rejects s rs' S' A)) as [[r D] N]; [exists fuel, er; exact H|].
  apply (parse_rejects s rs S A). pose proof (rewritten_sound _ _ R _ _ _ D) as L. split; [destruct L as (r' & L & _); exists r'; exact L|].
  intros (e & ts & E & D2). apply N.
  assert (L2 : lang (grammar_of rs) (RuleName main) s (PMatch [] [])) by (apply (lang_rule _ _ _ _ _ E); apply lang_match; eauto).
  pose proof (lang_det _ _ _ _ _ L L2) as Q. apply bare_match in Q. destruct Q as (us & -> & _).
  apply inv_rule in D. destruct D as (e' & k & E' & _ & D). eauto.
Qed.

Lemma rewrite_iff : forall rs rs' s, sane_rules rs -> sane_rules rs' -> ascii s -> rewritten (grammar_of rs) (grammar_of rs') ->
  well_formed (grammar_of rs') ->
  ((exists fuel t, parse fuel s rs = Ok t) <-> (exists fuel t, parse fuel s rs' = Ok t)) /\
  ((exists fuel er, parse fuel s rs = Err er) <-> (exists fuel er, parse fuel s rs' = Err er)).
Proof.
  intros rs rs' s S S' A R W.
  pose (b := depth_factor rs' * (length s + 1)). assert (NF : parse b s rs' <> Fuel) by (apply parse_bound; [exact W|apply Nat.le_refl]).
  destruct (parse b s rs') as [t'|er'| |] eqn:P; [| | |contradiction].
  - destruct (rewrite_ok rs rs' s b t' S S' A R P) as (f & t0 & F). split; [split; intros _; eauto|].
    split; intros (g & er & Q); exfalso.
    + assert (E : Err er = Ok t0) by (eapply (parse_same g f); try eassumption; discriminate). discriminate.
    + assert (E : Err er = Ok t') by (eapply (parse_same g b); try eassumption; discriminate). discriminate.
  - destruct (rewrite_err rs rs' s b er' S S' A R P) as (f & e0 & F). split; [|split; intros _; eauto].
    split; intros (g & t & Q); exfalso.
    + assert (E : Ok t = Err e0) by (eapply (parse_same g f); try eassumption; discriminate). discriminate.
    + assert (E : Ok t = Err er') by (eapply (parse_same g b); try eassumption; discriminate). discriminate.
  - exfalso. exact (parse_no_panic b s rs' false A P).
Qed.
