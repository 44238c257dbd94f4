(** Errors in long grammar texts are those of the first definition that is not well written. *)
From Verif Require Import Base ModelAst ModelParser ModelPegRules ModelPeg SpecApi SpecPeg SpecPos SpecSyntax SpecReport SpecPegApi SpecLocal SpecReport
  ProofParser ProofEngine ProofConsume PegTools PegNames PegLeaf ProofPegInv ProofPegBuild ProofReport ProofPanic ProofLook ProofPegApi ProofText.

Lemma starts_header : forall t, starts_definition t -> exists ts r, peg PG header t (PMatch ts r).
Proof.
  intros t (n & b & c & r & N & B & C & ->).
  assert (F : unit_follow (b ++ c :: r)).
  { destruct b as [|d b]; apply stop_name; [destruct C as [->| ->]; auto 10|]. left. exact (blank_stop _ _ _ B eq_refl). }
  destruct (name_bwd n _ N (proj1 F)) as (x & M & _).
  destruct (blank_bwd b (c :: r) B) as [k M1]; [apply clean_char; destruct C as [->| ->]; discriminate|].
  destruct C as [->| ->]; eexists _, _; (eapply mk_and; [exact M|]; eapply mk_and; [exact M1|]; apply peg_and_last).
  - apply mk_or1. apply (mk_lit _ (s_ "=")). reflexivity.
  - apply peg_or_next; [apply peg_lit_fail; intros y E; discriminate|]. apply mk_or1. apply (mk_lit _ (s_ "{")). reflexivity.
Qed.

(** The definitions before a text that begins one are read, one by one. *)
Lemma defs_before : forall t l, defs_text t l -> forall b z ts r, blank b -> peg PG header z (PMatch ts r) ->
  exists x s1 ls, peg PG one_def (b ++ t ++ z) (PMatch [x] s1) /\ star PG one_def s1 ls z.
Proof.
  intros t l H. induction H as [t d H|t d r l H Hr IHr]; intros b z ts y B M.
  - destruct (proj1 def_build t d H b z B (dw_header _ _ _ M)) as (x & Mx & _). exists x, z, []. split; [exact Mx|constructor].
  - destruct (IHr [] z ts y bl_nil M) as (x2 & s2 & ls & M2 & St). cbn [app] in M2.
    assert (Fr : def_follow (r ++ z)).
    { inversion Hr as [? d2 H2|t2 d2 r2 l2 H2 _]; subst; [destruct (def_header r d2 z H2) as (us & y2 & Mh)|rewrite <- app_assoc; destruct (def_header t2 d2 (r2 ++ z) H2) as (us & y2 & Mh)]; eapply dw_header; exact Mh. }
    destruct (proj1 def_build t d H b (r ++ z) B Fr) as (x & Mx & _). rewrite <- app_assoc. exists x, (r ++ z), ([x2] :: ls).
    split; [exact Mx|]. econstructor; eassumption.
Qed.

(** What a repetition without upper bound says about the place where it gives up. *)
Inductive gives_up : eresult -> prio -> str -> str -> Prop :=
| gu_more ts c rest q t : gives_up (EMatch ts (c :: rest) (Some q) t) Normal (r_descr q) (r_rest q)
| gu_fail q : gives_up (EFail q) Normal (r_descr q) (r_rest q)
| gu_abort q : gives_up (EAbort q) Critical (r_descr q) (r_rest q).

Lemma gives_up_after : forall ts p t r pr d z, gives_up r pr d z -> gives_up (after ts p t r) pr d z.
Proof.
  intros ts p t r pr d z H. destruct H as [us c rest q t'|q|q]; cbn [after].
  - apply (gu_more (ts ++ us) c rest (shift t q)).
  - apply (gu_fail (shift t q)).
  - apply (gu_abort (shift t q)).
Qed.
Definition finishes (r : eresult) : Prop := exists ts p t, r = EMatch ts [] p t.
Lemma finishes_after : forall ts p t r, finishes r -> finishes (after ts p t r).
Proof. intros ts p t r (us & p' & t' & ->). cbn. eexists _, _, _. reflexivity. Qed.

(** An unbounded repetition that ends has tried once more. *)
Lemma rep_pending : forall G e mn s r, pege G (Repeat e mn None) s r ->
  forall ts rest p t, r = EMatch ts rest p t -> exists q, p = Some q.
Proof.
  intros G e mn s r H. remember (Repeat e mn None) as x eqn:X. revert mn X.
  induction H; intros k X us z p' t' E; try discriminate X; try discriminate E.
  - injection X as -> -> ->. destruct r as [us' rest' p'' t''|q|q]; try discriminate E. cbn in E. injection E as <- <- <- <-.
    destruct (IHpege2 _ eq_refl _ _ _ _ eq_refl) as [q ->]. eauto.
  - injection E as <- <- <- <-. eauto.
Qed.

(** Whether the first turn is required changes nothing in the report. *)
Lemma rep_first : forall G e s r pr d z, pege G (Repeat e 1 None) s r -> gives_up r pr d z -> s <> [] ->
  exists r0, pege G (Repeat e 0 None) s r0 /\ gives_up r0 pr d z.
Proof.
  intros G e s r pr d z H U N.
  inversion H as [| | | | | | | | | | | | | | | | |e0 mn mx s0 ts s1 p t r0 _ P1 P2| |e0 mn mx s0 q _ _ P|e0 mn mx s0 q _ P| |]; subst.
  - eexists. split; [eapply ee_rep_more; [discriminate|exact P1|exact P2]|exact U].
  - destruct s as [|c s]; [congruence|]. eexists. split; [eapply ee_rep_done; [discriminate|exact P]|]. inversion U; subst. constructor.
  - eexists. split; [eapply ee_rep_abort; [discriminate|exact P]|exact U].
Qed.

Lemma rep_star : forall G e s ls z, star G e s ls z -> forall r pr d w, pege G (Repeat e 0 None) z r -> gives_up r pr d w ->
  exists r', pege G (Repeat e 0 None) s r' /\ gives_up r' pr d w.
Proof.
  intros G e s ls z H. induction H as [s|s t s1 ts rest M St IH]; intros r pr d w P U.
  - eauto.
  - destruct (IH r pr d w P U) as (r1 & P1 & U1). destruct (peg_pege _ _ _ _ M) as ([us rest' p t'|q|q] & Pm & E); try discriminate E.
    cbn in E. injection E as -> ->. eexists. split; [eapply ee_rep_more; [discriminate|exact Pm|exact P1]|]. apply gives_up_after. exact U1.
Qed.

Lemma rep_first_done : forall G e s r, pege G (Repeat e 1 None) s r -> finishes r ->
  exists r0, pege G (Repeat e 0 None) s r0 /\ finishes r0.
Proof.
  intros G e s r H F.
  inversion H as [| | | | | | | | | | | | | | | | |e0 mn mx s0 ts s1 p t r0 _ P1 P2| |e0 mn mx s0 q _ _ P|e0 mn mx s0 q _ P| |]; subst.
  - eexists. split; [eapply ee_rep_more; [discriminate|exact P1|exact P2]|exact F].
  - destruct F as (us & p' & t' & E). discriminate.
  - destruct F as (us & p' & t' & E). discriminate.
Qed.

Lemma rep_star_done : forall G e s ls z, star G e s ls z -> forall r, pege G (Repeat e 0 None) z r -> finishes r ->
  exists r', pege G (Repeat e 0 None) s r' /\ finishes r'.
Proof.
  intros G e s ls z H. induction H as [s|s t s1 ts rest M St IH]; intros r P U.
  - eauto.
  - destruct (IH r P U) as (r1 & P1 & U1). destruct (peg_pege _ _ _ _ M) as ([us rest' p t'|q|q] & Pm & E); try discriminate E.
    cbn in E. injection E as -> ->. eexists. split; [eapply ee_rep_more; [discriminate|exact Pm|exact P1]|]. apply finishes_after. exact U1.
Qed.

Definition defs_rep : expr := Repeat one_def 1 None.

Lemma main_rep : forall s r, pege PG (RuleName main) s r -> exists r0, pege PG defs_rep s r0 /\ r = within main (within (s_ "grammar") r0).
Proof.
  intros s r H. inversion H as [| | | | | | | | | | | | | | | | | | | | |n e s0 r0 Hn P|n s0 Hn]; subst.
  - change main with (s_ "main") in Hn; rewrite g_main in Hn. injection Hn as <-.
    inversion P as [| | | | | | | | | | | | | | | | | | | | |n1 e1 s1 r1 Hn1 P1|n1 s1 Hn1]; subst; rewrite g_grammar in Hn1; [|discriminate].
    injection Hn1 as <-. eexists. split; [exact P1|reflexivity].
  - change main with (s_ "main") in Hn; rewrite g_main in Hn. discriminate.
Qed.
Lemma rep_main : forall s r, pege PG defs_rep s r -> pege PG (RuleName main) s (within main (within (s_ "grammar") r)).
Proof.
  intros s r H. eapply ee_rule; [exact g_main|]. eapply ee_rule; [exact g_grammar|]. exact H.
Qed.

Lemma syntax_error_report : forall s er, ascii s ->
  (SpecPegApi.answers s (Err (EParser er)) <-> exists f, parse f s parse_peg = Err er).
Proof.
  intros s er As. split.
  - intros [_ [f0 F]]. exists f0. specialize (F f0 (le_n _)).
    destruct (rules_from_peg_err _ _ _ F) as [(er' & E & P)|(ast & e' & P & D & E & _)]; [injection E as <-; exact P|discriminate].
  - intros [f P]. apply (answers_intro f); [|discriminate]. unfold rules_from_peg. rewrite P. reflexivity.
Qed.

Definition error_of (text rest d : str) (p : prio) : perror :=
  PError (pos_of (before text rest)) d (tail_after is_nl (before text rest)) (until_eol rest) [] p.

(** A syntax error is what the repetition of definitions gives up with. *)
Lemma syntax_error_rep : forall s er, ascii s -> s <> [] ->
  ((exists f, parse f s parse_peg = Err er) <->
   exists r p d z, pege PG defs_rep s r /\ gives_up r p d z /\ er = error_of s z d p).
Proof.
  intros s er As N. pose proof (parse_report_iff s parse_peg false (Err er) parse_peg_sane As) as R.
  split.
  - intros [f P]. destruct (proj1 (R ltac:(discriminate)) (ex_intro _ f P)) as (r & D & A).
    destruct (main_rep s r D) as (r0 & P0 & ->).
    destruct r0 as [us rest p t|q|q]; cbn [within option_map] in A.
    + destruct (rep_pending _ _ _ _ _ P0 _ _ _ _ eq_refl) as [q ->]. cbn [option_map] in A. inversion A; subst.
      eexists _, _, _, _. split; [exact P0|]. split; [apply gu_more|reflexivity].
    + inversion A; subst. eexists _, _, _, _. split; [exact P0|]. split; [apply gu_fail|reflexivity].
    + inversion A; subst. eexists _, _, _, _. split; [exact P0|]. split; [apply gu_abort|reflexivity].
  - intros (r & p & d & z & P & U & ->). apply (proj2 (R ltac:(discriminate))). eexists. split; [apply rep_main; exact P|].
    destruct U as [ts c rest q t|q|q]; cbn [within option_map].
    + apply (an_pending s false [Rule main [Rule (s_ "grammar") ts]] c rest (shift [main] (shift [s_ "grammar"] q))).
    + apply (an_fail s false (shift [main] (shift [s_ "grammar"] q))).
    + apply (an_abort s false (shift [main] (shift [s_ "grammar"] q))).
Qed.

Lemma gives_up_placed : forall s r p d z, rplaced s r -> gives_up r p d z -> exists c, s = c ++ z.
Proof. intros s r p d z H U. destruct U as [ts c rest q t|q|q]; cbn in H; [exact (proj2 H)|exact H|exact H]. Qed.

Lemma starts_nonempty : forall t ts r, peg PG header t (PMatch ts r) -> t <> [].
Proof.
  intros t ts r M ->. assert (X : peg PG header [] PFail) by (apply (looks_fail PG LF _ None); [reflexivity|vm_compute; reflexivity]).
  discriminate (peg_det _ _ _ _ M _ X).
Qed.

Section Local.
Variables (g t : str) (l : list def) (hs : list node) (hr : str).
Hypothesis As : ascii (g ++ t).
Hypothesis Gt : grammar_text g l.
Hypothesis Hd : peg PG header t (PMatch hs hr).

Lemma local_forward : forall er, SpecPegApi.answers t (Err (EParser er)) ->
  exists er', moved g t er er' /\ SpecPegApi.answers (g ++ t) (Err (EParser er')).
Proof.
  intros er A. assert (At : ascii t) by (apply Forall_app in As; tauto). pose proof (starts_nonempty _ _ _ Hd) as N.
  apply (proj1 (syntax_error_report t er At)) in A. apply (proj1 (syntax_error_rep t er At N)) in A.
  destruct A as (r & p & d & z & P & U & ->).
  destruct (gives_up_placed _ _ _ _ _ (pege_placed _ _ _ _ P) U) as [pre Ez].
  destruct (rep_first _ _ _ _ _ _ _ P U N) as (r0 & P0 & U0).
  destruct Gt as (b & w & B & W & Eg). destruct (defs_before w l W b t hs hr B Hd) as (x & s1 & ls & M & St).
  destruct (rep_star _ _ _ _ _ St _ _ _ _ P0 U0) as (r1 & P1 & U1).
  destruct (peg_pege _ _ _ _ M) as ([us rest p' t'|q|q] & Pm & E); try discriminate E. cbn in E. injection E as -> ->.
  exists (error_of (g ++ t) z d p). split.
  - exists pre, z. split; [exact Ez|]. unfold error_of; cbn [e_pos e_line_before e_line_after e_descr e_priority e_parsing_rules].
    assert (B1 : before t z = pre) by (rewrite Ez; apply ProofReport.before_app).
    assert (B2 : before (g ++ t) z = g ++ pre) by (rewrite Ez, app_assoc; apply ProofReport.before_app).
    rewrite B1, B2. repeat split.
  - apply (proj2 (syntax_error_report (g ++ t) _ As)). apply (proj2 (syntax_error_rep (g ++ t) _ As ltac:(intro E; apply app_eq_nil in E; tauto))).
    exists (after [x] p' t' r1), p, d, z. split; [|split; [apply gives_up_after; exact U1|reflexivity]].
    rewrite Eg, <- app_assoc. eapply ee_rep_more; [discriminate|exact Pm|exact P1].
Qed.

Lemma accepted_longer : forall f ast, parse f t parse_peg = Ok ast -> ~ exists er, SpecPegApi.answers (g ++ t) (Err (EParser er)).
Proof.
  intros f ast P (er & A). assert (At : ascii t) by (apply Forall_app in As; tauto).
  destruct (proj1 (parse_report_iff t parse_peg false (Ok ast) parse_peg_sane At ltac:(discriminate)) (ex_intro _ f P)) as (r & D & An).
  destruct (main_rep t r D) as (r0 & P0 & ->).
  assert (U : finishes r0).
  { destruct r0 as [us rest p t0|q|q]; cbn [within] in An; inversion An; subst. eexists _, _, _. reflexivity. }
  destruct (rep_first_done _ _ _ _ P0 U) as (r1 & P1 & U1).
  destruct Gt as (b & w & B & W & Eg). destruct (defs_before w l W b t hs hr B Hd) as (x & s1 & ls & M & St).
  destruct (rep_star_done _ _ _ _ _ St _ P1 U1) as (r2 & P2 & U2).
  destruct (peg_pege _ _ _ _ M) as ([us rest p' t'|q|q] & Pm & E); try discriminate E. cbn in E. injection E as -> ->.
  assert (Pg : pege PG defs_rep (g ++ t) (after [x] p' t' r2)).
  { rewrite Eg, <- app_assoc. eapply ee_rep_more; [discriminate|exact Pm|exact P2]. }
  apply (proj1 (syntax_error_report (g ++ t) er As)) in A.
  apply (proj1 (syntax_error_rep (g ++ t) er As ltac:(intro E; apply app_eq_nil in E; destruct E as [_ E]; exact (starts_nonempty _ _ _ Hd E)))) in A.
  destruct A as (r' & p & d & z & P' & U' & _). rewrite (pege_det _ _ _ _ P' _ Pg) in U'.
  destruct (finishes_after [x] p' t' r2 U2) as (a1 & a2 & a3 & Ea). rewrite Ea in U'. inversion U'.
Qed.

Lemma local_backward : forall er', SpecPegApi.answers (g ++ t) (Err (EParser er')) ->
  exists er, moved g t er er' /\ SpecPegApi.answers t (Err (EParser er)).
Proof.
  intros er' A. assert (At : ascii t) by (apply Forall_app in As; tauto).
  destruct (answers_total t) as (o & Ao). pose proof Ao as [No [f0 F]]. specialize (F f0 (le_n _)).
  destruct o as [rs|e| |]; [exfalso| |exfalso|congruence].
  - destruct (answers_ok t rs Ao) as (_ & lt & Gtt & _). pose proof (reads _ _ As (grammar_app _ _ _ _ Gt Gtt)) as K.
    pose proof (answers_fun _ _ _ A K). discriminate.
  - destruct (rules_from_peg_err _ _ _ F) as [(er & -> & P)|(ast & e' & P & D & -> & _)].
    + destruct (local_forward er Ao) as (er'' & Mv & A''). pose proof (answers_fun _ _ _ A'' A) as E. injection E as ->. exists er. split; assumption.
    + exfalso. apply (accepted_longer f0 ast P). eexists. exact A.
  - destruct (rules_from_peg_total t) as (f1 & r & Nr & Fr & C).
    assert (E : Panic = r) by (eapply (le_answers t f0 f1); [exact F|apply Fr; lia|discriminate|exact Nr]). subst r. contradiction.
Qed.
End Local.
