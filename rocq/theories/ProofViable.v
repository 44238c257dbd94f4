(** Errors and the texts a grammar generates. *)
From Verif Require Import Base ModelAst ModelParser SpecPeg SpecPos SpecApi SpecWf SpecReport SpecBnf.
From Verif Require Import PegTools ProofParser ProofEngine ProofSim ProofApi ProofReport ProofBnf ProofLinear Examples.

Section Viable.
Variable rs : rules.
Notation G := (rules_get rs).
Hypothesis SR : sane_rules rs.
Hypothesis PR : productive G.

(** [p] is the beginning of something that [e] generates. *)
Definition begins (e : expr) (p : str) : Prop := exists u ts, derives G e (p ++ u) ts.

(** The report stands at most one char after such a beginning. *)
Definition near (e : expr) (s : str) (q : report) : Prop := exists p t, s = p ++ t /\ begins e p /\ length t <= S (length (r_rest q)).

Lemma gen_begins : forall e, gen rs e -> begins e [].
Proof. intros e (w & ts & D). exists w, ts. exact D. Qed.

(** What is reported from stands for something. *)
Fixpoint parts (e : expr) : Prop :=
  match e with
  | Simple a => gen rs (Simple a)
  | And es => fold_right (fun x P => parts x /\ P) True es
  | Or es => gen rs (Or es) /\ fold_right (fun x P => parts x /\ P) True es
  | Not _ => True
  | Repeat x mn mx => parts x /\ match mx with None => True | Some m => mn <= m end
  | RuleName n => G n <> None
  end.

Lemma parts_ok : forall e, sane e -> (forall x, occurs x e -> gen rs x) -> parts e.
Proof.
  induction e as [a|es IH|es IH|x IH|x mn mx IH|n] using expr_ind'; intros S O.
  - apply O, oc_here.
  - cbn. assert (O' : forall y x, In x es -> occurs y x -> gen rs y) by (intros y x I Oy; apply O; eapply oc_and; eassumption). clear O.
    induction es as [|x r IHr]; [exact I|]. inversion IH as [|y1 y2 H1 H2]; subst. destruct S as [S1 S2]. split.
    + apply (H1 S1). intros y Oy. apply (O' y x (or_introl eq_refl) Oy).
    + apply (IHr H2 S2). intros y z I Oy. apply (O' y z (or_intror I) Oy).
  - cbn. split; [apply O, oc_here|].
    assert (O' : forall y x, In x es -> occurs y x -> gen rs y) by (intros y x I Oy; apply O; eapply oc_or; eassumption). clear O.
    induction es as [|x r IHr]; [exact I|]. inversion IH as [|y1 y2 H1 H2]; subst. destruct S as [S1 S2]. split.
    + apply (H1 S1). intros y Oy. apply (O' y x (or_introl eq_refl) Oy).
    + apply (IHr H2 S2). intros y z I Oy. apply (O' y z (or_intror I) Oy).
  - exact I.
  - destruct S as [S1 S2]. split; [|destruct mx; [lia|exact I]]. apply (IH S1). intros y Oy. apply O, oc_rep, Oy.
  - destruct (O (RuleName n) (oc_here _)) as (w & ts & D). inversion D; subst. cbn. congruence.
Qed.

Lemma body_parts : forall n e, G n = Some e -> parts e.
Proof. intros n e E. apply (parts_ok e (SR n e E)). intros x O. exact (PR n e x E O). Qed.

Lemma parts_gen : forall e, parts e -> gen rs e.
Proof.
  induction e as [a|es IH|es IH|x IH|x mn mx IH|n] using expr_ind'; intro P.
  - exact P.
  - induction es as [|x r IHr]; [exists [], []; constructor|]. inversion IH as [|y1 y2 H1 H2]; subst. destruct P as [P1 P2].
    destruct (H1 P1) as (w & ts & D). destruct (IHr H2 P2) as (v & us & D2). exists (w ++ v), (ts ++ us). apply d_and_cons; assumption.
  - exact (proj1 P).
  - exists [], []. constructor.
  - destruct P as [P1 P2]. apply gen_rep; [exact (IH P1)|exact P2].
  - cbn in P. destruct (G n) as [e|] eqn:E; [|congruence]. destruct (PR n e e E (oc_here e)) as (w & ts & D). exists w, [Rule n ts]. eapply d_rule; eassumption.
Qed.

Lemma near_shift : forall e s q t, near e s q -> near e s (shift t q).
Proof. intros e s q t H. exact H. Qed.

Lemma near_and_head : forall e es s q, parts (And es) -> near e s q -> near (And (e :: es)) s q.
Proof.
  intros e es s q P (p & t & E & (u & ts & D) & L). destruct (parts_gen (And es) P) as (v & us & D2).
  exists p, t. split; [exact E|]. split; [|exact L]. exists (u ++ v), (ts ++ us). rewrite app_assoc. apply d_and_cons; assumption.
Qed.

Lemma near_and_tail : forall e es s s1 w ts q, s = w ++ s1 -> derives G e w ts -> near (And es) s1 q -> near (And (e :: es)) s q.
Proof.
  intros e es s s1 w ts q -> D (p & t & -> & (u & us & D2) & L). exists (w ++ p), t. split; [apply app_assoc|]. split; [|exact L].
  exists u, (ts ++ us). rewrite <- app_assoc. apply d_and_cons; assumption.
Qed.

Lemma near_rep_head : forall e mn mx s q, mx <> Some 0 -> parts (Repeat e mn mx) -> near e s q -> near (Repeat e mn mx) s q.
Proof.
  intros e mn mx s q Z [P1 P2] (p & t & E & (u & ts & D) & L).
  destruct (gen_rep rs e (parts_gen e P1) (pred mn) (option_map pred mx)) as (v & us & D2); [destruct mx; cbn; [lia|exact I]|].
  exists p, t. split; [exact E|]. split; [|exact L]. exists (u ++ v), (ts ++ us). rewrite app_assoc. apply d_rep_more; assumption.
Qed.

Lemma near_rep_tail : forall e mn mx s s1 w ts q, mx <> Some 0 -> s = w ++ s1 -> derives G e w ts -> near (Repeat e (pred mn) (option_map pred mx)) s1 q ->
  near (Repeat e mn mx) s q.
Proof.
  intros e mn mx s s1 w ts q Z -> D (p & t & -> & (u & us & D2) & L). exists (w ++ p), t. split; [apply app_assoc|]. split; [|exact L].
  exists u, (ts ++ us). rewrite <- app_assoc. apply d_rep_more; assumption.
Qed.

Lemma near_rule : forall n e s q, G n = Some e -> near e s q -> near (RuleName n) s q.
Proof.
  intros n e s q E (p & t & Es & (u & ts & D) & L). exists p, t. split; [exact Es|]. split; [|exact L]. exists u, [Rule n ts]. eapply d_rule; eassumption.
Qed.

Lemma near_or : forall e es s q, In e es -> near e s q -> near (Or es) s q.
Proof.
  intros e es s q I (p & t & Es & (u & ts & D) & L). exists p, t. split; [exact Es|]. split; [|exact L]. exists u, ts. eapply d_or; eassumption.
Qed.

Lemma near_here : forall e s q, gen rs e -> length s <= S (length (r_rest q)) -> near e s q.
Proof. intros e s q H L. exists [], s. split; [reflexivity|]. split; [apply gen_begins; exact H|exact L]. Qed.

Lemma lit_near : forall l s rest, lit_stops l s rest -> exists p t u, s = p ++ t /\ l = p ++ u /\ length t <= S (length rest).
Proof.
  intros l s rest H. induction H as [c l|c l d s N|c l s rest H (p & t & u & -> & -> & L)].
  - exists [], [], (c :: l). repeat split. cbn. lia.
  - exists [], (d :: s), (c :: l). repeat split. cbn. lia.
  - exists (c :: p), t, u. repeat split. exact L.
Qed.

Lemma located_match : forall e s ts rest p t, pege G e s (EMatch ts rest p t) -> exists w, s = w ++ rest /\ derives G e w ts.
Proof. intros e s ts rest p t D. exact (peg_derives G _ _ _ (pege_plain G _ _ _ D) _ _ eq_refl). Qed.

(** The reports only. *)
Definition placed (e : expr) (s : str) (r : eresult) : Prop :=
  match r with
  | EMatch _ _ p _ => forall q, p = Some q -> near e s q
  | EFail q => near e s q
  | EAbort _ => False
  end.

Lemma all_placed :
  (forall e s r, pege G e s r -> parts e -> placed e s r) /\
  (forall es s o r, choice G es s o r -> forall all, incl es all -> fold_right (fun x P => parts x /\ P) True es ->
     (forall q, o = Some q -> near (Or all) s q) -> (o = None -> gen rs (Or es)) -> placed (Or all) s r).
Proof.
  apply pege_choice_ind; unfold placed; fold placed; intros; try discriminate.
  - (* literal *) destruct (lit_near _ _ _ H) as (p & t & u & -> & -> & L). exists p, t. split; [reflexivity|]. split; [|exact L].
    exists u, [Val (p ++ u)]. constructor.
  - apply near_here; [exact H0|]. cbn. lia.
  - apply near_here; [exact H|]. cbn. lia.
  - apply near_here; [exact H|]. cbn. lia.
  - apply near_here; [exact H|]. cbn. lia.
  - destruct H as (w & ts & D). inversion D.
  - (* sequence *) destruct H3 as [P1 P2]. specialize (H0 P1). specialize (H2 P2). cbn in H0. destruct (located_match _ _ _ _ _ _ H) as (w & Ew & D).
    destruct r as [us rest p' t'|q|q]; cbn in H2 |- *.
    + intros q E. destruct p' as [q'|].
      * injection E as <-. apply near_shift. eapply near_and_tail; [exact Ew|exact D|]. apply H2. reflexivity.
      * apply near_and_head; [exact P2|]. apply H0. exact E.
    + apply near_shift. eapply near_and_tail; [exact Ew|exact D|exact H2].
    + exact H2.
  - destruct H2 as [P1 P2]. specialize (H0 P1). destruct r as [us rest p' t'|q|q]; [contradiction| |exact H0]. apply near_and_head; assumption.
  - (* choice *) destruct H1 as [P1 P2]. apply (H0 es); [apply incl_refl|exact P2|discriminate|intros _; exact P1].
  - (* not *) apply near_here; [exists [], []; constructor|]. cbn. lia.
  - (* repetition *) destruct H4 as [P1 P2]. specialize (H1 P1). cbn in H1. destruct (located_match _ _ _ _ _ _ H0) as (w & Ew & D).
    assert (P' : parts (Repeat e (pred mn) (option_map pred mx))) by (split; [exact P1|destruct mx; cbn; [lia|exact I]]). specialize (H3 P').
    destruct r as [us rest p' t'|q|q]; cbn in H3 |- *.
    + intros q E. destruct p' as [q'|].
      * injection E as <-. apply near_shift. eapply near_rep_tail; [exact H|exact Ew|exact D|]. apply H3. reflexivity.
      * apply near_rep_head; [exact H|split; assumption|]. apply H1. exact E.
    + apply near_shift. eapply near_rep_tail; [exact H|exact Ew|exact D|exact H3].
    + exact H3.
  - injection H3 as <-. apply near_rep_head; [exact H|exact H2|]. exact (H1 (proj1 H2)).
  - apply near_rep_head; [exact H|exact H3|]. exact (H2 (proj1 H3)).
  - exact (H1 (proj1 H2)).
  - (* rule *) specialize (H1 (body_parts n e H)). destruct r as [us rest p' t'|q|q]; cbn in H1 |- *.
    + intros q E. destruct p' as [q'|]; [|discriminate]. injection E as <-. apply near_shift. eapply near_rule; [exact H|]. apply H1. reflexivity.
    + apply near_shift. eapply near_rule; eassumption.
    + exact H1.
  - exfalso. apply H0. exact H.
  - (* no alternatives *) destruct (H2 eq_refl) as (w & ts & D). inversion D; subst. contradiction.
  - apply H1. reflexivity.
  - destruct H3 as [P1 P2]. specialize (H0 P1). destruct r as [us rest p' t'|q|q]; cbn in H0 |- *.
    + intros q E. eapply near_or; [apply H2; left; reflexivity|]. apply H0. exact E.
    + exfalso. apply H1. exact I.
    + exact H0.
  - destruct H4 as [P1 P2]. specialize (H0 P1). apply H2; [intros x I'; apply H3; right; exact I'|exact P2| |discriminate].
    intros q' E. injection E as <-. unfold further. assert (N : near (Or all) s q) by (eapply near_or; [apply H3; left; reflexivity|exact H0]).
    destruct o as [p0|]; [|exact N]. destruct (_ <? _); [apply H5; reflexivity|exact N].
Qed.

Lemma errors_placed : forall fuel s debug er, G main <> None -> ascii s -> parse_with_debug fuel s rs debug = Err er ->
  e_priority er = Normal /\ exists w ast, derives G (RuleName main) w [ast] /\ firstn (pn (e_pos er) - 1) w = firstn (pn (e_pos er) - 1) s.
Proof.
  intros fuel s debug er M As E. destruct (proj1 (parse_report_iff s rs debug (Err er) SR As ltac:(discriminate)) (ex_intro _ fuel E)) as (r & D & A).
  assert (P : parts (RuleName main)) by exact M. pose proof (proj1 all_placed _ _ _ D P) as L.
  assert (Z : forall q, near (RuleName main) s q -> exists w ast, derives G (RuleName main) w [ast] /\
    firstn (pn (e_pos (error_at s debug Normal q)) - 1) w = firstn (pn (e_pos (error_at s debug Normal q)) - 1) s).
  { intros q (p & t & Es & (u & ts & Du) & Lt). inversion Du; subst n w ts. eexists _, _. split; [exact Du|].
    cbn [e_pos error_at pos_of pn]. unfold before. rewrite firstn_length, Nat.min_l by lia. subst s. rewrite app_length.
    rewrite !firstn_app. replace (length p + length t - length (r_rest q) - 1 - length p) with 0 by lia. reflexivity. }
  inversion A; subst; cbn [placed] in L.
  - split; [reflexivity|]. apply Z, L. reflexivity.
  - split; [reflexivity|]. apply Z. destruct (located_match _ _ _ _ _ _ D) as (w & Ew & Dw).
    exists w, (c :: rest). split; [exact Ew|]. split; [exists [], ts; rewrite app_nil_r; exact Dw|cbn; lia].
  - split; [reflexivity|]. apply Z, L.
  - contradiction.
Qed.
End Viable.

(** Errors stand at most one char after a part that can be continued. *)
Lemma errors_follow_good_text : forall rs fuel s debug er, sane_rules rs -> productive (grammar_of rs) -> grammar_of rs main <> None -> ascii s ->
  parse_with_debug fuel s rs debug = Err er ->
  e_priority er = Normal /\
  exists w ast, derives (grammar_of rs) (RuleName main) w [ast] /\ firstn (pn (e_pos er) - 1) w = firstn (pn (e_pos er) - 1) s.
Proof. intros rs fuel s debug er SR P M A E. exact (errors_placed rs SR P fuel s debug er M A E). Qed.

Lemma errors_not_beyond : forall rs fuel p x debug er, sane_rules rs -> productive (grammar_of rs) -> grammar_of rs main <> None -> ascii (p ++ x) ->
  (forall u ast, ~ derives (grammar_of rs) (RuleName main) (p ++ u) [ast]) ->
  parse_with_debug fuel (p ++ x) rs debug = Err er -> pn (e_pos er) <= length p.
Proof.
  intros rs fuel p x debug er SR P M A N E. destruct (errors_follow_good_text rs fuel (p ++ x) debug er SR P M A E) as (_ & w & ast & D & F).
  destruct (Nat.le_gt_cases (pn (e_pos er)) (length p)) as [L|L]; [exact L|]. exfalso.
  apply (N (skipn (length p) w) ast). replace (p ++ skipn (length p) w) with w; [exact D|].
  rewrite <- (firstn_skipn (length p) w) at 1. f_equal.
  assert (H : firstn (length p) (firstn (pn (e_pos er) - 1) w) = firstn (length p) (firstn (pn (e_pos er) - 1) (p ++ x))) by (rewrite F; reflexivity).
  rewrite !firstn_firstn, !Nat.min_l in H by lia. rewrite H, firstn_app, Nat.sub_diag, firstn_all. cbn. apply app_nil_r.
Qed.

(** * A part that matches nothing *)

Definition dead_rules (l : str) : rules := rules_macro [(main, And [lit l; Simple (Match [] [])])].

Lemma dead_end : forall k, exists rs s fuel er,
  sane_rules rs /\ ascii s /\ parse fuel s rs = Err er /\ k < pn (e_pos er) /\
  forall u ast, ~ derives (grammar_of rs) (RuleName main) ([] ++ u) [ast].
Proof.
  intros k. set (s := repeat 97%N (S k)). set (rs := dead_rules s).
  assert (SR : sane_rules rs) by (apply sane_rules_all; repeat constructor).
  assert (A : ascii s) by (apply Forall_forall; intros d D; apply repeat_spec in D; subst d; reflexivity).
  assert (P : pege (grammar_of rs) (RuleName main) s (EFail (Report (class_msg [] []) [] [main]))).
  { apply (ee_rule _ main (And [lit s; Simple (Match [] [])]) s (EFail (Report (class_msg [] []) [] []))); [reflexivity|].
    apply (ee_and_cons _ (lit s) [Simple (Match [] [])] s [Val s] [] None [] (EFail (Report (class_msg [] []) [] []))).
    - pose proof (ee_lit_ok (grammar_of rs) s []) as H. rewrite app_nil_r in H. exact H.
    - apply ee_and_stop; [apply ee_class_end|exact I]. }
  destruct (proj2 (parse_report_iff s rs false (Err (error_at s false Normal (Report (class_msg [] []) [] [main]))) SR A ltac:(discriminate))
    (ex_intro _ _ (conj P (an_fail s false _)))) as (f & F).
  exists rs, s, f, (error_at s false Normal (Report (class_msg [] []) [] [main])). split; [exact SR|]. split; [exact A|]. split; [exact F|]. split.
  - cbn [e_pos error_at pos_of pn r_rest]. unfold before. rewrite firstn_length, Nat.min_l by (cbn [length]; lia).
    unfold s. rewrite repeat_length. cbn [length]. lia.
  - intros u ast D. inversion D as [| | | | | | | | | |n e w ts E B]; subst. injection E as <-.
    inversion B as [| | | | |e es w v t1 t2 B1 B2 E1| | | | |]; subst. inversion B2 as [| | | | |e es w' v' t1' t2' B1' B2' E1'| | | | |]; subst.
    inversion B1' as [|cs rs0 c C| | | | | | | | |]; subst. unfold in_class in C. destruct C as [C|C]; [contradiction|]. destruct C as (lo & hi & [] & _).
Qed.
