(** Reading a grammar text can take quadratically many calls (C54): each element of a sequence looks for another one
    after the blanks that follow the sequence. *)
From Verif Require Import Base ModelAst ModelParser ModelCost ModelPegRules SpecPeg SpecPos SpecApi SpecSyntax SpecCost ProofParser ProofEngine ProofApi ProofPegApi PegTools PegNames PegLeaf ProofPegBuild ProofRun ProofRunCost ProofReadCost.

(** [wide_text n]: [m=a a ... a] with [n + 1] elements, then [n] spaces and the end of the line. *)
Definition elems (n : nat) : str := concat (repeat (s_ " a") n).
Definition trail (m : nat) : str := repeat ch_space m ++ [ch_nl].
Definition wide_text (n : nat) : str := s_ "m=a" ++ elems n ++ trail n.

Lemma ran : forall e s o k t r, run e s o k -> sane e -> peg PG e s (PMatch t r) -> o = OM r \/ o = OC.
Proof.
  intros e s o k t r R SN P. pose proof (run_says _ _ _ _ R SN) as S. destruct o as [r'| | |]; cbn in S; auto.
  - destruct S as [t' S]. left. f_equal. eapply det; eassumption.
  - discriminate (peg_det _ _ _ _ P _ S).
  - destruct S as (m & x & S). discriminate (peg_det _ _ _ _ P _ S).
Qed.

(* ------------------------------------------------------------------------------------------- *)
(** * The texts *)

Lemma spaces_blank : forall m, blank (repeat ch_space m).
Proof. induction m; cbn; constructor; assumption. Qed.
Lemma trail_end : forall m, rule_end (trail m).
Proof. induction m; cbn; [apply re_eol; constructor|apply re_space; exact IHm]. Qed.
Lemma trail_stop : forall m, item_follow (trail m).
Proof. intros [|m]; [exists 10%N, []|exists 32%N, (trail m)]; (split; [reflexivity|]); unfold stop_head; auto. Qed.
Lemma trail_follow : forall sl m, follow sl (trail m).
Proof.
  intros sl m. exists (trail m), []. split; [symmetry; apply app_nil_r|]. split; [apply end_blank, trail_end|]. split; [constructor|apply trail_stop].
Qed.

Lemma a_symbol : symbol (s_ "a").
Proof. exists 97%N, []. split; [reflexivity|]. split; [unfold sym_start, between; right; left; split; discriminate|constructor]. Qed.
Lemma m_symbol : symbol (s_ "m").
Proof. exists 109%N, []. split; [reflexivity|]. split; [unfold sym_start, between; right; left; split; discriminate|constructor]. Qed.
Lemma a_item : item_text (s_ "a") (RuleName (s_ "a")).
Proof. apply it_one. apply ut_atom. apply at_ref. left. apply dt_one. apply a_symbol. Qed.
Lemma a_no_error : forall r, ~ starts_with_error (97%N :: r).
Proof. intros r (x & v & y & (b1 & b2 & l & b3 & _ & _ & _ & _ & ->) & E). discriminate E. Qed.

Lemma elems_seq : forall n, seq_text (s_ "a" ++ elems n) (repeat (RuleName (s_ "a")) (S n)).
Proof.
  induction n as [|n IH]; [apply st_one; [exact a_item|apply a_no_error]|].
  change (s_ "a" ++ elems (S n)) with (s_ "a" ++ [ch_space] ++ (s_ "a" ++ elems n)).
  change (repeat (RuleName (s_ "a")) (S (S n))) with (RuleName (s_ "a") :: repeat (RuleName (s_ "a")) (S n)).
  apply st_more; [exact a_item|apply sep_space; constructor|exact IH|apply a_no_error].
Qed.

Lemma elems_expr : forall n, expr_text (s_ "a" ++ elems n) (seq_of (repeat (RuleName (s_ "a")) (S n))).
Proof. intro n. apply (et _ [seq_of (repeat (RuleName (s_ "a")) (S n))]). apply ct_one. apply elems_seq. Qed.

Lemma wide_grammar : forall n, grammar_text (wide_text n) [Def (s_ "m") (seq_of (repeat (RuleName (s_ "a")) (S n)))].
Proof.
  intro n. exists [], (wide_text n). split; [constructor|]. split; [|reflexivity]. apply ds_one.
  replace (wide_text n) with (s_ "m" ++ [] ++ s_ "=" ++ [] ++ (s_ "a" ++ elems n) ++ trail n ++ []).
  - apply df_rule; [left; apply dt_one; exact m_symbol|constructor|constructor|apply elems_expr|apply trail_end|constructor].
  - rewrite app_nil_r, <- app_assoc. reflexivity.
Qed.

Lemma wide_ascii : forall n, ascii (wide_text n).
Proof.
  intro n. unfold ascii. assert (E : forall k, Forall (fun c => (c < 128)%N) (elems k)).
  { induction k; [constructor|]. change (elems (S k)) with (s_ " a" ++ elems k). apply Forall_app. split; [repeat constructor|exact IHk]. }
  unfold wide_text, trail. repeat (apply Forall_app; split); [repeat constructor|apply E|clear; induction n; constructor; [reflexivity|exact IHn]|repeat constructor].
Qed.

Lemma wide_length : forall n, length (wide_text n) = 3 * n + 4.
Proof.
  intro n. unfold wide_text, trail. rewrite !app_length, repeat_length. assert (E : length (elems n) = 2 * n).
  { induction n; [reflexivity|]. change (elems (S n)) with (s_ " a" ++ elems n). rewrite app_length, IHn. change (length (s_ " a")) with 2. lia. }
  rewrite E. change (length (s_ "m=a")) with 3. cbn [length]. lia.
Qed.

(* ------------------------------------------------------------------------------------------- *)
(** * The calls *)

Lemma unit_space : forall x, peg PG b_unit (ch_space :: x) (PMatch [Val (s_ " ")] x).
Proof. intro x. apply mk_or1. apply mk_lit. reflexivity. Qed.

Lemma spaces_cost : forall m x o k, costs_rep PG b_unit 0 None (repeat ch_space m ++ x) o k -> o <> OC -> m <= k.
Proof.
  induction m as [|m IH]; intros x o k R NC; [lia|].
  assert (SU : sane b_unit) by (cbn; tauto).
  assert (D : forall o' k', run b_unit (repeat ch_space (S m) ++ x) o' k' -> o' = OM (repeat ch_space m ++ x) \/ o' = OC).
  { intros o' k' R'. eapply ran; [exact R'|exact SU|apply unit_space]. }
  inversion R; subst; clear R; try congruence.
  - match goal with H : costs _ b_unit _ (OM _) _ |- _ => pose proof (D _ _ H) as [E|E]; [injection E as ->|discriminate E]; rename H into RR end.
    match goal with H : costs_rep _ _ _ _ _ _ _ |- _ => apply IH in H; [|exact NC] end.
    apply i_or in RR. destruct RR as [[E _]|(k1 & -> & _)]; [discriminate E|lia].
  - match goal with H : costs _ b_unit _ OF _ |- _ => destruct (D _ _ H); discriminate end.
  - match goal with H : costs _ b_unit _ OF _ |- _ => destruct (D _ _ H); discriminate end.
  - match goal with H : costs _ b_unit _ _ _, K : halts _ |- _ => destruct (D _ _ H); destruct K; congruence end.
Qed.

Lemma blank_low : forall m x o k, run x_blank (repeat ch_space m ++ x) o k -> o <> OC -> m <= k.
Proof.
  intros m x o k R NC. eapply i_rule in R; [|exact g_blank]. destruct R as [[-> _]|(k1 & -> & R)]; [congruence|].
  cbn in R. apply i_rep in R. destruct R as [[-> _]|(k2 & -> & R)]; [congruence|]. apply spaces_cost in R; [lia|exact NC].
Qed.

Lemma one_space : forall x, exists t, peg PG x_one (ch_space :: x) (PMatch t x).
Proof. intro x. eexists. eapply mk_rule; [exact g_one|]. cbn. apply mk_or1. apply mk_lit. reflexivity. Qed.

(** Looking for one more element after the last one. *)
Lemma more_low : forall m o k, run more (trail m) o k -> o <> OC -> m <= k.
Proof.
  intros [|m] o k R NC; [lia|]. unfold more in R. apply i_and in R. destruct R as [[-> _]|(k1 & -> & R)]; [congruence|].
  apply i_and_cons in R. destruct (one_space (trail m)) as [t P].
  destruct R as [(s1 & j1 & j2 & R1 & R & ->)|[[-> R]|[K R]]].
  - destruct (ran _ _ _ _ _ _ R1 I P) as [E|E]; [injection E as ->|discriminate E].
    apply i_and_cons in R. destruct R as [(s2 & j3 & j4 & R2 & R & ->)|[[-> R]|[K R]]].
    + apply blank_low in R2; [lia|discriminate].
    + destruct (blank_never_fails _ _ R).
    + apply blank_low in R; [lia|exact NC].
  - destruct (ran _ _ _ _ _ _ R I P) as [E|E]; discriminate E.
  - destruct (ran _ _ _ _ _ _ R I P) as [->| ->]; [destruct K; discriminate|congruence].
Qed.

Definition a_text (n m : nat) : str := 97%N :: elems n ++ trail m.

Lemma a_rest : forall n m, item_follow (elems n ++ trail m).
Proof. intros [|n] m; [apply trail_stop|]. exists 32%N, (s_ "a" ++ elems n ++ trail m). split; [reflexivity|]. unfold stop_head; auto. Qed.

Lemma a_rep : forall n m, exists t, peg PG x_rep (a_text n m) (PMatch t (elems n ++ trail m)).
Proof. intros n m. destruct (proj1 (proj2 expr_build) _ _ a_item (elems n ++ trail m) (a_rest n m)) as (x & M & _). exists [x]. exact M. Qed.
Lemma a_and : forall n m, exists t, peg PG x_and (a_text n m) (PMatch t (trail m)).
Proof.
  intros n m. destruct (proj1 (proj2 (proj2 expr_build)) _ _ (elems_seq n) (trail m) (trail_follow true m)) as (x & M & _). exists [x].
  rewrite <- app_assoc in M. exact M.
Qed.
Lemma a_expr : forall n m, exists t, peg PG x_expr (a_text n m) (PMatch t (trail m)).
Proof.
  intros n m. destruct (proj2 (proj2 (proj2 (proj2 expr_build))) _ _ (elems_expr n) (trail m) (trail_follow false m)) as (x & M & _). exists [x].
  rewrite <- app_assoc in M. exact M.
Qed.
Lemma a_error : forall n m, peg PG x_err (a_text n m) PFail.
Proof. intros n m. apply (looks_fail PG 20 _ (Some 97%N)); [reflexivity|vm_compute; reflexivity]. Qed.
Lemma a_blank : forall n m, exists t, peg PG x_blank (a_text n m) (PMatch t (a_text n m)).
Proof. intros n m. destruct (blank_bwd [] (a_text n m)) as [k P]; [constructor|apply sym_head_clean; left; unfold sym_start, between; right; left; split; discriminate|]. eexists. exact P. Qed.

Lemma and_low : forall n m r k, run x_and (a_text n m) (OM r) k -> n * m <= k.
Proof.
  induction n as [|n IH]; intros m r k R; [lia|].
  destruct (a_and (S n) m) as [t P]. destruct (ran _ _ _ _ _ _ R I P) as [E|E]; [injection E as ->|discriminate E].
  eapply i_rule in R; [|exact g_and]. destruct R as [[E _]|(k1 & -> & R)]; [discriminate E|]. cbn in R. apply i_or in R.
  destruct R as [[E _]|(k2 & -> & R)]; [discriminate E|]. apply i_or_cons in R.
  destruct R as [(s1 & E & R)|[[K _]|(j1 & j2 & R1 & R & ->)]].
  - apply run_says in R; [|exact I]. destruct R as [t' R]. discriminate (peg_det _ _ _ _ R _ (a_error (S n) m)).
  - destruct K; discriminate.
  - apply i_or_cons in R. destruct R as [(s1 & E & R)|[[K _]|(j3 & j4 & R2 & R & ->)]].
    2: destruct K; discriminate.
    2: { apply i_or_nil in R. destruct R as [[E|E] _]; discriminate E. }
    injection E as <-. apply i_and in R. destruct R as [[E _]|(j3 & -> & R)]; [discriminate E|].
    apply i_and_cons in R. destruct R as [(s2 & i1 & i2 & R2 & R & ->)|[[E _]|[K _]]]; [|discriminate E|destruct K; discriminate].
    destruct (a_rep (S n) m) as [t2 P2]. destruct (ran _ _ _ _ _ _ R2 I P2) as [E|E]; [injection E as ->|discriminate E].
    apply i_and_cons in R. destruct R as [(s3 & i3 & i4 & R3 & R & ->)|[[E _]|[K _]]]; [|discriminate E|destruct K; discriminate].
    apply i_and_nil in R. destruct R as [E ->]. injection E as <-.
    apply i_rep in R3. destruct R3 as [[E _]|(i5 & -> & R3)]; [discriminate E|].
    change (costs_rep PG more 0 None (32%N :: a_text n m) (OM (trail m)) i5) in R3.
    enough (S n * m <= i5) by lia.
    assert (LT : length (trail m) < length (a_text n m)) by (unfold a_text; cbn [length]; rewrite app_length; lia).
    assert (SM : sane more) by (cbn; tauto).
    inversion R3; subst; clear R3.
    + match goal with H : costs _ more _ _ k |- _ => rename H into R4 end.
      match goal with H : costs_rep _ _ _ _ _ _ _ |- _ => cbn in H; rename H into R5 end.
      unfold more in R4. apply i_and in R4. destruct R4 as [[E _]|(l1 & -> & R4)]; [discriminate E|].
      apply i_and_cons in R4. destruct R4 as [(s4 & l2 & l3 & R6 & R4 & ->)|[[E _]|[K _]]]; [|discriminate E|destruct K; discriminate].
      destruct (one_space (a_text n m)) as [t3 P3]. destruct (ran _ _ _ _ _ _ R6 I P3) as [E|E]; [injection E as ->|discriminate E].
      apply i_and_cons in R4. destruct R4 as [(s5 & l4 & l5 & R7 & R4 & ->)|[[E _]|[K _]]]; [|discriminate E|destruct K; discriminate].
      destruct (a_blank n m) as [t4 P4]. destruct (ran _ _ _ _ _ _ R7 I P4) as [E|E]; [injection E as ->|discriminate E].
      apply i_and_cons in R4. destruct R4 as [(s6 & l6 & l7 & R8 & R4 & ->)|[[E _]|[K _]]]; [|discriminate E|destruct K; discriminate].
      assert (E6 : s6 = a_text n m).
      { unfold look_next in R8. apply i_not in R8. destruct R8 as [[E _]|(? & ? & _ & _ & [E|[E|[E _]]])]; try discriminate E. injection E as ->. reflexivity. }
      subst s6. apply i_and_cons in R4. destruct R4 as [(s7 & l8 & l9 & R9 & R4 & ->)|[[E _]|[K _]]]; [|discriminate E|destruct K; discriminate].
      apply i_and_nil in R4. destruct R4 as [E ->]. injection E as <-.
      pose proof (IH _ _ _ R9) as K1. destruct (a_and n m) as [t5 P5]. destruct (ran _ _ _ _ _ _ R9 I P5) as [E|E]; [injection E as ->|discriminate E].
      enough (m <= k') by lia. inversion R5; subst; clear R5.
      * exfalso. match goal with H : costs _ more (trail m) (OM ?x) _ |- _ => rename x into y; rename H into R10 end.
        match goal with H : costs_rep _ _ _ _ _ _ _ |- _ => rename H into R11 end.
        apply run_says in R10; [|exact SM]. destruct R10 as [t6 R10].
        pose proof (peg_det _ _ _ _ R10 _ (cont_fails true (trail m) (trail_follow true m))) as X. discriminate X.
      * eapply more_low; [eassumption|discriminate].
      * match goal with K : halts _ |- _ => destruct K; discriminate end.
    + match goal with H : _ :: _ = trail m |- _ => apply (f_equal (@length _)) in H; cbn [length] in H; lia end.
    + match goal with K : halts _ |- _ => destruct K; discriminate end.
Qed.

Lemma expr_low : forall n m r k, run x_expr (a_text n m) (OM r) k -> n * m <= k.
Proof.
  intros n m r k R. eapply i_rule in R; [|exact g_expr]. destruct R as [[E _]|(k1 & -> & R)]; [discriminate E|]. cbn in R.
  eapply i_rule in R; [|exact g_or]. destruct R as [[E _]|(k2 & -> & R)]; [discriminate E|]. cbn in R.
  apply i_and in R. destruct R as [[E _]|(j3 & -> & R)]; [discriminate E|].
  apply i_and_cons in R. destruct R as [(s2 & i1 & i2 & R2 & R & ->)|[[E _]|[K _]]]; [|discriminate E|destruct K; discriminate].
  apply and_low in R2. lia.
Qed.

Lemma wide_name : forall n, exists t, peg PG x_name (wide_text n) (PMatch t (61%N :: a_text n n)).
Proof.
  intro n. destruct (name_bwd (s_ "m") (61%N :: a_text n n)) as (x & P & _); [left; apply dt_one; exact m_symbol| |exists [x]; exact P].
  apply (proj1 (stop_name 61%N (a_text n n) ltac:(tauto))).
Qed.
Lemma blank_here : forall c x, clean (c :: x) -> exists t, peg PG x_blank (c :: x) (PMatch t (c :: x)).
Proof. intros c x C. destruct (blank_bwd [] (c :: x)) as [k P]; [constructor|exact C|]. eexists. exact P. Qed.

(** The step over one element of a sequence whose ending is known. *)
Ltac step R P := let R1 := fresh "R" in let k1 := fresh "k" in let s1 := fresh "s" in let K := fresh "K" in let E := fresh "E" in
  apply i_and_cons in R; destruct R as [(s1 & k1 & ? & R1 & R & ->)|[[E R1]|[K R1]]];
  [destruct (ran _ _ _ _ _ _ R1 I P) as [E|E]; [injection E as ->|discriminate E]
  |destruct (ran _ _ _ _ _ _ R1 I P); congruence
  |destruct (ran _ _ _ _ _ _ R1 I P); destruct K; congruence].

Lemma rule_low : forall n o k, run x_rule (wide_text n) o k -> o = OF \/ (exists r, o = OM r) -> n * n <= k.
Proof.
  intros n o k R O. assert (NC : o <> OC) by (destruct O as [->|[r ->]]; discriminate).
  assert (NA : ~ halts o) by (destruct O as [->|[r ->]]; intros [X|X]; discriminate X).
  destruct (blank_here 109%N (61%N :: a_text n n)) as [t1 P1]; [apply sym_head_clean; left; unfold sym_start, between; right; left; split; discriminate|].
  destruct (wide_name n) as [t2 P2]. destruct (blank_here 61%N (a_text n n)) as [t3 P3]; [apply clean_char; discriminate|].
  assert (P4 : peg PG (Simple (Literal (s_ "="))) (61%N :: a_text n n) (PMatch [Val (s_ "=")] (a_text n n))) by (apply mk_lit; reflexivity).
  destruct (a_blank n n) as [t5 P5]. destruct (a_expr n n) as [t6 P6].
  eapply i_rule in R; [|exact g_rule]. destruct R as [[E _]|(k1 & -> & R)]; [congruence|]. cbn in R.
  apply i_and in R. destruct R as [[E _]|(j3 & -> & R)]; [congruence|]. change (109%N :: 61%N :: a_text n n) with (wide_text n) in *.
  step R P1. step R P2. step R P3. step R P4. step R P5. step R P6.
  match goal with H : run x_expr _ _ _ |- _ => apply expr_low in H end || match goal with H : run (RuleName (s_ "expr")) _ _ _ |- _ => apply expr_low in H end.
  lia.
Qed.

Lemma main_low : forall n r k, run (RuleName (s_ "main")) (wide_text n) (OM r) k -> n * n + 3 <= k.
Proof.
  intros n r k R. eapply i_rule in R; [|exact g_main]. destruct R as [[E _]|(k1 & -> & R)]; [discriminate E|]. cbn in R.
  eapply i_rule in R; [|exact g_grammar]. destruct R as [[E _]|(k2 & -> & R)]; [discriminate E|]. cbn in R.
  apply i_rep in R. destruct R as [[E _]|(k3 & -> & R)]; [discriminate E|].
  inversion R; subst; clear R; [|match goal with K : halts _ |- _ => destruct K; discriminate end].
  match goal with H : costs _ _ _ (OM _) _ |- _ => rename H into R1 end. apply i_or in R1. destruct R1 as [[E _]|(k4 & -> & R1)]; [discriminate E|].
  apply i_or_cons in R1. destruct R1 as [(s4 & E & R1)|[[K _]|(j1 & j2 & R1 & _ & ->)]].
  - apply rule_low in R1; [lia|right; eauto].
  - destruct K; discriminate.
  - apply rule_low in R1; [lia|left; reflexivity].
Qed.

(** The texts are read, and reading them takes at least quadratically many calls. *)
Lemma wide_calls : forall n fuel d ast, parse_with_debug fuel (wide_text n) parse_peg d = Ok ast -> n * n < parse_calls fuel (wide_text n) parse_peg d.
Proof.
  intros n fuel d ast H.
  pose proof (expr_counts parse_peg parse_peg_sane (S fuel) (status_init_debug (wide_text n) d) (RuleName main) I (inv_init (wide_text n) d)) as R.
  rewrite expression_parse_expr in R. rewrite parse_unfold in H.
  destruct (expression_parse parse_peg fuel (status_init_debug (wide_text n) d)) as [[st nd]| | |]; try discriminate H.
  cbn [bind ends] in R. change (it_parsing (status_init_debug (wide_text n) d)) with (wide_text n) in R.
  change (tally Nat.add parse_peg (S fuel) (status_init_debug (wide_text n) d) (RuleName main)) with (S (parse_calls fuel (wide_text n) parse_peg d)) in R.
  apply main_low in R. lia.
Qed.
