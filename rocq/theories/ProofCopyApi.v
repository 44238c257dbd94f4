(** What a whole parse copies: bounds, and texts that reach them. *)
From Verif Require Import Base ModelAst ModelParser ModelCost ModelCopy SpecPeg SpecPos SpecApi SpecWf SpecBnf SpecCopy.
From Verif Require Import ProofParser ProofEngine ProofApi ProofWf WfCheck ProofBnf ProofLinear ProofTill ProofCopy.

Definition rules_chars (rs : rules) : nat := fold_right (fun p n => expr_chars (snd p) + n) 0 rs.

Lemma rules_chars_get : forall rs n e, rules_get rs n = Some e -> expr_chars e <= rules_chars rs.
Proof.
  intros rs n e. induction rs as [|[k x] rs IH]; intro E; cbn [rules_get] in E; [discriminate|]. cbn [rules_chars fold_right snd].
  fold (rules_chars rs). destruct (str_eqb k n); [injection E as ->; lia|]. apply IH in E. lia.
Qed.

Lemma copied_bound : forall rs, exists c, forall fuel s l, ascii s -> lines_within l s ->
  parse_copied fuel s rs false <= c * (l + 1) * (parse_calls fuel s rs false + 1).
Proof.
  intro rs. set (d := base_chars + 4 + rules_chars rs). exists (5 * d). intros fuel s l As LW. unfold parse_copied, parse_calls, parse_tally.
  set (st := status_init_debug s false).
  assert (I : inv st). { split; [exists []; split; reflexivity|]. cbn. discriminate. }
  assert (Q : quiet d s st). { repeat split; discriminate. }
  assert (FR : forall n e, rules_get rs n = Some e -> fits d e).
  { intros n e E. unfold fits, d. pose proof (rules_chars_get rs n e E). lia. }
  assert (FM : base_chars + length (s_ "main") <= d) by (change (length (s_ "main")) with 4; unfold d; lia).
  pose proof (name_bounded rs d l s As LW FR fuel st (s_ "main") (expr_bounded rs d l s As LW FR fuel) I Q FM) as H.
  assert (M : match expression_parse rs fuel st with
    | Ok (st', _) => opt_err_chars (potential_error st') +
      match pn (st_pos st') =? byte_len s, potential_error st' with
      | false, None => made (err_normal (A := unit) st' (s_ "not consumed full input")) | _, _ => 0 end
    | _ => 0 end <= 2 * (l + d)).
  { unfold expression_parse, parse_rule_name. cbn [trace_rules st status_init_debug].
    destruct (rules_get rs (s_ "main")) as [e|] eqn:E; [|destruct (err_status _ _ _) as [[? ?]| | |] eqn:X; try lia;
      unfold err_status in X; destruct (from_status _ _ _) in X; discriminate].
    change (Status s s pos_init None false []) with st.
    pose proof (expr_ok rs d l s FR fuel e (FR _ e E) st I Q) as S. destruct (parse_expr rs fuel st e) as [[s1 v]|er| |]; cbn [bind]; try lia.
    cbn in S. destruct S as [I1 Q1]. pose proof Q1 as (_ & _ & _ & P).
    assert (L0 : opt_err_chars (potential_error s1) <= l + d).
    { destruct (potential_error s1) as [er|] eqn:PE; cbn [opt_err_chars]; [|lia].
      exact (small_chars d l s As LW er (P er eq_refl)). }
    assert (LN : length (s_ "not consumed full input") <= d).
    { change (length (s_ "not consumed full input")) with 23. assert (30 <= base_chars) by (vm_compute; lia). unfold d. lia. }
    pose proof (made_small d l s As LW unit s1 _ Normal I1 Q1 LN) as MS. unfold err_normal.
    destruct (_ =? _); [lia|]. destruct (potential_error s1); lia. }
  set (k := tally_rule_name _ _ _ _) in *. set (x := copied_rule_name _ _ _ _ _) in *.
  assert (D : 1 <= d) by (unfold d; lia). nia.
Qed.

Lemma copied_linear : forall rs, sane_rules rs -> well_formed (grammar_of rs) -> predictive_grammar (grammar_of rs) -> productive (grammar_of rs) ->
  exists c, forall fuel s l, ascii s -> lines_within l s -> parse_copied fuel s rs false <= c * (l + 1) * (length s + 1).
Proof.
  intros rs SR WF PG PR. destruct (predictive_linear rs SR WF PG PR) as [k K]. destruct (copied_bound rs) as [c C].
  exists (c * (k + 1)). intros fuel s l As LW. eapply Nat.le_trans; [apply (C fuel s l As LW)|].
  pose proof (K fuel s false) as X.
  assert (Y : parse_calls fuel s rs false + 1 <= (k + 1) * (length s + 1)) by nia.
  replace (c * (k + 1) * (l + 1) * (length s + 1)) with (c * (l + 1) * ((k + 1) * (length s + 1))) by lia.
  apply Nat.mul_le_mono_l. exact Y.
Qed.

Lemma lines_within_length : forall s, lines_within (length s) s.
Proof. intros s u v x E _. rewrite E, !app_length. lia. Qed.

(* ------------------------------------------------------------------------------------------- *)
(** * One long line *)

Lemma repeat_split : forall A (a : A) n u v, repeat a n = u ++ v -> u = repeat a (length u) /\ v = repeat a (length v).
Proof.
  intros A a n u v. revert n. induction u as [|x u IH]; intros n E; cbn in E.
  - split; [reflexivity|]. rewrite <- E, repeat_length. reflexivity.
  - destruct n as [|n]; [discriminate|]. cbn in E. injection E as -> E. destruct (IH n E) as [H1 H2]. cbn. split; congruence.
Qed.

Lemma up_to_all : forall f s, Forall (fun c => f c = false) s -> up_to f s = s.
Proof. intros f s H. induction H as [|c s E _ IH]; cbn; [reflexivity|]. rewrite E, IH. reflexivity. Qed.

Lemma forall_repeat : forall A (P : A -> Prop) a n, P a -> Forall P (repeat a n).
Proof. intros A P a n H. induction n; constructor; assumption. Qed.

Lemma err_a : forall n lo er, err_ok (one_line_text n) lo er -> n <= err_chars er.
Proof.
  intros n lo er (pre & post & T & _ & _ & LA & LB). unfold one_line_text in *.
  assert (As : ascii (repeat 97%N n)) by (apply forall_repeat; reflexivity). specialize (LB As).
  destruct (repeat_split _ _ _ _ _ T) as [H1 H2].
  assert (E1 : tail_after is_nl pre = pre).
  { unfold tail_after. rewrite up_to_all; [apply rev_involutive|]. rewrite H1. apply Forall_rev. apply forall_repeat. reflexivity. }
  assert (E2 : until_eol post = post) by (apply up_to_all; rewrite H2; apply forall_repeat; reflexivity).
  unfold err_chars. rewrite LA, LB, E1, E2. apply (f_equal (@length _)) in T. rewrite repeat_length, app_length in T. lia.
Qed.

Definition ba : expr := Or [lit (s_ "b"); lit (s_ "a")].

Lemma ba_step : forall f n m st, inv st -> text2parse st = one_line_text n -> it_parsing st = repeat 97%N (S m) ->
  exists st', get_char st = inl (st', 97%N) /\
    parse_expr one_line_rules (S (S f)) st ba = Ok (st', [Val (s_ "a")]) /\ n <= copied one_line_rules (S (S f)) st ba.
Proof.
  intros f n m st I T E. pose proof (get_char_spec st I) as G. unfold get_char in G |- *. rewrite E in *. cbn [repeat] in *.
  destruct G as (I1 & A1 & _). eexists. split; [reflexivity|]. change (N.eqb 97 ch_nl) with false in *. change (N.eqb 97 ch_cr) with false in *.
  cbv iota in *. set (s1 := Status _ _ _ _ _ _) in *.
  destruct (from_status s1 (s_ "expected literal: <" ++ s_ "b" ++ s_ ">") Normal) as [er|] eqn:F.
  2:{ exfalso. eapply (from_status_ascii s1); [exact I1| |exact F]. destruct A1 as (A1 & _). rewrite A1, T.
      apply forall_repeat. reflexivity. }
  destruct (from_status_ok _ _ _ _ I1 F) as (EO & PR & _). destruct A1 as (A1 & _). rewrite A1, T in EO. apply err_a in EO.
  assert (GC : get_char st = inl (s1, 97%N)) by (unfold get_char; rewrite E; reflexivity).
  assert (PB : parse_atom st (Literal (s_ "b")) = Err er).
  { change (s_ "b") with [98%N] in *. cbn [parse_atom]. unfold parse_literal. cbn [parse_literal_loop]. unfold parse_char. rewrite GC.
    change (N.eqb 98 97) with false. cbv iota. unfold err_normal, err_status. rewrite F. reflexivity. }
  assert (PA : parse_atom st (Literal (s_ "a")) = Ok (s1, Val (s_ "a"))).
  { change (s_ "a") with [97%N] in *. cbn [parse_atom]. unfold parse_literal. cbn [parse_literal_loop]. unfold parse_char. rewrite GC. reflexivity. }
  unfold ba, lit. cbn [parse_expr parse_or copied copied_or]. unfold copied_atom. rewrite PB, PA. cbn [bind made]. rewrite PR. cbn [is_critical].
  split; [reflexivity|]. lia.
Qed.

Lemma ba_repeat : forall f n g m st counter acc, inv st -> text2parse st = one_line_text n -> it_parsing st = repeat 97%N m ->
  parse_repeat g (parse_expr one_line_rules f) st ba 0 None counter acc <> Fuel ->
  m * n <= copied_repeat g (parse_expr one_line_rules f) (copied one_line_rules f) st ba None counter.
Proof.
  intros f n g. induction g as [|g IH]; intros m st counter acc I T E NF; [destruct (NF eq_refl)|].
  destruct m as [|m]; [lia|]. destruct f as [|[|f]]; [exfalso; apply NF; reflexivity|exfalso; apply NF; reflexivity|].
  destruct (ba_step f n m st I T E) as (s1 & GC & PE & CP). cbn [parse_repeat copied_repeat] in NF |- *. rewrite PE in NF |- *. cbn [touch_max_bound] in *.
  pose proof (get_char_spec st I) as G. rewrite GC in G. destruct G as (I1 & (T1 & _) & E1 & _).
  assert (X : m * n <= copied_repeat g (parse_expr one_line_rules (S (S f))) (copied one_line_rules (S (S f))) s1 ba None (counter + 1)).
  { apply (IH m s1 (counter + 1) (acc ++ [Val (s_ "a")])); [exact I1|congruence| |exact NF]. rewrite E in E1. cbn in E1. congruence. }
  lia.
Qed.

Lemma one_line_rules_is : one_line_rules = [(main, rep0 ba 0)].
Proof. reflexivity. Qed.

Lemma inv_init : forall s debug, inv (status_init_debug s debug).
Proof. intros s debug. split; [exists []; split; reflexivity|]. cbn. discriminate. Qed.

Lemma init_debug : forall rs fuel s debug, parse_with_debug fuel s rs debug <> Fuel -> expression_parse rs fuel (status_init_debug s debug) <> Fuel.
Proof.
  intros rs fuel s debug NF X. apply NF. unfold parse_with_debug.
  destruct debug; [rewrite X; reflexivity|]. change (status_init s) with (status_init_debug s false). rewrite X. reflexivity.
Qed.

Lemma one_line_copied : forall n fuel, parse fuel (one_line_text n) one_line_rules <> Fuel ->
  n * n <= parse_copied fuel (one_line_text n) one_line_rules false.
Proof.
  intros n fuel NF. apply (init_debug _ _ _ false) in NF. unfold parse_copied. set (st := status_init_debug _ false) in *.
  assert (X : n * n <= copied one_line_rules fuel st (rep0 ba 0)).
  { unfold expression_parse, parse_rule_name in NF. cbn [trace_rules st status_init_debug] in NF.
    change (rules_get one_line_rules (s_ "main")) with (Some (rep0 ba 0)) in NF. cbv iota in NF.
    destruct fuel as [|g]; [exfalso; apply NF; reflexivity|]. unfold rep0 in *. cbn [copied]. apply (ba_repeat g n g n st 0 []).
    - apply inv_init.
    - reflexivity.
    - reflexivity.
    - intro Y. apply NF. cbn [parse_expr]. fold st. rewrite Y. reflexivity. }
  unfold copied_rule_name. cbn [trace_rules st status_init_debug]. change (rules_get one_line_rules (s_ "main")) with (Some (rep0 ba 0)). cbv iota. fold st. lia.
Qed.

(* ------------------------------------------------------------------------------------------- *)
(** * Tracing *)

Definition nlx : expr := RuleName (s_ "x").

Lemma strs_app : forall a b, strs_chars (a ++ b) = strs_chars a + strs_chars b.
Proof. intros a b. induction a as [|x a IH]; cbn; [reflexivity|]. unfold strs_chars in *. rewrite IH. lia. Qed.

Lemma nlx_step : forall f m st, trace_rules st = true -> it_parsing st = repeat ch_nl (S m) ->
  exists st', parse_expr breaks_rules (S (S f)) st nlx = Ok (st', [Rule (s_ "x") [Val [ch_nl]]]) /\ trace_rules st' = true /\
    it_parsing st' = repeat ch_nl m /\ strs_chars (walking_rules st') = strs_chars (walking_rules st) + 3 /\ 3 <= copied breaks_rules (S (S f)) st nlx.
Proof.
  intros f m st T E. unfold nlx. cbn [parse_expr copied]. unfold parse_rule_name, copied_rule_name. rewrite T.
  change (rules_get breaks_rules (s_ "x")) with (Some (lit [ch_nl])). cbv iota.
  set (s1 := push_rule st (s_ "r:" ++ s_ "x")). unfold lit. cbn [parse_expr parse_atom]. unfold parse_literal. cbn [parse_literal_loop]. unfold parse_char, get_char.
  change (it_parsing s1) with (it_parsing st). rewrite E. cbn [repeat]. change (N.eqb ch_nl ch_nl) with true. cbv iota. cbn [bind].
  eexists. split; [reflexivity|]. split; [exact T|]. split; [reflexivity|]. split; [cbn [walking_rules s1 push_rule]; rewrite strs_app; reflexivity|].
  change (length (s_ "r:" ++ s_ "x")) with 3. lia.
Qed.

Lemma nlx_repeat : forall f g m st counter acc, trace_rules st = true -> it_parsing st = repeat ch_nl m ->
  parse_repeat g (parse_expr breaks_rules f) st nlx 0 None counter acc <> Fuel ->
  m * m + m * strs_chars (walking_rules st) <= copied_repeat g (parse_expr breaks_rules f) (copied breaks_rules f) st nlx None counter.
Proof.
  intros f g. induction g as [|g IH]; intros m st counter acc T E NF; [destruct (NF eq_refl)|].
  destruct m as [|m]; [lia|]. destruct f as [|[|f]]; [exfalso; apply NF; reflexivity| |].
  - exfalso. apply NF. cbn [parse_repeat]. unfold nlx. cbn [parse_expr]. unfold parse_rule_name.
    change (rules_get breaks_rules (s_ "x")) with (Some (lit [ch_nl])). reflexivity.
  - destruct (nlx_step f m st T E) as (s1 & PE & T1 & E1 & W1 & CP). cbn [parse_repeat copied_repeat] in NF |- *. rewrite PE in NF |- *. cbn [touch_max_bound] in *.
    pose proof (IH m s1 (counter + 1) (acc ++ [Rule (s_ "x") [Val [ch_nl]]]) T1 E1 NF) as X. rewrite W1 in X.
    assert (SC : strs_chars (walking_rules st) <= status_chars st) by (unfold status_chars; lia).
    nia.
Qed.

Lemma breaks_copied : forall n fuel, parse_debug fuel (breaks_text n) breaks_rules <> Fuel ->
  n * n <= parse_copied fuel (breaks_text n) breaks_rules true.
Proof.
  intros n fuel NF. apply (init_debug _ _ _ true) in NF. unfold parse_copied. set (st := status_init_debug _ true) in *.
  set (s1 := push_rule st (s_ "r:" ++ s_ "main")).
  assert (X : n * n <= copied breaks_rules fuel s1 (rep0 nlx 0)).
  { unfold expression_parse, parse_rule_name in NF. cbn [trace_rules st status_init_debug] in NF.
    change (rules_get breaks_rules (s_ "main")) with (Some (rep0 nlx 0)) in NF. cbv iota in NF.
    destruct fuel as [|g]; [exfalso; apply NF; reflexivity|]. unfold rep0 in *. cbn [copied].
    pose proof (nlx_repeat g g n s1 0 [] eq_refl eq_refl) as H.
    assert (Y : parse_repeat g (parse_expr breaks_rules g) s1 nlx 0 None 0 [] <> Fuel).
    { intro Y. apply NF. cbn [parse_expr]. fold st s1. rewrite Y. reflexivity. }
    specialize (H Y). lia. }
  unfold copied_rule_name. cbn [trace_rules st status_init_debug]. change (rules_get breaks_rules (s_ "main")) with (Some (rep0 nlx 0)). cbv iota. fold st s1. lia.
Qed.

Lemma breaks_lines : forall n, lines_within 0 (breaks_text n).
Proof.
  intros n u v x E NI. destruct v as [|c v]; [cbn; lia|]. exfalso. apply NI. left.
  assert (IN : In c (breaks_text n)) by (rewrite E; apply in_or_app; right; left; reflexivity). exact (repeat_spec _ _ _ IN).
Qed.

(* ------------------------------------------------------------------------------------------- *)
(** * What is returned was copied *)

Definition texts_list (ns : list node) : nat := fold_right (fun x k => texts x + k) 0 ns.

Lemma texts_app : forall a b, texts_list (a ++ b) = texts_list a + texts_list b.
Proof. intros a b. induction a as [|x a IH]; cbn; [reflexivity|]. unfold texts_list in *. rewrite IH. lia. Qed.

Lemma error_texts_is : forall er, error_texts er = err_chars er.
Proof.
  intro er. unfold error_texts, err_chars. f_equal. induction (e_parsing_rules er) as [|x r IH]; cbn; [reflexivity|].
  rewrite app_length, IH. reflexivity.
Qed.

(** Nodes and errors of a step were copied by it; the pending error, too, or it was there before. *)
Definition paid {A} (tx : A -> nat) (st : status) (r : outcome perror (status * A)) (c : nat) : Prop :=
  match r with
  | Ok (st', a) => tx a <= c /\ opt_err_chars (potential_error st') <= Nat.max c (opt_err_chars (potential_error st))
  | Err er => err_chars er <= c
  | _ => True
  end.

Lemma made_err : forall A st x p, match @err_status A st x p with Err er => err_chars er = made (@err_status A st x p) | Ok _ => False | _ => True end.
Proof. intros A st x p. unfold err_status. destruct (from_status st x p); exact I || reflexivity. Qed.

Lemma made_same : forall A B st x p, made (@err_status A st x p) = made (@err_status B st x p).
Proof. intros A B st x p. unfold err_status. destruct (from_status st x p); reflexivity. Qed.

Lemma literal_pot : forall x chs st st', parse_literal_loop x st chs = Ok st' -> potential_error st' = potential_error st.
Proof.
  intros x chs. induction chs as [|c chs IH]; intros st st' E; cbn [parse_literal_loop] in E; [congruence|].
  unfold parse_char, get_char in E. destruct (it_parsing st) as [|c1 r].
  - unfold err_normal, err_status in E. destruct (from_status _ _ _) in E; discriminate.
  - destruct (N.eqb c c1); [apply IH in E; exact E|]. unfold err_normal, err_status in E. destruct (from_status _ _ _) in E; discriminate.
Qed.

Lemma atom_pot : forall st a st' nd, parse_atom st a = Ok (st', nd) -> potential_error st' = potential_error st /\ exists v, nd = Val v.
Proof.
  intros st a st' nd E.
  assert (NOK : forall A s x p a0, @err_status A s x p = Ok a0 -> False).
  { intros A s x p a0 X. unfold err_status in X. destruct (from_status _ _ _) in X; discriminate. }
  destruct a as [x|cs rg|m| |]; cbn [parse_atom] in E.
  - unfold parse_literal in E. destruct (parse_literal_loop x st x) as [s1|er| |] eqn:L; cbn [bind] in E; try discriminate.
    apply literal_pot in L. injection E as <- <-. eauto.
  - unfold parse_match, get_char in E. destruct (it_parsing st) as [|c1 r]; [destruct (NOK _ _ _ _ _ E)|].
    destruct (match_char cs rg c1); [|destruct (NOK _ _ _ _ _ E)]. injection E as <- <-. split; [reflexivity|eauto].
  - destruct (NOK _ _ _ _ _ E).
  - unfold parse_dot, get_char in E. destruct (it_parsing st) as [|c1 r]; [destruct (NOK _ _ _ _ _ E)|]. injection E as <- <-. split; [reflexivity|eauto].
  - unfold parse_eof, get_char in E. destruct (it_parsing st) as [|c1 r]; [|destruct (NOK _ _ _ _ _ E)]. injection E as <- <-. split; [reflexivity|eauto].
Qed.

Section Paid.
Variable rs : rules.

Definition pays (pe : status -> expr -> result_expr) (t : status -> expr -> nat) : Prop :=
  forall st e, paid texts_list st (pe st e) (t st e).

Lemma and_paid : forall pe t, pays pe t -> forall es st acc c, texts_list acc <= c ->
  paid texts_list st (parse_and pe st es acc) (c + copied_and pe t st es).
Proof.
  intros pe t P es. induction es as [|e es IH]; intros st acc c L; cbn [parse_and copied_and]; [cbn; lia|].
  pose proof (P st e) as H. destruct (pe st e) as [[s1 v]|er| |]; cbn [paid] in *; try lia; try exact I.
  specialize (IH s1 (acc ++ v) (c + t st e)). rewrite texts_app in IH. specialize (IH ltac:(lia)).
  destruct (parse_and pe s1 es (acc ++ v)) as [[s2 v2]|er| |]; cbn [paid] in *; try lia; exact I.
Qed.

Lemma or_paid : forall pe t, pays pe t -> forall es st oe c, opt_err_chars oe <= c ->
  paid texts_list st (parse_or pe st es oe) (c + copied_or pe t st es oe).
Proof.
  intros pe t P es. induction es as [|e es IH]; intros st oe c L; cbn [parse_or copied_or].
  - destruct oe as [e1|]; [cbn in *; lia|]. pose proof (made_err (status * list node) st msg_logic_error Normal) as M. unfold err_normal.
    rewrite (made_same unit (status * list node)).
    destruct (err_status st msg_logic_error Normal) as [[? ?]|er| |]; cbn [paid] in *; try tauto. lia.
  - pose proof (P st e) as H. destruct (pe st e) as [[s1 v]|er| |]; cbn [paid] in *; try lia; try exact I.
    destruct (is_critical _); [cbn [paid]; lia|].
    specialize (IH st (deep_err oe er) (c + t st e)).
    assert (D : opt_err_chars (deep_err oe er) <= c + t st e).
    { unfold deep_err. destruct oe as [e1|]; [|cbn; lia]. cbn in L. destruct (prio_gt _ _); [|destruct (_ <? _)]; cbn; lia. }
    specialize (IH D). destruct (parse_or pe st es (deep_err oe er)) as [[s2 v2]|er2| |]; cbn [paid] in *; try lia; exact I.
Qed.

Lemma repeat_paid : forall pe t, pays pe t -> forall e mn mx f st counter acc c, texts_list acc <= c ->
  paid texts_list st (parse_repeat f pe st e mn mx counter acc) (c + copied_repeat f pe t st e mx counter).
Proof.
  intros pe t P e mn mx f. induction f as [|f IH]; intros st counter acc c L; cbn [parse_repeat copied_repeat]; [exact I|].
  pose proof (P st e) as H. destruct (pe st e) as [[s1 v]|er| |]; cbn [paid] in *; try exact I.
  - destruct (touch_max_bound mx counter); [cbn [paid]; rewrite texts_app; lia|].
    specialize (IH s1 (counter + 1) (acc ++ v) (c + t st e)). rewrite texts_app in IH. specialize (IH ltac:(lia)).
    destruct (parse_repeat f pe s1 e mn mx (counter + 1) (acc ++ v)) as [[s2 v2]|er| |]; cbn [paid] in *; try lia; exact I.
  - destruct (big_min_bound mn counter); [|cbn [paid]; lia]. destruct (is_critical _); cbn [paid set_potential_error potential_error opt_err_chars]; lia.
Qed.

Lemma name_paid : forall pe t, pays pe t -> forall st n, paid texts st (parse_rule_name pe rs st n) (copied_rule_name pe t rs st n).
Proof.
  intros pe t P st n. unfold parse_rule_name, copied_rule_name. set (st1 := if trace_rules st then _ else st).
  assert (PE : potential_error st1 = potential_error st) by (unfold st1; destruct (trace_rules st); reflexivity).
  destruct (rules_get rs n) as [e|].
  - pose proof (P st1 e) as H. destruct (pe st1 e) as [[s1 v]|er| |]; cbn [bind paid] in *; try lia; try exact I.
    rewrite PE in H. cbn [texts]. fold (texts_list v). lia.
  - pose proof (made_err (status * node) st1 (s_ "Missing rule: " ++ n) Critical) as M. rewrite (made_same unit (status * node)).
    destruct (err_status st1 _ Critical) as [[? ?]|er| |]; cbn [paid] in *; try tauto. lia.
Qed.

Lemma expr_paid : forall f, pays (parse_expr rs f) (copied rs f).
Proof.
  intro f. induction f as [|f IH]; intros st e; [exact I|]. cbn [parse_expr copied]. destruct e as [a|es|es|e1|e1 mn mx|n].
  - unfold copied_atom. pose proof (atom_pot st a) as A. destruct (parse_atom st a) as [[s1 nd]|er| |]; cbn [bind paid made]; try exact I; try lia.
    destruct (A s1 nd eq_refl) as [P [v ->]]. rewrite P. cbn. lia.
  - apply (and_paid _ _ IH es st [] 0). cbn. lia.
  - pose proof (or_paid _ _ IH es st None 0 (le_n 0)) as H. destruct (parse_or _ st es None) as [[s1 v]|er| |]; cbn [paid] in *; try lia; exact I.
  - unfold parse_not, copied_not. pose proof (made_err (status * list node) st (s_ "not") Normal) as M. unfold err_normal. rewrite (made_same unit (status * list node)).
    destruct (parse_expr rs f st e1) as [[s1 v]|er| |]; cbn [paid]; try exact I.
    + destruct (err_status st (s_ "not") Normal) as [[? ?]|er| |]; cbn [paid] in *; try tauto. lia.
    + cbn. lia.
  - apply (repeat_paid _ _ IH e1 mn mx f st 0 [] 0). cbn. lia.
  - pose proof (name_paid _ _ IH st n) as H. destruct (parse_rule_name _ rs st n) as [[s1 nd]|er| |]; cbn [bind paid] in *; try exact H.
    cbn [texts_list fold_right]. lia.
Qed.

Lemma parse_paid : forall fuel s debug,
  match parse_with_debug fuel s rs debug with
  | Ok ast => texts ast <= parse_copied fuel s rs debug
  | Err er => error_texts er <= parse_copied fuel s rs debug
  | _ => True
  end.
Proof.
  intros fuel s debug. unfold parse_with_debug, parse_copied.
  assert (X : (if debug then expression_parse rs fuel (status_init_debug s debug) else expression_parse rs fuel (status_init s))
              = expression_parse rs fuel (status_init_debug s debug)) by (destruct debug; reflexivity).
  rewrite X. pose proof (name_paid _ _ (expr_paid fuel) (status_init_debug s debug) (s_ "main")) as H.
  unfold expression_parse in *. destruct (parse_rule_name _ rs _ (s_ "main")) as [[s1 nd]|er| |]; cbn [bind paid] in *; try rewrite error_texts_is; try lia; try exact I.
  destruct (pn (st_pos s1) =? byte_len s); [lia|]. destruct (potential_error s1) as [er|]; [rewrite error_texts_is; cbn; lia|].
  pose proof (made_err node s1 (s_ "not consumed full input") Normal) as M. unfold err_normal. rewrite (made_same unit node).
  destruct (err_status s1 _ Normal) as [?|er| |]; try tauto. rewrite error_texts_is. lia.
Qed.
End Paid.

(** * Every clone is counted *)

Lemma and_same : forall pe t e st k, pe st e = Ok (st, []) -> t st e = k -> forall n,
  copied_and pe t st (repeat e n) = n * k /\ forall acc, parse_and pe st (repeat e n) acc = Ok (st, acc).
Proof.
  intros pe t e st k P T. induction n as [|n [IH1 IH2]]; [split; reflexivity|]. cbn [repeat copied_and parse_and]. rewrite P, T, IH1. split; [lia|].
  intro acc. rewrite app_nil_r. apply IH2.
Qed.

Lemma or_same : forall pe t e st k er l, pe st e = Err er -> e_priority er = Normal -> t st e = k -> forall n oe,
  exists oe', copied_or pe t st (repeat e n ++ l) oe = n * (status_chars st + k) + copied_or pe t st l oe' /\ parse_or pe st (repeat e n ++ l) oe = parse_or pe st l oe'.
Proof.
  intros pe t e st k er l P N T. induction n as [|n IH]; intro oe; [exists oe; split; reflexivity|]. cbn [repeat app copied_or parse_or]. rewrite P, T, N. cbn [is_critical].
  destruct (IH (deep_err oe er)) as (oe' & E1 & E2). exists oe'. rewrite E1, E2. split; [lia|reflexivity].
Qed.

(** The state in which the rule [main] is run on the empty text with tracing. *)
Definition st_main : status := push_rule (status_init_debug [] true) (s_ "r:main").

Lemma every_clone : forall n fuel er, 4 <= fuel -> parse_debug fuel [] [(main, lit (s_ "a"))] = Err er ->
  let t := length (s_ "r:main") in let x := error_texts er in
  parse_copied fuel [] (manys n) true = t + (t + x) + n * (t + x + x) + length main + x /\
  parse_copied fuel [] (nots n) true = t + (t + x) + n * (t + x + x) + length main + x /\
  parse_copied fuel [] (ors n) true = t + (t + x) + (t + x) + n * (t + x + x) + (t + x) + length main + x.
Proof.
  intros n fuel er L E. destruct fuel as [|[|[|[|f]]]]; try lia. clear L.
  assert (X : exists e0, Err e0 = parse_debug (S (S (S (S f)))) [] [(main, lit (s_ "a"))] /\ error_texts e0 = 27 /\ e_priority e0 = Normal /\ err_chars e0 = 27 /\
     forall rs st, st = st_main \/ st = set_potential_error st_main e0 ->
       parse_expr rs (S (S (S f))) st many = Ok (set_potential_error st_main e0, []) /\ copied rs (S (S (S f))) st many = status_chars st + 27 /\
       parse_expr rs (S (S f)) st (lit (s_ "a")) = Err e0 /\ copied rs (S (S f)) st (lit (s_ "a")) = 27).
  { eexists. split; [vm_compute; reflexivity|]. split; [vm_compute; reflexivity|]. split; [reflexivity|]. split; [vm_compute; reflexivity|]. intros rs st [-> | ->]; (split; [vm_compute; reflexivity|]; split; [vm_compute; reflexivity|]; split; vm_compute; reflexivity). }
  destruct X as (e0 & X & T & N & T' & H). rewrite E in X. injection X as X. subst er. intros t x. subst t x. rewrite T. clear E.

  set (st1 := set_potential_error st_main e0) in *.
  assert (K0 : status_chars st_main = 6) by (vm_compute; reflexivity).
  assert (K1 : status_chars st1 = 33) by (change (status_chars st1) with (err_chars e0 + 6); rewrite T'; reflexivity).
  assert (FIN : forall es k st v, let rs := [(main, And es)] in
    copied_and (parse_expr rs (S (S (S f)))) (copied rs (S (S (S f)))) st_main es = k -> parse_and (parse_expr rs (S (S (S f)))) st_main es [] = Ok (st, v) -> st = st1 ->
    parse_copied (S (S (S (S f)))) [] rs true = 6 + (k + 4) + 27).
  { intros es k st v rs K P ->. unfold parse_copied.
    assert (Q : parse_expr rs (S (S (S (S f)))) st_main (And es) = Ok (st1, v)) by (cbn [parse_expr]; exact P).
    assert (Q' : copied rs (S (S (S (S f)))) st_main (And es) = k) by (cbn [copied]; exact K).
    assert (R : expression_parse rs (S (S (S (S f)))) (status_init_debug [] true) = Ok (st1, Rule main v)).
    { unfold expression_parse, parse_rule_name. change (rules_get rs (s_ "main")) with (Some (And es)). cbv iota beta zeta. change (if trace_rules (status_init_debug [] true) then _ else _) with st_main. rewrite Q. reflexivity. }
    rewrite R. unfold copied_rule_name. change (rules_get rs (s_ "main")) with (Some (And es)). cbv iota beta zeta. change (if trace_rules (status_init_debug [] true) then push_rule _ _ else _) with st_main. rewrite Q, Q'.
    change (potential_error st1) with (Some e0). cbn [opt_err_chars]. rewrite T'. change (pn (st_pos st1) =? byte_len []) with true. cbv iota. change (length (s_ "main")) with 4.
    change (if trace_rules (status_init_debug [] true) then _ else _) with 6. lia. }
  split; [|split].
  - destruct (H (manys n) st_main (or_introl eq_refl)) as (P0 & C0 & _). destruct (H (manys n) st1 (or_intror eq_refl)) as (P1 & C1 & _).
    destruct (and_same _ _ _ _ _ P1 C1 n) as [S1 S2]. unfold manys. erewrite FIN; [| | |reflexivity].
    2: { cbn [copied_and]. fold (manys n). rewrite P0, C0, S1. reflexivity. }
    2: { cbn [parse_and]. fold (manys n). rewrite P0. apply S2. }
    rewrite K0, K1. change (length main) with 4. change (length (s_ "r:main")) with 6. lia.
  - destruct (H (nots n) st_main (or_introl eq_refl)) as (P0 & C0 & _). destruct (H (nots n) st1 (or_intror eq_refl)) as (_ & _ & P1 & C1).
    assert (P2 : parse_expr (nots n) (S (S (S f))) st1 (Not (lit (s_ "a"))) = Ok (st1, [])).
    { change (parse_not (parse_expr (nots n) (S (S f))) st1 (lit (s_ "a")) = Ok (st1, [])). unfold parse_not. rewrite P1. reflexivity. }
    assert (C2 : copied (nots n) (S (S (S f))) st1 (Not (lit (s_ "a"))) = 33 + 27).
    { change (copied_not (parse_expr (nots n) (S (S f))) (copied (nots n) (S (S f))) st1 (lit (s_ "a")) = 33 + 27). unfold copied_not. rewrite P1, C1, K1. reflexivity. }
    destruct (and_same _ _ _ _ _ P2 C2 n) as [S1 S2]. unfold nots. erewrite FIN; [| | |reflexivity].
    2: { cbn [copied_and]. fold (nots n). rewrite P0, C0, S1. reflexivity. }
    2: { cbn [parse_and]. fold (nots n). rewrite P0. apply S2. }
    rewrite K0. change (length main) with 4. change (length (s_ "r:main")) with 6. lia.
  - destruct (H (ors n) st_main (or_introl eq_refl)) as (P0 & C0 & _). destruct (H (ors n) st1 (or_intror eq_refl)) as (_ & _ & P1 & C1).
    destruct (or_same _ _ _ _ _ _ [lit []] P1 N C1 n None) as (oe & S1 & S2).
    assert (P3 : parse_expr (ors n) (S (S f)) st1 (lit []) = Ok (st1, [Val []])) by reflexivity.
    assert (C3 : copied (ors n) (S (S f)) st1 (lit []) = 0) by reflexivity.
    set (o := Or (repeat (lit (s_ "a")) n ++ [lit []])).
    assert (P2 : parse_expr (ors n) (S (S (S f))) st1 o = Ok (st1, [Val []])).
    { change (parse_or (parse_expr (ors n) (S (S f))) st1 (repeat (lit (s_ "a")) n ++ [lit []]) None = Ok (st1, [Val []])). rewrite S2. cbn [parse_or]. rewrite P3. reflexivity. }
    assert (C2 : copied (ors n) (S (S (S f))) st1 o = 33 + (n * (33 + 27) + 33)).
    { change (status_chars st1 + copied_or (parse_expr (ors n) (S (S f))) (copied (ors n) (S (S f))) st1 (repeat (lit (s_ "a")) n ++ [lit []]) None = 33 + (n * (33 + 27) + 33)).
      rewrite S1. cbn [copied_or]. rewrite P3, C3, K1. lia. }
    subst o. unfold ors. erewrite FIN; [| | |reflexivity].
    2: { cbn [copied_and]. fold (ors n). rewrite P0, C0, C2, P2. reflexivity. }
    2: { cbn [parse_and]. fold (ors n). rewrite P0. rewrite P2. reflexivity. }
    rewrite K0. change (length main) with 4. change (length (s_ "r:main")) with 6. lia.
Qed.
