(** Properties of the parser (C01-C13, C15, C17, C18, C21, C38-C40).  Statements only use the model and the
    Spec files. *)
From Verif Require Import Base ModelAst ModelParser SpecPeg SpecPos SpecApi SpecCombinators Examples
  ProofParser ProofEngine ProofSim ProofApi ProofCombinators.

(* ---- C01 --------------------------------------------------------------------------------- *)

(** parse returns Ok exactly when main matches the whole text. *)
Theorem C01_accepts_exactly_the_peg_language : forall s rs, sane_rules rs -> ascii s ->
  ((exists fuel ast, parse fuel s rs = Ok ast) <->
   (exists e trees, rules_get rs main = Some e /\ peg (grammar_of rs) e s (PMatch trees []))).
Proof. exact parse_accepts. Qed.
Print Assumptions C01_accepts_exactly_the_peg_language.

(** parse returns Err exactly when PEG evaluation ends, but not with a match of the whole text. *)
Theorem C01_rejects_exactly_the_rest : forall s rs, sane_rules rs -> ascii s ->
  ((exists fuel er, parse fuel s rs = Err er) <->
   ((exists r, peg_main rs s r) /\
    ~ exists e trees, rules_get rs main = Some e /\ peg (grammar_of rs) e s (PMatch trees []))).
Proof. exact parse_rejects. Qed.
Print Assumptions C01_rejects_exactly_the_rest.

(** parse (and parse_debug) terminate exactly when PEG evaluation does. *)
Theorem C01_terminates_exactly_when_peg_does : forall s rs debug, sane_rules rs -> ascii s ->
  ((exists fuel, parse_with_debug fuel s rs debug <> Fuel) <-> (exists r, peg_main rs s r)).
Proof. exact parse_terminates_iff. Qed.
Print Assumptions C01_terminates_exactly_when_peg_does.

(** More fuel never changes a result. *)
Theorem C01_result_independent_of_fuel : forall fuel fuel' s rs,
  fuel <= fuel' -> parse fuel s rs <> Fuel -> parse fuel' s rs = parse fuel s rs.
Proof. exact parse_mono. Qed.
Print Assumptions C01_result_independent_of_fuel.

(** The PEG semantics assigns at most one outcome. *)
Theorem C01_semantics_is_deterministic : forall G e s r1, peg G e s r1 -> forall r2, peg G e s r2 -> r1 = r2.
Proof. exact peg_det. Qed.
Print Assumptions C01_semantics_is_deterministic.

Example C01_nonvacuous :
  sane_rules ex_rules /\ ascii ex_text /\ parse 20 ex_text ex_rules = Ok ex_tree /\
  ascii ex_text_bad /\ (exists er, parse 20 ex_text_bad ex_rules = Err er).
Proof.
  split; [exact ex_rules_sane|]. split; [apply ex_text_ascii|]. split; [exact ex_parse|].
  split; [apply ex_text_ascii|]. eexists. vm_compute. reflexivity.
Qed.

(* ---- C02 --------------------------------------------------------------------------------- *)

Theorem C02_ast_is_the_unique_derivation_tree : forall fuel s rs ast, sane_rules rs -> parse fuel s rs = Ok ast ->
  exists e kids, rules_get rs main = Some e /\ ast = Rule main kids /\
    peg (grammar_of rs) e s (PMatch kids []) /\
    forall kids' rest', peg (grammar_of rs) e s (PMatch kids' rest') -> kids' = kids /\ rest' = [].
Proof. exact parse_tree. Qed.
Print Assumptions C02_ast_is_the_unique_derivation_tree.

Example C02_nonvacuous : sane_rules ex_rules /\ parse 20 ex_text ex_rules = Ok ex_tree.
Proof. split; [exact ex_rules_sane|exact ex_parse]. Qed.

(* ---- C03 --------------------------------------------------------------------------------- *)

Theorem C03_leaves_spell_the_text : forall fuel s rs ast,
  no_eof_atom rs -> parse fuel s rs = Ok ast -> leaves ast = s.
Proof. exact parse_leaves. Qed.
Print Assumptions C03_leaves_spell_the_text.

Example C03_nonvacuous : no_eof_atom ex_rules /\ parse 20 ex_text ex_rules = Ok ex_tree /\ leaves ex_tree = ex_text.
Proof. split; [exact ex_no_eof|]. split; [exact ex_parse|reflexivity]. Qed.

(** With the EOF atom the text is not spelled. *)
Theorem C03_with_eof_refuted : exists fuel s rs ast, sane_rules rs /\ parse fuel s rs = Ok ast /\ leaves ast <> s.
Proof.
  exists 5, (s_ "a"), (rules_macro [(main, And [lit (s_ "a"); Simple AEOF])]), (Rule main [Val (s_ "a"); Val (s_ "EOF")]).
  split; [apply sane_rules_all; repeat constructor|]. split; [vm_compute; reflexivity|]. vm_compute. discriminate.
Qed.
Print Assumptions C03_with_eof_refuted.

(* ---- C04 --------------------------------------------------------------------------------- *)

(** The error stands after a prefix [pre] of the text; all its coordinates are those of [pre]
    ([debug] selects parse or parse_debug). *)
Theorem C04_error_position_coherent : forall fuel s rs debug er, parse_with_debug fuel s rs debug = Err er ->
  exists pre post, s = pre ++ post /\ e_pos er = pos_of pre /\ e_line_after er = until_eol post /\
    (ascii s -> e_line_before er = tail_after is_nl pre).
Proof. exact parse_err_pos. Qed.
Print Assumptions C04_error_position_coherent.

Example C04_nonvacuous : exists er, parse 20 ex_text_bad ex_rules = Err er /\ e_pos er = Pos 2 1 0 2.
Proof. eexists. vm_compute. split; reflexivity. Qed.

(* ---- C05 --------------------------------------------------------------------------------- *)

Theorem C05_no_panic_on_ascii : forall fuel s rs debug, ascii s -> parse_with_debug fuel s rs debug <> Panic.
Proof. exact parse_no_panic. Qed.
Print Assumptions C05_no_panic_on_ascii.

Example C05_nonvacuous : ascii ex_text_bad /\ parse 20 ex_text_bad ex_rules <> Fuel.
Proof. split; [apply ex_text_ascii|vm_compute; discriminate]. Qed.

(* ---- C06 --------------------------------------------------------------------------------- *)

Theorem C06_non_ascii_never_accepted : forall fuel s rs debug ast,
  ~ ascii s -> parse_with_debug fuel s rs debug <> Ok ast.
Proof. exact parse_non_ascii. Qed.
Print Assumptions C06_non_ascii_never_accepted.

Definition ex_dot_rules : rules := rules_macro [(main, And [dot_; Repeat dot_ 0 None])].
Definition ex_lit_rules : rules := rules_macro [(main, lit [233%N])].

(** C01 does not extend to non-ASCII texts: main matches the text, but parse rejects it. *)
Theorem C06_peg_language_non_ascii_refuted : exists s rs e trees, sane_rules rs /\ rules_get rs main = Some e /\
  peg (grammar_of rs) e s (PMatch trees []) /\ forall fuel ast, parse fuel s rs <> Ok ast.
Proof.
  exists [233%N], ex_lit_rules, (lit [233%N]), [Val [233%N]].
  split; [apply sane_rules_all; repeat constructor|]. split; [reflexivity|]. split.
  - exact (peg_lit_ok (grammar_of ex_lit_rules) [233%N] []).
  - intros fuel ast. apply parse_non_ascii. intro H. inversion H as [|? ? H1]. vm_compute in H1. discriminate.
Qed.
Print Assumptions C06_peg_language_non_ascii_refuted.

(** C05 does not extend to non-ASCII texts. *)
Theorem C06_no_panic_non_ascii_refuted : exists fuel s rs, sane_rules rs /\ parse fuel s rs = Panic.
Proof.
  exists 5, [233%N], ex_lit_rules. split; [apply sane_rules_all; repeat constructor|]. vm_compute. reflexivity.
Qed.
Print Assumptions C06_no_panic_non_ascii_refuted.

Example C06_nonvacuous : ~ ascii [233%N] /\ parse 5 [233%N] ex_lit_rules <> Fuel.
Proof.
  split; [|vm_compute; discriminate]. intro H. inversion H as [|? ? H1]. vm_compute in H1. discriminate.
Qed.

(* ---- C07 --------------------------------------------------------------------------------- *)

Theorem C07_error_message_surfaces : forall s rs msg n, sane_rules rs -> ascii s ->
  ((exists fuel er, parse fuel s rs = Err er /\ e_priority er = Critical /\ e_descr er = msg /\ pn (e_pos er) = n) <->
   (exists rest, peg_main rs s (PAbort msg rest) /\ n + length rest = length s)).
Proof. exact parse_abort_iff. Qed.
Print Assumptions C07_error_message_surfaces.

Example C07_nonvacuous : exists er, parse 20 ex_text_abort ex_rules = Err er /\
  e_priority er = Critical /\ e_descr er = s_ "no tail" /\ pn (e_pos er) = 3.
Proof. eexists. vm_compute. repeat split; reflexivity. Qed.

(* ---- C08 --------------------------------------------------------------------------------- *)

Theorem C08_missing_main : forall fuel s rs, rules_get rs main = None ->
  parse fuel s rs = Err (PError pos_init (s_ "Missing rule: main") [] (until_eol s) [] Critical).
Proof. exact parse_no_main. Qed.
Print Assumptions C08_missing_main.

Theorem C08_critical_errors_have_a_cause : forall fuel s rs debug er,
  parse_with_debug fuel s rs debug = Err er -> e_priority er = Critical ->
  (exists n x, rules_get rs n = Some x /\ has_atom (AError (e_descr er)) x) \/
  (exists n, e_descr er = missing_rule_msg n /\ rules_get rs n = None /\
     (n = main \/ exists k x, rules_get rs k = Some x /\ has_ref n x)).
Proof. exact parse_critical_origin. Qed.
Print Assumptions C08_critical_errors_have_a_cause.

Example C08_nonvacuous :
  let rs := rules_macro [(main, And [lit (s_ "a"); ref_rule (s_ "nope")])] in
  rules_get rs (s_ "nope") = None /\
  exists er, parse 9 (s_ "ab") rs = Err er /\ e_priority er = Critical /\ e_descr er = s_ "Missing rule: nope".
Proof. split; [reflexivity|]. eexists. vm_compute. repeat split; reflexivity. Qed.

(* ---- C09 --------------------------------------------------------------------------------- *)

Theorem C09_not_leaves_no_trace : forall rs st e r,
  run rs st (Not e) r <->
  ((exists st' ts, run rs st e (Ok (st', ts)) /\ r = err_normal st (s_ "not")) \/
   (exists er, run rs st e (Err er) /\ r = Ok (st, [])) \/
   (run rs st e Panic /\ r = Panic)).
Proof. exact run_not. Qed.
Print Assumptions C09_not_leaves_no_trace.

(** In PEG terms: it succeeds iff [e] does not match here, even when [e] aborts. *)
Theorem C09_not_in_peg_terms : forall rs fuel st e, sane_rules rs -> sane e -> coherent_pos st -> ascii (text2parse st) ->
  match parse_expr rs fuel st (Not e) with
  | Ok (st', ts) => ts = [] /\ st' = st /\ exists r, peg (grammar_of rs) e (it_parsing st) r /\ stops r
  | Err er => e_descr er = s_ "not" /\ e_priority er = Normal /\ e_pos er = st_pos st /\
      exists ts rest, peg (grammar_of rs) e (it_parsing st) (PMatch ts rest)
  | Panic => False
  | Fuel => True
  end.
Proof.
  intros rs fuel st e SR S C As. pose proof (engine_sound rs fuel st (Not e) SR S C As) as H.
  destruct fuel as [|f]; [exact I|]. pose proof (engine_sound rs f st e SR S C As) as H1.
  cbn [parse_expr] in *. unfold parse_not in *. destruct (parse_expr rs f st e) as [[st1 ts1]|er| |].
  - destruct (err_normal st (s_ "not")) as [[st2 ts2]|er| |] eqn:E.
    + unfold err_normal, err_status in E. destruct (from_status st (s_ "not") Normal); discriminate.
    + unfold err_normal in E. apply err_status_spec in E. destruct E as (E1 & E2 & E3 & _). repeat split; try assumption. eauto.
    + exact H.
    + exact I.
  - split; [reflexivity|]. split; [reflexivity|]. destruct (e_priority er); [|destruct H1 as (rest & H1 & _)];
      (eexists; split; [exact H1|exact I]).
  - exact H.
  - exact I.
Qed.
Print Assumptions C09_not_in_peg_terms.

Example C09_nonvacuous :
  parse_expr ex_rules 9 (status_init ex_text) (Not (lit (s_ "b"))) = Ok (status_init ex_text, []) /\
  parse_expr ex_rules 9 (status_init ex_text) (Not (error_ (s_ "m"))) = Ok (status_init ex_text, []).
Proof. split; vm_compute; reflexivity. Qed.

(* ---- C10 --------------------------------------------------------------------------------- *)

(** Either one alternative decides, run from the state of the choice after the ones before it failed
    normally there; or all fail normally. *)
Theorem C10_first_alternative_that_does_not_fail : forall rs st es r, run rs st (Or es) r ->
  (exists l1 e l2, es = l1 ++ e :: l2 /\
     Forall (fun x => exists er, run rs st x (Err er) /\ e_priority er = Normal) l1 /\
     run rs st e r /\ ~ fails_normally r) \/
  (Forall (fun x => exists er, run rs st x (Err er) /\ e_priority er = Normal) es /\
     exists d, (fails_normally r \/ r = @err_status (status * list node) st d Normal)).
Proof.
  intros rs st es r H.
  assert (K : forall l ers, all_fail rs st l ers -> Forall (fun x => exists er, run rs st x (Err er) /\ e_priority er = Normal) l).
  { intros l ers A. induction A; constructor; eauto. }
  apply run_or_iff, run_or_spec in H. destruct H as [(l1 & e & l2 & ers & -> & A & R & N)|(ers & A & ->)].
  - left. exists l1, e, l2. repeat split; try assumption; try apply R. eapply K. exact A.
  - right. split; [eapply K; exact A|]. unfold or_end. destruct (deep_fold None ers) as [er|] eqn:D.
    + exists []. left. exists er. split; [reflexivity|]. eapply (deep_fold_normal ers None); [exact I| |exact D].
      eapply all_fail_normal. exact A.
    + eexists. right. reflexivity.
Qed.
Print Assumptions C10_first_alternative_that_does_not_fail.

(** Conversely, the first alternative that does not fail normally decides, whatever follows it. *)
Theorem C10_later_alternatives_irrelevant : forall rs st l1 e l2 r,
  Forall (fun x => exists er, run rs st x (Err er) /\ e_priority er = Normal) l1 ->
  run rs st e r -> ~ fails_normally r -> run rs st (Or (l1 ++ e :: l2)) r.
Proof.
  intros rs st l1 e l2 r A R N. apply run_or_iff, run_or_spec. left.
  assert (K : exists ers, all_fail rs st l1 ers).
  { induction A as [|x l (er & H) A (ers & IH)]; [exists []; constructor|]. exists (er :: ers). constructor; assumption. }
  destruct K as [ers K]. exists l1, e, l2, ers. auto.
Qed.
Print Assumptions C10_later_alternatives_irrelevant.

Example C10_nonvacuous :
  exists er st', run ex_rules (status_init ex_text) (lit (s_ "b")) (Err er) /\ e_priority er = Normal /\
  run ex_rules (status_init ex_text) (lit (s_ "a")) (Ok (st', [Val (s_ "a")])) /\
  run ex_rules (status_init ex_text) (Or [lit (s_ "b"); lit (s_ "a"); lit (s_ "a1")]) (Ok (st', [Val (s_ "a")])).
Proof.
  eexists. eexists. split; [split; [discriminate|exists 3; vm_compute; reflexivity]|]. split; [reflexivity|].
  split; (split; [discriminate|exists 3; vm_compute; reflexivity]).
Qed.

(* ---- C11 --------------------------------------------------------------------------------- *)

Theorem C11_choice_reports_furthest_failure : forall rs st es ers r, es <> [] ->
  Forall2 (fun e er => run rs st e (Err er) /\ e_priority er = Normal) es ers -> run rs st (Or es) r ->
  exists er, r = Err er /\ last_furthest ers er.
Proof. exact or_furthest. Qed.
Print Assumptions C11_choice_reports_furthest_failure.

Example C11_nonvacuous :
  let st := status_init (s_ "abc") in
  exists e1 e2 e3, run ex_rules st (lit (s_ "x")) (Err e1) /\ run ex_rules st (lit (s_ "ax")) (Err e2) /\
  run ex_rules st (lit (s_ "ay")) (Err e3) /\ pn (e_pos e1) = 1 /\ pn (e_pos e2) = 2 /\ pn (e_pos e3) = 2 /\
  run ex_rules st (Or [lit (s_ "ax"); lit (s_ "ay"); lit (s_ "x")]) (Err e3).
Proof.
  eexists. eexists. eexists. split; [split; [discriminate|exists 3; vm_compute; reflexivity]|].
  split; [split; [discriminate|exists 3; vm_compute; reflexivity]|].
  split; [split; [discriminate|exists 3; vm_compute; reflexivity]|].
  split; [reflexivity|]. split; [reflexivity|]. split; [reflexivity|].
  split; [discriminate|exists 3; vm_compute; reflexivity].
Qed.

(* ---- C12 --------------------------------------------------------------------------------- *)

Theorem C12_repetition_respects_bounds : forall rs st e mn mx r,
  match mx with Some m => 1 <= m /\ mn <= m | None => True end ->
  run rs st (Repeat e mn mx) r ->
  match r with
  | Ok (st', ts) =>
      exists k stk, reps rs e st k ts stk /\ mn <= k /\ match mx with Some m => k <= m | None => True end /\
        ((mx = Some k /\ st' = stk) \/
         (exists er, run rs stk e (Err er) /\ e_priority er = Normal /\ st' = set_potential_error stk er))
  | Err er =>
      exists k ts stk, reps rs e st k ts stk /\ run rs stk e (Err er) /\
        (e_priority er = Critical \/ k < mn) /\ match mx with Some m => k < m | None => True end
  | Panic => exists k ts stk, reps rs e st k ts stk /\ run rs stk e Panic
  | Fuel => False
  end.
Proof. exact rep_bounds. Qed.
Print Assumptions C12_repetition_respects_bounds.

Example C12_nonvacuous : exists st',
  run ex_rules (status_init (s_ "aaa")) (Repeat (lit (s_ "a")) 1 (Some 2)) (Ok (st', [Val (s_ "a"); Val (s_ "a")])) /\
  it_parsing st' = s_ "a".
Proof. eexists. split; [split; [discriminate|exists 5; vm_compute; reflexivity]|reflexivity]. Qed.

(* ---- C13 --------------------------------------------------------------------------------- *)

Definition ex_max0 : rules := rules_macro [(main, Repeat (lit (s_ "a")) 0 (Some 0))].
Definition ex_min_max : rules := rules_macro [(main, Repeat (lit (s_ "a")) 3 (Some 2))].

(** [max] is not respected when it is 0, [min] is not respected when it exceeds [max]. *)
Theorem C13_max_respected_refuted : exists fuel s kids,
  parse fuel s (rules_macro [(main, Repeat (lit (s_ "a")) 0 (Some 0))]) = Ok (Rule main kids) /\ length kids > 0.
Proof. exists 9, (s_ "aa"), [Val (s_ "a"); Val (s_ "a")]. split; [vm_compute; reflexivity|cbn; lia]. Qed.
Print Assumptions C13_max_respected_refuted.

Theorem C13_min_respected_refuted : exists fuel s kids,
  parse fuel s (rules_macro [(main, Repeat (lit (s_ "a")) 3 (Some 2))]) = Ok (Rule main kids) /\ length kids < 3.
Proof. exists 9, (s_ "aa"), [Val (s_ "a"); Val (s_ "a")]. split; [vm_compute; reflexivity|cbn; lia]. Qed.
Print Assumptions C13_min_respected_refuted.

(** The exact law: every rule set behaves as the one with the bounds made sane ([norm]), to which C01-C12
    apply. *)
Theorem C13_exact_law : forall fuel s rs debug,
  parse_with_debug fuel s rs debug = parse_with_debug fuel s (norm_rules rs) debug /\ sane_rules (norm_rules rs).
Proof. intros. split; [apply parse_with_debug_norm|apply norm_rules_sane]. Qed.
Print Assumptions C13_exact_law.

Theorem C13_sane_bounds_unchanged : forall e, sane e -> norm e = e.
Proof. exact sane_norm. Qed.
Print Assumptions C13_sane_bounds_unchanged.

Example C13_nonvacuous :
  sane (Repeat (lit (s_ "a")) 2 (Some 3)) /\ norm (Repeat (lit (s_ "a")) 2 (Some 3)) = Repeat (lit (s_ "a")) 2 (Some 3) /\
  ~ sane_rules ex_max0 /\ norm_rules ex_max0 = rules_macro [(main, Repeat (lit (s_ "a")) 0 None)] /\
  ~ sane_rules ex_min_max /\ norm_rules ex_min_max = rules_macro [(main, Repeat (lit (s_ "a")) 2 (Some 2))].
Proof.
  split; [cbn; lia|]. split; [reflexivity|]. split; [intro H; specialize (H main _ eq_refl); cbn in H; lia|]. split; [reflexivity|].
  split; [intro H; specialize (H main _ eq_refl); cbn in H; lia|reflexivity].
Qed.

(* ---- C15 --------------------------------------------------------------------------------- *)

Theorem C15_left_recursion_diverges : forall rs n e, rules_get rs n = Some e -> starts_with n e ->
  forall fuel st, parse_expr rs fuel st (RuleName n) = Fuel.
Proof. intros rs n e E S fuel st. exact (left_recursion rs n e E S fuel st (RuleName n) (sw_ref n)). Qed.
Print Assumptions C15_left_recursion_diverges.

Theorem C15_left_recursive_main_diverges : forall rs e s, rules_get rs main = Some e -> starts_with main e ->
  forall fuel, parse fuel s rs = Fuel.
Proof.
  intros rs e s E S fuel. unfold parse. rewrite parse_unfold. unfold expression_parse, parse_rule_name.
  change (s_ "main") with main. rewrite E. rewrite (left_recursion rs main e E S fuel _ e S). reflexivity.
Qed.
Print Assumptions C15_left_recursive_main_diverges.

Theorem C15_empty_repetition_diverges : forall rs st e mn ts,
  sane_rules rs -> sane e -> coherent_pos st -> ascii (text2parse st) ->
  peg (grammar_of rs) e (it_parsing st) (PMatch ts (it_parsing st)) ->
  forall fuel, parse_expr rs fuel st (Repeat e mn None) = Fuel.
Proof. exact empty_repetition. Qed.
Print Assumptions C15_empty_repetition_diverges.

Example C15_nonvacuous :
  starts_with main (Or [And [ref_rule main; lit (s_ "+")]; lit (s_ "1")]) /\
  peg (grammar_of []) (Repeat (lit (s_ "a")) 0 None) (s_ "b") (PMatch [] (s_ "b")).
Proof.
  split; [repeat constructor|]. apply peg_rep_done; [discriminate|]. apply peg_lit_fail. intros rest H. discriminate.
Qed.

(* ---- C17 --------------------------------------------------------------------------------- *)

Theorem C17_debug_agrees : forall fuel s rs,
  map_err erase_rules (parse_debug fuel s rs) = map_err erase_rules (parse fuel s rs).
Proof. exact parse_debug_sim. Qed.
Print Assumptions C17_debug_agrees.

(** [parse] gives no trace; that of [parse_debug] starts with main and consists of rules that can be reached from there.  ([parse_with_debug]
    stands for both elsewhere.) *)
Theorem C17_trace : forall fuel s rs er,
  (parse fuel s rs = Err er -> e_parsing_rules er = []) /\ (parse_debug fuel s rs = Err er -> trace_ok rs true (e_parsing_rules er)).
Proof. intros fuel s rs er. split; [exact (parse_trace fuel s rs false er)|exact (parse_trace fuel s rs true er)]. Qed.

Theorem C17_two_entry_points : forall fuel s rs, parse_with_debug fuel s rs false = parse fuel s rs /\ parse_with_debug fuel s rs true = parse_debug fuel s rs.
Proof. intros. split; reflexivity. Qed.
Print Assumptions C17_two_entry_points.
Print Assumptions C17_trace.

Example C17_nonvacuous : exists er, parse_debug 20 ex_text_abort ex_rules = Err er /\
  e_parsing_rules er = [s_ "r:main"; s_ "r:digit"; s_ "r:digit"; s_ "r:tail"].
Proof. eexists. vm_compute. split; reflexivity. Qed.

(* ---- C18 --------------------------------------------------------------------------------- *)

Theorem C18_only_reachable_rules_matter : forall fuel s rs1 rs2 debug,
  (forall n, reachable rs1 n -> rules_get rs1 n = rules_get rs2 n) ->
  parse_with_debug fuel s rs1 debug = parse_with_debug fuel s rs2 debug.
Proof. exact parse_reachable. Qed.
Print Assumptions C18_only_reachable_rules_matter.

Example C18_nonvacuous : forall e,
  let rs1 := rules_macro [(main, lit (s_ "a"))] in
  let rs2 := rules_macro [(s_ "unused", e); (main, lit (s_ "a"))] in
  forall n, reachable rs1 n -> rules_get rs1 n = rules_get rs2 n.
Proof.
  intros e rs1 rs2 n H. assert (n = main) as ->; [|reflexivity].
  induction H as [|n x m Hn IH E R]; [reflexivity|]. subst n. cbn in E. injection E as <-. inversion R.
Qed.

(* ---- C21 --------------------------------------------------------------------------------- *)

Theorem C21_and_associative : forall rs st es1 es2 es3 r,
  run rs st (And (es1 ++ And es2 :: es3)) r <-> run rs st (And (es1 ++ es2 ++ es3)) r.
Proof. exact and_assoc. Qed.
Print Assumptions C21_and_associative.

Theorem C21_or_associative : forall rs st es1 es2 es3 r, es2 <> [] ->
  (run rs st (Or (es1 ++ Or es2 :: es3)) r <-> run rs st (Or (es1 ++ es2 ++ es3)) r).
Proof. exact or_assoc. Qed.
Print Assumptions C21_or_associative.

Theorem C21_and_single : forall rs st e r, run rs st (And [e]) r <-> run rs st e r.
Proof. exact and_single. Qed.
Print Assumptions C21_and_single.

Theorem C21_or_single : forall rs st e r, run rs st (Or [e]) r <-> run rs st e r.
Proof. exact or_single. Qed.
Print Assumptions C21_or_single.

Theorem C21_one_or_more : forall rs st e r,
  run rs st (Repeat e 1 None) r <-> run rs st (And [e; Repeat e 0 None]) r.
Proof. exact plus_is_one_star. Qed.
Print Assumptions C21_one_or_more.

(** Same text, rest, position, trace and nodes, or the same error; only the pending error differs. *)
Theorem C21_optional_is_choice : forall rs st e,
  ((exists r, run rs st (Repeat e 0 (Some 1)) r) <-> (exists r, run rs st (Or [e; And []]) r)) /\
  forall r1 r2, run rs st (Repeat e 0 (Some 1)) r1 -> run rs st (Or [e; And []]) r2 -> forget r1 = forget r2.
Proof. intros. split; [apply optional_terminates_as_choice|intros; eapply optional_is_choice; eassumption]. Qed.
Print Assumptions C21_optional_is_choice.

Theorem C21_double_negation : forall rs st e, coherent_pos st -> ascii (text2parse st) ->
  ((exists st' ts, run rs st (Not (Not e)) (Ok (st', ts))) <-> (exists st' ts, run rs st e (Ok (st', ts)))) /\
  (forall st' ts, run rs st (Not (Not e)) (Ok (st', ts)) -> st' = st /\ ts = []).
Proof.
  intros rs st e C As. split; [split|].
  - intros (st' & ts & H). apply not_not in H. tauto.
  - intros (st' & ts & H). exists st, []. eapply not_not_conv; [|exact H].
    destruct (coherent_from st (s_ "not") Normal C As) as [lb E]. rewrite E. discriminate.
  - intros st' ts H. apply not_not in H. tauto.
Qed.
Print Assumptions C21_double_negation.

Example C21_nonvacuous : coherent_pos (status_init ex_text) /\ exists st',
  run ex_rules (status_init ex_text) (And [And [lit (s_ "a"); lit (s_ "1")]; lit (s_ "2")])
    (Ok (st', [Val (s_ "a"); Val (s_ "1"); Val (s_ "2")])).
Proof.
  split; [exists []; split; reflexivity|]. eexists. split; [discriminate|]. exists 5. vm_compute. reflexivity.
Qed.

(* ---- C38 --------------------------------------------------------------------------------- *)

Theorem C38_no_eof_nodes : forall fuel s rs debug ast, parse_with_debug fuel s rs debug = Ok ast -> eof_free ast.
Proof. exact parse_eof_free. Qed.
Print Assumptions C38_no_eof_nodes.

Example C38_nonvacuous : parse 5 (s_ "a") (rules_macro [(main, And [lit (s_ "a"); Simple AEOF])]) =
  Ok (Rule main [Val (s_ "a"); Val (s_ "EOF")]).
Proof. vm_compute. reflexivity. Qed.

(* ---- C39 --------------------------------------------------------------------------------- *)

(** Two states with the same remaining text: same outcome with the same fuel, same nodes, same rest, errors
    with the same text at the same distance. *)
Theorem C39_outcome_depends_on_rest_only : forall rs fuel e a b,
  it_parsing a = it_parsing b -> coherent_pos a -> coherent_pos b ->
  ascii (text2parse a) -> ascii (text2parse b) ->
  match parse_expr rs fuel a e, parse_expr rs fuel b e with
  | Ok (a', ts), Ok (b', us) => ts = us /\ it_parsing a' = it_parsing b' /\
      pn (st_pos a') + pn (st_pos b) = pn (st_pos b') + pn (st_pos a)
  | Err x, Err y => e_descr x = e_descr y /\ e_priority x = e_priority y /\ e_line_after x = e_line_after y /\
      pn (e_pos x) + pn (st_pos b) = pn (e_pos y) + pn (st_pos a)
  | Fuel, Fuel => True
  | _, _ => False
  end.
Proof.
  intros rs fuel e a b E Ca Cb Aa Ab. pose proof (suffix_determinism rs fuel e a b E Ca Cb Aa Ab) as H.
  pose proof (parse_expr_good rs fuel (Status (text2parse a) (it_parsing a) (st_pos a) None (trace_rules a) (walking_rules a)) e) as P1.
  assert (NP : parse_expr rs fuel a e <> Panic).
  { intro F. pose proof (suffix_determinism rs fuel e a (Status (text2parse a) (it_parsing a) (st_pos a) None (trace_rules a) (walking_rules a)) eq_refl Ca Ca Aa Aa) as X.
    rewrite F in X. destruct (parse_expr rs fuel (Status _ _ _ _ _ _) e) as [[? ?]|?| |]; cbn in X; try contradiction.
    refine (P1 _ Aa). split; [exact Ca|]. intros er Q. discriminate. }
  destruct (parse_expr rs fuel a e) as [[a' ts]|x| |], (parse_expr rs fuel b e) as [[b' us]|y| |]; cbn in H; try contradiction.
  - destruct H as [(H1 & _ & _ & _ & _ & H2) ->]. auto.
  - exact H.
  - exact I.
Qed.
Print Assumptions C39_outcome_depends_on_rest_only.

Example C39_nonvacuous :
  let a := status_init (s_ "bc") in
  let b := Status (s_ "a" ++ [ch_nl] ++ s_ "bc") (s_ "bc") (Pos 2 1 0 2) None false [] in
  it_parsing a = it_parsing b /\ coherent_pos a /\ coherent_pos b /\ ascii (text2parse a) /\ ascii (text2parse b).
Proof.
  split; [reflexivity|]. split; [exists []; split; reflexivity|].
  split; [exists (s_ "a" ++ [ch_nl]); split; reflexivity|]. split; apply ascii_all; reflexivity.
Qed.

(* ---- C40 --------------------------------------------------------------------------------- *)

Theorem C40_consumption_is_monotone : forall rs fuel e st st' ts,
  coherent_pos st -> parse_expr rs fuel st e = Ok (st', ts) ->
  exists c pre, text2parse st = pre ++ it_parsing st /\ it_parsing st = c ++ it_parsing st' /\
    text2parse st' = text2parse st /\ st_pos st' = pos_of (pre ++ c) /\
    pn (st_pos st') = pn (st_pos st) + length c.
Proof. exact consumption. Qed.
Print Assumptions C40_consumption_is_monotone.

Example C40_nonvacuous : coherent_pos (status_init ex_text) /\
  exists st' ts, parse_expr ex_rules 9 (status_init ex_text) (ref_rule main) = Ok (st', ts).
Proof. split; [exists []; split; reflexivity|]. eexists. eexists. vm_compute. reflexivity. Qed.
