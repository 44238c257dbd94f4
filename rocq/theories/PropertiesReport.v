(** What parse reports: C20, C41. *)
From Verif Require Import Base ModelAst ModelParser SpecPeg SpecPos SpecApi SpecReport Examples ProofReport.

(* ---- C20 --------------------------------------------------------------------------------- *)

Theorem C20_leftover_input_is_reported : forall fuel s rs d ts c rest, sane_rules rs -> ascii s ->
  peg_main rs s (PMatch ts (c :: rest)) -> parse_with_debug fuel s rs d <> Fuel ->
  exists p t er, pege (grammar_of rs) (RuleName main) s (EMatch ts (c :: rest) p t) /\
    parse_with_debug fuel s rs d = Err er /\ e_priority er = Normal /\
    match p with
    | Some q => er = error_at s d Normal q
    | None => er = error_at s d Normal (Report (s_ "not consumed full input") (c :: rest) t)
    end.
Proof. exact leftover. Qed.
Print Assumptions C20_leftover_input_is_reported.

(** main = 'a' 'b'? on "ac": the repetition stopped on the failed 'b', just after the c; main = 'a' on "ac":
    nothing is pending. *)
Example C20_nonvacuous :
  let rs1 := rules_macro [(main, And [lit (s_ "a"); rep2 (lit (s_ "b")) 0 1])] in
  let rs2 := rules_macro [(main, lit (s_ "a"))] in
  sane_rules rs1 /\ sane_rules rs2 /\ ascii (s_ "ac") /\
  peg_main rs1 (s_ "ac") (PMatch [Rule main [Val (s_ "a")]] (s_ "c")) /\
  parse 9 (s_ "ac") rs1 = Err (PError (Pos 2 0 2 0) (s_ "expected literal: <b>") (s_ "ac") [] [] Normal) /\
  peg_main rs2 (s_ "ac") (PMatch [Rule main [Val (s_ "a")]] (s_ "c")) /\
  parse_debug 9 (s_ "ac") rs2 = Err (PError (Pos 1 0 1 0) (s_ "not consumed full input") (s_ "a") (s_ "c") [s_ "r:main"] Normal).
Proof.
  cbv zeta. split; [apply sane_rules_all; repeat constructor|]. split; [apply sane_rules_all; repeat constructor|].
  split; [apply ascii_all; reflexivity|]. split.
  - eapply (peg_rule _ main _ (s_ "ac") (PMatch [Val (s_ "a")] (s_ "c"))); [reflexivity|].
    apply (peg_and_cons _ (lit (s_ "a")) [rep2 (lit (s_ "b")) 0 1] (s_ "ac") [Val (s_ "a")] (s_ "c") (PMatch [] (s_ "c"))).
    + exact (peg_lit_ok _ (s_ "a") (s_ "c")).
    + apply (peg_and_cons _ (rep2 (lit (s_ "b")) 0 1) [] (s_ "c") [] (s_ "c") (PMatch [] (s_ "c"))); [|apply peg_and_nil].
      apply peg_rep_done; [discriminate|]. apply peg_lit_fail. intros x E. discriminate E.
  - split; [vm_compute; reflexivity|]. split; [|vm_compute; reflexivity].
    eapply (peg_rule _ main _ (s_ "ac") (PMatch [Val (s_ "a")] (s_ "c"))); [reflexivity|].
    exact (peg_lit_ok _ (s_ "a") (s_ "c")).
Qed.

(* ---- C41 --------------------------------------------------------------------------------- *)

Theorem C41_parse_returns_what_the_reporting_semantics_says : forall fuel s rs d,
  sane_rules rs -> ascii s -> parse_with_debug fuel s rs d <> Fuel ->
  exists r, pege (grammar_of rs) (RuleName main) s r /\ answers s d r (parse_with_debug fuel s rs d).
Proof. exact parse_report. Qed.
Print Assumptions C41_parse_returns_what_the_reporting_semantics_says.

Theorem C41_results_are_exactly_the_answers : forall s rs d o, sane_rules rs -> ascii s -> o <> Fuel ->
  ((exists fuel, parse_with_debug fuel s rs d = o) <->
   (exists r, pege (grammar_of rs) (RuleName main) s r /\ answers s d r o)).
Proof. exact parse_report_iff. Qed.
Print Assumptions C41_results_are_exactly_the_answers.

Theorem C41_reports_are_unique : forall G e s r1 r2, pege G e s r1 -> pege G e s r2 -> r1 = r2.
Proof. intros G e s r1 r2 H1 H2. exact (pege_det G e s r1 H1 r2 H2). Qed.
Print Assumptions C41_reports_are_unique.

Theorem C41_reports_refine_matching : forall G e s r, pege G e s r -> peg G e s (plain r).
Proof. exact pege_plain. Qed.
Print Assumptions C41_reports_refine_matching.

Theorem C41_every_outcome_has_a_report : forall rs s r, sane_rules rs -> ascii s -> peg_main rs s r ->
  exists er, pege (grammar_of rs) (RuleName main) s er /\ plain er = r.
Proof. exact peg_reports. Qed.
Print Assumptions C41_every_outcome_has_a_report.

Example C41_nonvacuous : sane_rules ex_rules /\ ascii ex_text_bad /\
  parse_debug 20 ex_text_bad ex_rules =
    Err (PError (Pos 2 1 0 2) (s_ "match. expected  [('0', '9')]") [] (s_ "x") [s_ "r:main"; s_ "r:digit"] Normal) /\
  parse_debug 20 ex_text_abort ex_rules =
    Err (PError (Pos 3 0 3 0) (s_ "no tail") (s_ "a12") (s_ "y")
           [s_ "r:main"; s_ "r:digit"; s_ "r:digit"; s_ "r:tail"] Critical).
Proof. split; [exact ex_rules_sane|]. split; [apply ex_text_ascii|]. split; vm_compute; reflexivity. Qed.
