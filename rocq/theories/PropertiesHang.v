(** Properties: when parsing never returns, and how deep it nests when it does, for every rule set. *)
From Verif Require Import Base ModelAst ModelParser ModelCost SpecPeg SpecPos SpecApi SpecWf SpecHang Examples.
From Verif Require Import ProofParser ProofEngine ProofApi ProofHang WfCheck WfComplete.

(** * C58 parsing hangs exactly when it runs in a circle *)

(** Parsing never returns exactly if it comes to a rule that is needed again where it is being matched, or to an unbounded
    repetition that repeats a match of nothing. *)
Theorem C58_hangs_exactly_when_it_runs_in_a_circle : forall s rs debug, sane_rules rs -> ascii s ->
  ((forall fuel, parse_with_debug fuel s rs debug = Fuel) <->
   ((exists n s', comes_up (grammar_of rs) (RuleName main, s) (RuleName n, s') /\ needs_itself (grammar_of rs) n s') \/
    (exists e s', comes_up (grammar_of rs) (RuleName main, s) (Repeat e 0 None, s') /\ repeats_nothing (grammar_of rs) e s'))).
Proof. exact hangs_iff_loop. Qed.

(** Whatever the rules, well formed or not: a parse that returns nests at most linearly deep. *)
Theorem C58_returning_parses_nest_linearly : forall s rs debug fuel, ascii s -> parse_with_debug fuel s rs debug <> Fuel ->
  parse_nesting fuel s rs debug <= rules_weight rs * (length s + 1).
Proof. exact nesting_of_a_parse. Qed.

(** And makes at most exponentially many calls: the bound of C52, for all rules with sane bounds. *)
Theorem C58_returning_parses_are_at_most_exponential : forall s rs debug fuel, sane_rules rs -> ascii s ->
  parse_with_debug fuel s rs debug <> Fuel -> parse_calls fuel s rs debug < 2 ^ (rules_weight rs * (length s + 1)).
Proof. exact calls_sane. Qed.

(** Hence a limit that only depends on the size of the rules and of the text separates the parses that return from
    the ones that never do: within the limit the result is the final one ... *)
Theorem C58_results_come_within_the_limit : forall s rs debug fuel, ascii s -> parse_with_debug fuel s rs debug <> Fuel ->
  parse_with_debug (rules_weight rs * (length s + 1)) s rs debug = parse_with_debug fuel s rs debug.
Proof. exact enough_fuel. Qed.

(** ... and what takes longer hangs. *)
Theorem C58_beyond_the_limit_it_hangs : forall s rs debug, ascii s ->
  parse_with_debug (rules_weight rs * (length s + 1)) s rs debug = Fuel -> forall fuel, parse_with_debug fuel s rs debug = Fuel.
Proof.
  intros s rs debug As L fuel. destruct (parse_with_debug fuel s rs debug) eqn:E; try reflexivity;
    rewrite (enough_fuel s rs debug fuel As) in L by (rewrite E; discriminate); congruence.
Qed.

(** [main = 'b' / main 'a'] is left recursive, but returns on the texts that start with b; on the others it hangs. *)
Definition half_recursive : rules := rules_macro [(main, Or [lit (s_ "b"); And [ref_rule main; lit (s_ "a")]])].

(** [main = opt deep, deep = !'q' main 'y', opt = 'x'?]: the recursion goes through another rule, an option and a predicate. *)
Definition deep_recursive : rules :=
  rules_macro [(main, And [ref_rule (s_ "opt"); ref_rule (s_ "deep")]);
               (s_ "deep", And [Not (lit (s_ "q")); ref_rule main; lit (s_ "y")]);
               (s_ "opt", rep2 (lit (s_ "x")) 0 1)].

Example C58_nonvacuous :
  ~ well_formed (grammar_of half_recursive) /\ sane_rules half_recursive /\ sane_rules deep_recursive /\
  parse 9 (s_ "b") half_recursive = Ok (Rule main [Val (s_ "b")]) /\
  needs_itself (grammar_of half_recursive) main (s_ "c") /\ (forall fuel, parse fuel (s_ "c") half_recursive = Fuel) /\
  needs_itself (grammar_of deep_recursive) main (s_ "z") /\ (forall fuel, parse fuel (s_ "xz") deep_recursive = Fuel).
Proof.
  assert (N1 : needs_itself (grammar_of half_recursive) main (s_ "c")).
  { eapply t_trans; [apply t_step; apply nd_rule; reflexivity|].
    eapply t_trans; [apply t_step; apply nd_or_rest; apply peg_lit_fail; discriminate|].
    eapply t_trans; [apply t_step; apply nd_or|]. apply t_step. apply nd_and. }
  assert (O : peg (grammar_of deep_recursive) (ref_rule (s_ "opt")) (s_ "z") (PMatch [Rule (s_ "opt") []] (s_ "z"))).
  { apply (ev_peg _ 9). reflexivity. }
  assert (Q : peg (grammar_of deep_recursive) (Not (lit (s_ "q"))) (s_ "z") (PMatch [] (s_ "z"))).
  { apply (ev_peg _ 9). reflexivity. }
  assert (N2 : needs_itself (grammar_of deep_recursive) main (s_ "z")).
  { eapply t_trans; [apply t_step; apply nd_rule; reflexivity|].
    eapply t_trans; [apply t_step; eapply nd_and_rest; exact O|].
    eapply t_trans; [apply t_step; apply nd_and|].
    eapply t_trans; [apply t_step; apply nd_rule; reflexivity|].
    eapply t_trans; [apply t_step; eapply nd_and_rest; exact Q|]. apply t_step. apply nd_and. }
  split; [intro W; apply (wf_check_complete half_recursive) in W; vm_compute in *; congruence|].
  split; [apply sane_rules_all; repeat constructor|]. split; [apply sane_rules_all; repeat constructor|].
  split; [vm_compute; reflexivity|]. split; [exact N1|].
  split; [apply C58_beyond_the_limit_it_hangs; [repeat constructor|vm_compute; reflexivity]|]. split; [exact N2|].
  apply C58_beyond_the_limit_it_hangs; [repeat constructor|vm_compute; reflexivity].
Qed.

Print Assumptions C58_hangs_exactly_when_it_runs_in_a_circle.
Print Assumptions C58_returning_parses_nest_linearly.
Print Assumptions C58_returning_parses_are_at_most_exponential.
Print Assumptions C58_results_come_within_the_limit.
Print Assumptions C58_beyond_the_limit_it_hangs.
