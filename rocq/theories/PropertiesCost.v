(** The cost of parsing: C52, C53, C54, and the depth of calls for C35. *)
From Verif Require Import Base ModelAst ModelParser ModelCost ModelPegRules SpecPeg SpecPos SpecApi SpecWf SpecCost Examples.
From Verif Require Import ProofParser ProofEngine ProofApi ProofWf WfCheck ProofCost ProofCost2 ProofTreeSize.
From Verif Require Import ModelPeg SpecSyntax ProofPegApi ProofReadCost ProofReadLow.

(* ---- C52 --------------------------------------------------------------------------------- *)

(** A parse that ends makes a certain number of calls. *)
Theorem C52_calls_are_well_defined : forall f f' s rs d, f <= f' -> parse_with_debug f s rs d <> Fuel ->
  parse_calls f' s rs d = parse_calls f s rs d /\ parse_nesting f' s rs d = parse_nesting f s rs d.
Proof. intros f f' s rs d L N. split; apply (parse_tally_stable _ rs f f' s d L N). Qed.
Print Assumptions C52_calls_are_well_defined.

(** At most exponentially many in the length of the text, for well-formed rules ... *)
Theorem C52_at_most_exponential : forall rs, well_formed (grammar_of rs) ->
  exists c, forall fuel s d, parse_calls fuel s rs d < 2 ^ (c * (length s + 1)).
Proof. intros rs [NLR NEL]. exists (depth_factor rs). intros fuel s d. apply calls_bound; assumption. Qed.
Print Assumptions C52_at_most_exponential.

(** ... and that many for some rules: nothing is remembered when the parser backtracks.  The rules are well formed,
    and the texts are accepted. *)
Theorem C52_exponential_for_some_rules : exists rs, well_formed (grammar_of rs) /\
  forall n, exists s, length s = n + 1 /\ (exists ast f0, forall fuel, f0 <= fuel -> parse fuel s rs = Ok ast) /\
    forall fuel d, parse_with_debug fuel s rs d <> Fuel -> 2 ^ n <= S (parse_calls fuel s rs d).
Proof.
  exists nested_rules. split; [exact nested_wf|]. intro n. exists (nested_text n).
  split; [unfold nested_text; rewrite app_length, repeat_length; reflexivity|]. split; [apply nested_accepted|].
  intros fuel d N. destruct (nested_run Nat.add n fuel d N) as [E F]. unfold parse_calls. rewrite E.
  apply nested_calls; [apply inv_init|reflexivity|apply nested_ascii|exact F].
Qed.
Print Assumptions C52_exponential_for_some_rules.

Example C52_nonvacuous : well_formed (grammar_of nested_rules) /\ parse 50 (s_ "(((z") nested_rules <> Fuel /\
  parse_calls 50 (s_ "(((z") nested_rules false = 104 /\ parse_calls 50 (s_ "((((z") nested_rules false = 216 /\
  parse_nesting 50 (s_ "(((z") nested_rules false = 12.
Proof. split; [exact nested_wf|]. split; [vm_compute; discriminate|]. repeat split; vm_compute; reflexivity. Qed.

(* ---- C53 --------------------------------------------------------------------------------- *)

(** The number of nodes of the tree is linear in the length of the text. *)
Theorem C53_trees_are_linear : forall rs, well_formed (grammar_of rs) ->
  exists c, forall fuel s d ast, parse_with_debug fuel s rs d = Ok ast -> node_count ast <= c * (length s + 1).
Proof. intros rs [NLR NEL]. eexists. intros fuel s d ast H. exact (tree_size rs NLR NEL fuel s d ast H). Qed.
Print Assumptions C53_trees_are_linear.

(** So are the tokens of the flat form. *)
Theorem C53_tokens_are_linear : forall rs, well_formed (grammar_of rs) ->
  exists c, forall fuel s d ast, parse_with_debug fuel s rs d = Ok ast -> length (flatten ast) <= c * (length s + 1).
Proof.
  intros rs W. destruct (C53_trees_are_linear rs W) as [c H]. exists (2 * c). intros fuel s d ast P.
  pose proof (H fuel s d ast P). pose proof (flatten_count ast). nia.
Qed.
Print Assumptions C53_tokens_are_linear.

(** So is the trace of an error (which [parse] leaves empty). *)
Theorem C53_traces_are_linear : forall rs, well_formed (grammar_of rs) ->
  exists c, forall fuel s d er, parse_with_debug fuel s rs d = Err er -> length (e_parsing_rules er) <= c * (length s + 1).
Proof. intros rs [NLR NEL]. eexists. intros fuel s d er H. exact (trace_size rs NLR NEL fuel s d er H). Qed.
Print Assumptions C53_traces_are_linear.

Example C53_nonvacuous_trace : well_formed (grammar_of nested_rules) /\
  (exists er, parse_debug 50 (s_ "(((x") nested_rules = Err er /\ length (e_parsing_rules er) = 4) /\
  (exists er, parse_debug 50 (s_ "(((((x") nested_rules = Err er /\ length (e_parsing_rules er) = 6).
Proof. split; [exact nested_wf|]. split; eexists; (split; [vm_compute; reflexivity|reflexivity]). Qed.

Example C53_nonvacuous : well_formed (grammar_of ex_rules) /\ exists ast, parse 100 ex_text ex_rules = Ok ast /\ node_count ast > 3.
Proof. split; [apply wf_check_sound; vm_compute; reflexivity|]. eexists. split; [vm_compute; reflexivity|cbn; lia]. Qed.

(* ---- C54 --------------------------------------------------------------------------------- *)

(** Reading a grammar text, valid or not, takes at most quadratically many calls in its length ... *)
Theorem C54_reading_a_grammar_is_quadratic : exists c, forall fuel s d,
  parse_calls fuel s parse_peg d <= c * (length s + 1) * (length s + 1).
Proof. exact reading_is_quadratic. Qed.
Print Assumptions C54_reading_a_grammar_is_quadratic.

(** ... and that many for some grammar texts of any length. *)
Theorem C54_quadratic_for_some_grammars : forall n, exists s, length s = 3 * n + 4 /\
  (exists rs f0, forall fuel, f0 <= fuel -> rules_from_peg fuel s = Ok rs) /\
  forall fuel d ast, parse_with_debug fuel s parse_peg d = Ok ast -> n * n < parse_calls fuel s parse_peg d.
Proof.
  intro n. exists (wide_text n). split; [apply wide_length|]. split; [|intros fuel d ast; apply wide_calls].
  destruct (rules_from_peg_reads _ _ (wide_ascii n) (wide_grammar n)) as [f0 H]. eauto.
Qed.
Print Assumptions C54_quadratic_for_some_grammars.

Example C54_nonvacuous : (exists ast, parse 200 (wide_text 3) parse_peg = Ok ast) /\ wide_text 3 = s_ "m=a a a a   " ++ [ch_nl] /\
  parse_calls 200 (wide_text 3) parse_peg false = 871.
Proof. split; [eexists; vm_compute; reflexivity|]. split; vm_compute; reflexivity. Qed.

(* ---- C35 --------------------------------------------------------------------------------- *)

(** Calls nest at most linearly deep (the loops of repetitions do not nest) ... *)
Theorem C35_nesting_is_linear_in_the_text : forall rs, well_formed (grammar_of rs) ->
  exists c, forall fuel s d, parse_nesting fuel s rs d < c * (length s + 1).
Proof. intros rs [NLR NEL]. exists (depth_factor rs). intros fuel s d. apply nesting_bound; assumption. Qed.
Print Assumptions C35_nesting_is_linear_in_the_text.

(** ... and that deep for some rules: no fixed size of the stack is enough. *)
Theorem C35_no_fixed_stack_is_enough : exists rs, well_formed (grammar_of rs) /\
  forall n, exists s, length s = n + 1 /\ (exists ast f0, forall fuel, f0 <= fuel -> parse fuel s rs = Ok ast) /\
    forall fuel d, parse_with_debug fuel s rs d <> Fuel -> 3 * n <= parse_nesting fuel s rs d.
Proof.
  exists nested_rules. split; [exact nested_wf|]. intro n. exists (nested_text n).
  split; [unfold nested_text; rewrite app_length, repeat_length; reflexivity|]. split; [apply nested_accepted|].
  intros fuel d N. destruct (nested_run Nat.max n fuel d N) as [E F]. unfold parse_nesting.
  pose proof (nested_nesting n (S fuel) (status_init_debug (nested_text n) d) (inv_init _ _) eq_refl (nested_ascii n) F). lia.
Qed.
Print Assumptions C35_no_fixed_stack_is_enough.
