(** Properties: linear time. *)
From Verif Require Import Base ModelAst ModelParser ModelCost SpecPeg SpecPos SpecApi SpecWf SpecBnf Examples.
From Verif Require Import ProofParser ProofEngine ProofApi ProofWf WfCheck ProofBnf ProofLinear PropertiesBnf.

(** * C62 rules where the next char tells what to do are fast *)

(** The number of calls is linear in the length of the text, whether it is accepted or rejected. *)
Theorem C62_predictive_grammars_take_linear_time : forall rs,
  sane_rules rs -> well_formed (grammar_of rs) -> predictive_grammar (grammar_of rs) -> productive (grammar_of rs) ->
  exists c, forall fuel s debug, parse_calls fuel s rs debug <= c * (length s + 1).
Proof. exact predictive_linear. Qed.

(** Not if some parts of the rules cannot match anything: such alternatives can all start with the same char. *)
Theorem C62_without_productive_refuted : exists rs, sane_rules rs /\ well_formed (grammar_of rs) /\ predictive_grammar (grammar_of rs) /\
  forall n, exists s, length s = n + 1 /\ ascii s /\
    forall fuel debug, parse_with_debug fuel s rs debug <> Fuel -> 2 ^ n <= parse_calls fuel s rs debug.
Proof. exact hopeless_exponential. Qed.

(** The lists of C61. *)
Example C62_nonvacuous : sane_rules bnf_rules /\ well_formed (grammar_of bnf_rules) /\ predictive_grammar (grammar_of bnf_rules) /\
  productive (grammar_of bnf_rules) /\
  parse_calls 99 (s_ "[1,[],[23]]") bnf_rules false = 57 /\ parse_calls 99 (s_ "[[[[[[[[") bnf_rules false = 84.
Proof.
  destruct C61_nonvacuous as (S & _ & WF & _ & PG & _). split; [exact S|]. split; [exact WF|]. split; [exact PG|].
  split; [apply (productive_check_ok [main; s_ "list"; s_ "item"]); [exact S|vm_compute; reflexivity]|].
  split; vm_compute; reflexivity.
Qed.

Print Assumptions C62_predictive_grammars_take_linear_time.
Print Assumptions C62_without_productive_refuted.
