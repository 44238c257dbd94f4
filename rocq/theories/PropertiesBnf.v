(** Properties: the BNF reading of a grammar. *)
From Coq Require Import Permutation.
From Verif Require Import Base ModelAst ModelParser SpecPeg SpecPos SpecApi SpecWf SpecBnf Examples.
From Verif Require Import ProofParser ProofEngine ProofApi ProofWf WfCheck ProofBnf.

(** * C61 when a grammar means what it means as BNF *)

(** What is accepted is generated by the grammar read as BNF, with the same tree. *)
Theorem C61_accepted_texts_are_generated : forall rs fuel s debug t, sane_rules rs ->
  parse_with_debug fuel s rs debug = Ok t -> derives (grammar_of rs) (RuleName main) s [t].
Proof. exact accepted_derives. Qed.

(** If the next char always tells what to do, everything that is generated is accepted. *)
Theorem C61_predictive_grammars_mean_bnf : forall rs s debug fuel t,
  sane_rules rs -> well_formed (grammar_of rs) -> predictive_grammar (grammar_of rs) -> ascii s -> depth_factor rs * (length s + 1) <= fuel ->
  parse_with_debug fuel s rs debug = Ok t <-> derives (grammar_of rs) (RuleName main) s [t].
Proof. exact predictive_parse. Qed.

(** And everything else is rejected with an error. *)
Theorem C61_predictive_grammars_reject_the_rest : forall rs s debug fuel,
  sane_rules rs -> well_formed (grammar_of rs) -> predictive_grammar (grammar_of rs) -> ascii s -> depth_factor rs * (length s + 1) <= fuel ->
  (exists er, parse_with_debug fuel s rs debug = Err er) <-> ~ exists ts, derives (grammar_of rs) (RuleName main) s ts.
Proof. exact predictive_rejects. Qed.

(** Each text then has one tree at most. *)
Theorem C61_predictive_grammars_are_unambiguous : forall rs s ts us,
  sane_rules rs -> well_formed (grammar_of rs) -> predictive_grammar (grammar_of rs) -> ascii s ->
  derives (grammar_of rs) (RuleName main) s ts -> derives (grammar_of rs) (RuleName main) s us -> ts = us.
Proof. exact predictive_unambiguous. Qed.

(** And the order of the alternatives does not matter, if none of them can be empty. *)
Theorem C61_order_of_alternatives_is_irrelevant : forall rs rs',
  sane_rules rs -> well_formed (grammar_of rs) -> predictive_grammar (grammar_of rs) -> solid_choices (grammar_of rs) ->
  reordered_grammar (grammar_of rs) (grammar_of rs') ->
  forall s, ascii s -> forall t, (exists fuel, parse fuel s rs = Ok t) <-> (exists fuel, parse fuel s rs' = Ok t).
Proof. exact reordering_is_harmless. Qed.

(** In general the order matters, and a grammar generates texts that it does not accept. *)
Theorem C61_grammars_mean_bnf_refuted : exists rs rs' s t, sane_rules rs /\ sane_rules rs' /\
  well_formed (grammar_of rs) /\ well_formed (grammar_of rs') /\ reordered_grammar (grammar_of rs) (grammar_of rs') /\ ascii s /\
  derives (grammar_of rs) (RuleName main) s [t] /\ (forall fuel t', parse fuel s rs <> Ok t') /\ exists fuel, parse fuel s rs' = Ok t.
Proof. exact prefixes_hide. Qed.

(** Lists of numbers and lists: a list is a pair of square brackets around items with commas between them; an item is a list or a number. *)
Definition bnf_rules : rules := rules_macro
  [ (main, And [ref_rule (s_ "list")]);
    (s_ "list", And [lit (s_ "["); Repeat (And [ref_rule (s_ "item"); Repeat (And [lit (s_ ","); ref_rule (s_ "item")]) 0 None]) 0 (Some 1); lit (s_ "]")]);
    (s_ "item", Or [ref_rule (s_ "list"); Repeat (ematch [] [(48%N, 57%N)]) 1 None]) ].
Definition bnf_rules' : rules := rules_macro
  [ (main, And [ref_rule (s_ "list")]);
    (s_ "list", And [lit (s_ "["); Repeat (And [ref_rule (s_ "item"); Repeat (And [lit (s_ ","); ref_rule (s_ "item")]) 0 None]) 0 (Some 1); lit (s_ "]")]);
    (s_ "item", Or [Repeat (ematch [] [(48%N, 57%N)]) 1 None; ref_rule (s_ "list")]) ].

(** The brackets are chars 91 and 93, the comma 44 and the digits 48 to 57. *)
Definition bnf_tables : list (str * info) :=
  [ (main, Info false [(91, Some 91)]%N [] true);
    (s_ "list", Info false [(91, Some 91)]%N [(44, Some 44); (93, Some 93)]%N true);
    (s_ "item", Info false [(91, Some 91); (48, Some 57)]%N [(44, Some 44); (93, Some 93)]%N false) ].

Example C61_nonvacuous : sane_rules bnf_rules /\ sane_rules bnf_rules' /\ well_formed (grammar_of bnf_rules) /\ well_formed (grammar_of bnf_rules') /\
  predictive_grammar (grammar_of bnf_rules) /\ solid_choices (grammar_of bnf_rules) /\
  reordered_grammar (grammar_of bnf_rules) (grammar_of bnf_rules') /\ ascii (s_ "[1,[],[23]]") /\
  (exists fuel t, parse fuel (s_ "[1,[],[23]]") bnf_rules = Ok t) /\ (exists fuel er, parse fuel (s_ "[1,]") bnf_rules = Err er).
Proof.
  split; [apply sane_rules_all; repeat constructor|]. split; [apply sane_rules_all; repeat constructor|].
  split; [apply wf_check_sound; vm_compute; reflexivity|]. split; [apply wf_check_sound; vm_compute; reflexivity|].
  split; [apply (predictive_check_ok bnf_tables); vm_compute; reflexivity|].
  split; [apply (solid_check_ok bnf_tables); vm_compute; reflexivity|].
  split; [|split; [repeat constructor|]].
  - apply reordered_rules. cbn [bnf_rules bnf_rules' rules_macro map]. vm_compute.
    repeat constructor; cbn [fst snd]; try apply ro_same.
    eapply ro_or; [apply perm_swap|]. repeat constructor.
  - split; [exists 60|exists 60]; eexists; vm_compute; reflexivity.
Qed.

Print Assumptions C61_accepted_texts_are_generated.
Print Assumptions C61_predictive_grammars_mean_bnf.
Print Assumptions C61_predictive_grammars_reject_the_rest.
Print Assumptions C61_predictive_grammars_are_unambiguous.
Print Assumptions C61_order_of_alternatives_is_irrelevant.
Print Assumptions C61_grammars_mean_bnf_refuted.
