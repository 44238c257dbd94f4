(** Properties: errors and the texts that the rules generate. *)
From Verif Require Import Base ModelAst ModelParser SpecPeg SpecPos SpecApi SpecWf SpecBnf Examples.
From Verif Require Import ProofParser ProofEngine ProofApi ProofWf WfCheck ProofBnf ProofLinear ProofViable PropertiesBnf.

(** * C63 the text before an error can be right *)

(** Except for its last char, the text before the reported place is the beginning of a text that the rules generate, read as BNF. *)
Theorem C63_the_text_before_an_error_can_be_continued : forall rs fuel s debug er,
  sane_rules rs -> productive (grammar_of rs) -> grammar_of rs main <> None -> ascii s ->
  parse_with_debug fuel s rs debug = Err er ->
  e_priority er = Normal /\
  exists w ast, derives (grammar_of rs) (RuleName main) w [ast] /\ firstn (pn (e_pos er) - 1) w = firstn (pn (e_pos er) - 1) s.
Proof. exact errors_follow_good_text. Qed.

(** If no generated text starts with [p], what comes after [p] is never blamed: an error stands in [p] or just after it. *)
Theorem C63_errors_stand_no_later_than_the_first_wrong_char : forall rs fuel p x debug er,
  sane_rules rs -> productive (grammar_of rs) -> grammar_of rs main <> None -> ascii (p ++ x) ->
  (forall u ast, ~ derives (grammar_of rs) (RuleName main) (p ++ u) [ast]) ->
  parse_with_debug fuel (p ++ x) rs debug = Err er -> pn (e_pos er) <= length p.
Proof. exact errors_not_beyond. Qed.

(** Not if some parts of the rules cannot match anything. *)
Theorem C63_without_productive_refuted : forall k, exists rs s fuel er,
  sane_rules rs /\ ascii s /\ parse fuel s rs = Err er /\ k < pn (e_pos er) /\
  forall u ast, ~ derives (grammar_of rs) (RuleName main) ([] ++ u) [ast].
Proof. exact dead_end. Qed.

(** [main = 'ab' ('c' / 'd')+ !'x' .]: one of the texts that it generates goes on after "abcd". *)
Definition viable_rules : rules :=
  rules_macro [(main, And [lit (s_ "ab"); Repeat (Or [lit (s_ "c"); lit (s_ "d")]) 1 None; Not (lit (s_ "x")); Simple Dot])].

Example C63_nonvacuous : sane_rules viable_rules /\ productive (grammar_of viable_rules) /\ grammar_of viable_rules main <> None /\
  (exists er, parse 9 (s_ "abcd") viable_rules = Err er /\ pn (e_pos er) = 4) /\
  (exists er, parse 9 (s_ "acd") viable_rules = Err er /\ pn (e_pos er) = 2) /\
  (forall u ast, ~ derives (grammar_of viable_rules) (RuleName main) (s_ "ac" ++ u) [ast]).
Proof.
  assert (S : sane_rules viable_rules) by (apply sane_rules_all; repeat constructor).
  split; [exact S|]. split; [apply (productive_check_ok [main]); [exact S|vm_compute; reflexivity]|]. split; [discriminate|].
  split; [eexists; split; vm_compute; reflexivity|]. split; [eexists; split; vm_compute; reflexivity|].
  intros u ast D. inversion D as [| | | | | | | | | |n e w ts E B]; subst. injection E as <-. inversion B as [| | | | |e es w v t1 t2 B1 B2 E1| | | | |]; subst.
  inversion B1; subst. discriminate.
Qed.

(** The lists of C61: the error stands after the comma, where "]" was expected, although the first wrong char is the x. *)
Example C63_nonvacuous_lists : productive (grammar_of bnf_rules) /\ (exists er, parse 99 (s_ "[1,[],[x]]") bnf_rules = Err er /\ pn (e_pos er) = 6).
Proof.
  split; [apply (productive_check_ok [main; s_ "list"; s_ "item"]); [exact (proj1 C61_nonvacuous)|vm_compute; reflexivity]|].
  eexists; split; vm_compute; reflexivity.
Qed.

Print Assumptions C63_the_text_before_an_error_can_be_continued.
Print Assumptions C63_errors_stand_no_later_than_the_first_wrong_char.
Print Assumptions C63_without_productive_refuted.
