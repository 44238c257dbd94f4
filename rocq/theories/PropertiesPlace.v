(** Properties: rules for which errors stand at the first wrong char. *)
From Verif Require Import Base ModelAst ModelParser SpecPeg SpecPos SpecApi SpecWf SpecBnf SpecPlace Examples.
From Verif Require Import ProofParser ProofEngine ProofApi ProofWf WfCheck ProofBnf ProofLinear ProofViable ProofPlace.

(** * C75 errors that stand at the first wrong char *)

(** Rules that ask for the end of the text: the last char before the reported place is the first wrong one.  What is before it can be
    continued to a text that the rules generate; with it, it cannot.  At the end of the text, it may also be that the text is too short. *)
Theorem C75_errors_stand_at_the_first_wrong_char : forall rs es fuel s debug er,
  sane_rules rs -> productive (grammar_of rs) -> predictive_grammar (grammar_of rs) -> steady rs ->
  grammar_of rs main = Some (And (es ++ [Simple AEOF])) -> ascii s -> parse_with_debug fuel s rs debug = Err er ->
  viable rs (firstn (pn (e_pos er) - 1) s) /\ (pn (e_pos er) < length s -> ~ viable rs (firstn (pn (e_pos er)) s)).
Proof. exact first_wrong_char_eof. Qed.

(** Rules that do not ask for the end of the text, on the texts of which they match no beginning. *)
Theorem C75_failures_stand_at_the_first_wrong_char : forall rs fuel s debug er,
  sane_rules rs -> productive (grammar_of rs) -> predictive_grammar (grammar_of rs) -> steady rs -> ascii s ->
  parse_with_debug fuel s rs debug = Err er -> (forall ts rest, ~ peg_main rs s (PMatch ts rest)) ->
  viable rs (firstn (pn (e_pos er) - 1) s) /\ (pn (e_pos er) < length s -> ~ viable rs (firstn (pn (e_pos er)) s)).
Proof. exact first_wrong_char. Qed.

(** Rules without repetitions, on all texts: if something is left over, the place is just before the first wrong char. *)
Theorem C75_leftovers_start_with_the_first_wrong_char : forall rs fuel s debug er,
  sane_rules rs -> productive (grammar_of rs) -> predictive_grammar (grammar_of rs) -> steady rs -> without_repetitions rs -> ascii s ->
  parse_with_debug fuel s rs debug = Err er ->
  (e_descr er = leftover_msg -> pn (e_pos er) < length s /\ viable rs (firstn (pn (e_pos er)) s) /\ ~ viable rs (firstn (pn (e_pos er) + 1) s)) /\
  (e_descr er <> leftover_msg -> viable rs (firstn (pn (e_pos er) - 1) s) /\ (pn (e_pos er) < length s -> ~ viable rs (firstn (pn (e_pos er)) s))).
Proof. exact first_wrong_char_plain. Qed.

(** If a repeated part can fail in its middle, the error can stand at the first char although any number of chars is right. *)
Theorem C75_unsteady_rules_refuted : forall k, exists rs s fuel er,
  sane_rules rs /\ productive (grammar_of rs) /\ predictive_grammar (grammar_of rs) /\ ascii s /\
  parse fuel s rs = Err er /\ (forall ts rest, ~ peg_main rs s (PMatch ts rest)) /\ pn (e_pos er) = 1 /\ k < length s /\ viable rs s.
Proof. exact forgotten_in_a_turn. Qed.

(** And if something is left over after a repetition. *)
Theorem C75_leftovers_after_repetitions_refuted : forall k, exists rs s fuel er,
  sane_rules rs /\ productive (grammar_of rs) /\ predictive_grammar (grammar_of rs) /\ steady rs /\ ascii s /\
  parse fuel s rs = Err er /\ pn (e_pos er) = 1 /\ k < length s /\ viable rs (firstn k s).
Proof. exact forgotten_at_the_end. Qed.

(** Lists of numbers and lists, up to the end of the text: [main = '[' list EOF], [list = item more], [more = ',' list / ']'],
    [item = [0-9]+ / '[' list]. *)
Definition place_rules : rules := rules_macro
  [ (main, And [lit (s_ "["); ref_rule (s_ "list"); Simple AEOF]);
    (s_ "list", And [ref_rule (s_ "item"); ref_rule (s_ "more")]);
    (s_ "more", Or [And [lit (s_ ","); ref_rule (s_ "list")]; lit (s_ "]")]);
    (s_ "item", Or [Repeat (ematch [] [(48%N, 57%N)]) 1 None; And [lit (s_ "["); ref_rule (s_ "list")]]) ].

(** The brackets are chars 91 and 93, the comma 44 and the digits 48 to 57. *)
Definition place_tables : list (str * info) :=
  [ (main, Info false [(91, Some 91)]%N [] true);
    (s_ "list", Info false [(91, Some 91); (48, Some 57)]%N [(44, Some 44); (93, Some 93)]%N true);
    (s_ "more", Info false [(44, Some 44); (93, Some 93)]%N [(44, Some 44); (93, Some 93)]%N true);
    (s_ "item", Info false [(91, Some 91); (48, Some 57)]%N [(44, Some 44); (93, Some 93)]%N false) ].

Example C75_nonvacuous : sane_rules place_rules /\ productive (grammar_of place_rules) /\ predictive_grammar (grammar_of place_rules) /\ steady place_rules /\
  grammar_of place_rules main = Some (And ([lit (s_ "["); ref_rule (s_ "list")] ++ [Simple AEOF])) /\
  (exists t, parse 99 (s_ "[1,[2,3],45]") place_rules = Ok t) /\
  (exists er, parse 99 (s_ "[1,[2,x3],45]") place_rules = Err er /\ pn (e_pos er) = 7) /\
  (exists er, parse 99 (s_ "[1,[2,3],45]]") place_rules = Err er /\ pn (e_pos er) = 13).
Proof.
  assert (S : sane_rules place_rules) by (apply sane_rules_all; repeat constructor).
  split; [exact S|]. split; [apply (productive_check_ok [main; s_ "list"; s_ "more"; s_ "item"]); [exact S|vm_compute; reflexivity]|].
  split; [apply (predictive_check_ok place_tables); vm_compute; reflexivity|].
  split; [apply steady_check_ok; [apply (solid_check_ok place_tables); vm_compute; reflexivity|vm_compute; reflexivity]|]. split; [reflexivity|].
  split; [eexists; vm_compute; reflexivity|]. split; eexists; (split; [vm_compute; reflexivity|reflexivity]).
Qed.

(** Without repetitions: [main = '[' list], [list = item more], [more = ',' list / ']'], [item = 'x' / '[' list]. *)
Definition plain_rules : rules := rules_macro
  [ (main, And [lit (s_ "["); ref_rule (s_ "list")]);
    (s_ "list", And [ref_rule (s_ "item"); ref_rule (s_ "more")]);
    (s_ "more", Or [And [lit (s_ ","); ref_rule (s_ "list")]; lit (s_ "]")]);
    (s_ "item", Or [lit (s_ "x"); And [lit (s_ "["); ref_rule (s_ "list")]]) ].

Definition plain_tables : list (str * info) :=
  [ (main, Info false [(91, Some 91)]%N [] true);
    (s_ "list", Info false [(91, Some 91); (120, Some 120)]%N [(44, Some 44); (93, Some 93)]%N true);
    (s_ "more", Info false [(44, Some 44); (93, Some 93)]%N [(44, Some 44); (93, Some 93)]%N true);
    (s_ "item", Info false [(91, Some 91); (120, Some 120)]%N [(44, Some 44); (93, Some 93)]%N false) ].

Example C75_nonvacuous_plain : sane_rules plain_rules /\ productive (grammar_of plain_rules) /\ predictive_grammar (grammar_of plain_rules) /\ steady plain_rules /\
  without_repetitions plain_rules /\
  (exists er, parse 99 (s_ "[x,[x,x]]") plain_rules = Ok er) /\
  (exists er, parse 99 (s_ "[x,[x,y]]") plain_rules = Err er /\ pn (e_pos er) = 7 /\ e_descr er <> leftover_msg) /\
  (exists er, parse 99 (s_ "[x]]") plain_rules = Err er /\ pn (e_pos er) = 3 /\ e_descr er = leftover_msg).
Proof.
  assert (S : sane_rules plain_rules) by (apply sane_rules_all; repeat constructor).
  split; [exact S|]. split; [apply (productive_check_ok [main; s_ "list"; s_ "more"; s_ "item"]); [exact S|vm_compute; reflexivity]|].
  split; [apply (predictive_check_ok plain_tables); vm_compute; reflexivity|].
  split; [apply steady_check_ok; [apply (solid_check_ok plain_tables); vm_compute; reflexivity|vm_compute; reflexivity]|].
  split; [apply no_turns_ok; vm_compute; reflexivity|].
  split; [eexists; vm_compute; reflexivity|].
  split; eexists; (split; [vm_compute; reflexivity|split; [reflexivity|]]); [discriminate|reflexivity].
Qed.

Print Assumptions C75_errors_stand_at_the_first_wrong_char.
Print Assumptions C75_failures_stand_at_the_first_wrong_char.
Print Assumptions C75_leftovers_start_with_the_first_wrong_char.
Print Assumptions C75_unsteady_rules_refuted.
Print Assumptions C75_leftovers_after_repetitions_refuted.
