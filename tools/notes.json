{
"C01": {"note": "ASCII texts and sane repetition bounds, as the property says; termination of parse coincides with existence of a PEG result."},
"C03": {"note": "Proved without the EOF atom; the clause about the EOF atom is the _refuted witness."},
"C06": {"note": "The two _refuted theorems are the witnesses the property mentions."},
"C13": {"note": "The property is false of the code; refuted by witnesses, and the exact law (degenerate bounds behave as normalised ones) is proved."},
"C15": {"note": "Divergence is: no amount of fuel gives a result."},
"C27": {"note": "Exact in both directions: rules_from_peg returns Ok on exactly the ASCII texts of SpecSyntax.grammar_text, with exactly the denoted bindings; print_grammar gives a text of every expressible grammar."},
"C29": {"note": "The unrestricted claim is false of the code (refuted by the two witnesses the property names); the exact criterion is proved."},
"C31": {"note": "The verbatim clause is false for backslashes (refuted), the exact law for single-quoted literals is proved."},
"C36": {"note": "For all token lists: the constructs named are those open where the consumer stopped, plus possibly the expected one."},
"C33": {"note": "Restricted as the property says to codable rule sets, and the restriction is exact: these are precisely the rule sets read back unchanged. The _refuted theorems are the witnesses the property names."},
"C34": {"note": "Closed statement about the crate's own text, by kernel computation; all iteration orders."},
"C44": {"note": "No hypothesis on text or rules; degenerate bounds through norm_rules, whose meaning is C13."},
"C45": {"note": "The two _refuted theorems are the witnesses the property names (compact must come last)."},
"C46": {"note": "Same fuel on both sides, so divergence is covered too; C46_capture_refuted is the witness for the side condition."},
"C47": {"note": "C47_termination_refuted is the witness that soundness cannot be completeness without well-formedness; C47_factor_out_a_common_end_refuted shows a tempting rewriting that is wrong."},
"C48": {"note": "Composes C27 and C44; no hypothesis on the rules, they come from the text."},
"C49": {"note": "C49_order_refuted is the witness that order matters between definitions of one name."},
"C50": {"note": "Exact: savable rule sets are those some text denotes."},
"C51": {"note": "C51_chains_refuted is the witness the property names. Debug escapes of unprintable non-ASCII chars are simplified (ModelDebug)."},
"C35": {"note": "Upper bound for the fuel (calls plus loop turns) and for the nesting of calls alone, and a matching lower bound for certain rules."},
"C52": {"note": "Cost is the number of calls of parse_expr, defined in ModelCost along the control flow of the model."},
"C54": {"note": "Calls of parse_expr while the text is parsed; the walk over the resulting tokens is C87 (linear)."},
"C55": {"note": "C55_confused_brackets_refuted and C55_order_matters_refuted are the limits the property names."},
"C56": {"note": "C56_line_comments_end_at_newline_refuted: the README grammar for comments, as written, differs from what the README says."},
"C60": {"note": "C60_the_reported_place_is_how_far_it_looked_refuted is the limit the property names."},
"C61": {"note": "C61_grammars_mean_bnf_refuted is the limit the property names. predictive_check and solid_check are sound computable checks of the two hypotheses, given tables for the rules."},
"C62": {"note": "C62_without_productive_refuted is the limit the property names. productive_check is a sound computable check of the last hypothesis."},
"C63": {"note": "C63_without_productive_refuted is the limit the property names. That the place can stand before the first wrong char is C60_the_reported_place_is_how_far_it_looked_refuted."},
"C65": {"note": "C65_separator_in_the_class_refuted is the limit the property names. The rules are those of a user, for every class and pair of separators; the example reads the same rules from a grammar text."},
"C66": {"note": "C66_any_order_refuted is the limit the property names. longer_first_check is a sound computable check of the order of the words."},
"C67": {"note": "C67_same_error_refuted is the limit the property names."},
"C68": {"note": "C68_bracket_in_the_class_refuted is the limit the property names."},
 "C69": {"note": "C69_operator_of_two_levels_refuted is the limit the property names."},
 "C70": {"note": ""},
 "C71": {"note": "C71_plain_combinations_refuted is the limit the property names."},
 "C72": {"note": "C72_equal_neighbours_refuted is the limit the property names. That no BNF grammar generates these texts is not part of the claim."},
 "C73": {"note": "C73_cut_out_pieces_refuted is the limit the property names."},
 "C74": {"note": "C74_other_order_refuted is the limit the property names."},
 "C75": {"note": "By induction on the reporting semantics: texts that share with the parsed one the chars up to the reported place generate nothing from the part that failed, and texts that share one char more than what matched generate only what matched. Combined with C63. The conditions are needed: two refuted theorems for every distance."},
 "C76": {"note": "The repetition of definitions in the reporting semantics: definitions before a text that begins one are read exactly (the syntax of SpecSyntax), and the report of the turn that gives up only depends on the rest. For arbitrary texts after the grammar, an induction on the last definition shows that every part of it either stops where it should or has read beyond it. The exception is refuted by a witness."},
 "C77": {"note": "The grammar text is SpecJson.json_grammar and is read by the model of rules_from_peg (computed once, for this text). SpecJson.json_text defines JSON independently of the grammar. Non-ASCII texts are excluded because parse accepts none of them (C06). Number values and escape sequences are kept as written, not interpreted."},
 "C78": {"note": "Rules with sane bounds (1 <= max, min <= max). clauses and placed are syntactic relations between rule sets (SpecClauses.v); no rule used in a predicate may be changed. For the last two claims the rules without clauses are also well-formed, predictive and productive (as in C61, C62). The example reads two grammar texts, without and with clauses."},
 "C79": {"note": "Rules made from tiles (tile_rules) accept a text iff the tiles are a solvable instance of Post's correspondence problem; same for the grammar text and for equality of accepted texts; the rules are well formed. The undecidability of Post's problem itself is not proved here."},
 "C80": {"note": "Shape of parsing_rules for every error, exact for leftover text; two refuted theorems show that the list is not the documented path and does not tell which rules failed."},
 "C81": {"note": "Equivalence of left recursion and repetition for the BNF reading (texts and trees), and with C61 for parse; divergence of the left-recursive rules; bases written first never repeat."},
 "C82": {"note": "Rules for any regular expression, with everything that follows copied into each alternative; as rules and as grammar text. Soundness, a counterexample to completeness, and divergence for the symbol by symbol transcription."},
 "C83": {"note": "Reductions from acceptance to hanging, to a message and to dropping an alternative, for any rules; with C79, from Post's correspondence problem. Undecidability of Post's problem itself is not formalised."},
 "C84": {"note": "Calls are counted by ModelCost. The deterministic rules can be exponentially larger than the expression (subset construction); their size is not bounded by a theorem."},
 "C85": {"note": "Error positions and texts may change where alternatives are added; the first theorem speaks of trees, errors and aborts."},
 "C86": {"note": "The exact law without a mark is proved for one char; for more chars soundness and a counterexample."},
 "C87": {"note": "Counted are the calls of consuming_rule and of the recursive rec_consume functions, in a copy of the token consumer that returns a tally next to its result (ModelWalk); that the copy returns what the consumer returns is the first theorem. The calls made while the text is parsed are C54, their nesting C35."},
 "C88": {"note": "interchangeable is C47's: same trees, errors for the same texts, same aborts; which message a plain error carries may differ."},
 "C89": {"note": "Work is counted in copies of the tools that return a cost next to their result (ModelTools); that they return what the tools return is the first theorem. Comparisons with the given names and the growing of Vecs are not counted; ipush and iappend of the idata crate are taken to move only what they add."},
 "C90": {"note": "Counted by ModelCopy, which follows the control flow of the engine. Chars only: the fixed number of words of a clone is proportional to the calls, which C62 bounds."},
 "C91": {"note": "Automata with a stack that read a char in each move; moves that read nothing are not covered, and no tree or cost is claimed."},
 "C92": {"note": "Sane rule sets (C13 says what the others mean). The tool theorems hold for all trees, so they chain."},
 "C93": {"note": "Calls and nesting are those of ModelCost (C35, C52). Recursive rules can need exponential time (C52) and any stack (C35)."},
 "C94": {"note": "The rule for an automaton grows exponentially with its states: it shows what can be said, not how to say it. With recursion rules for automata are small (C70)."},
 "C95": {"note": "Statements of the form {s | ..} + {forall s, ..}: without axioms such a proof is a program. It searches all texts up to the number of states of the automaton, so it is not meant to be run."},
 "C96": {"note": "SpecLines says what it means that an expression does not mind a char, what the lines of a text are and what it is to read a line alone. The semantics in front of the line end is shown equal to the semantics at the end of the text, for matches, reports and costs; the loop is then followed line by line. Three theorems with the suffix _refuted show that the conditions on the empty text and on the line rule are needed and that the exception about rows is real."},
 "C97": {"note": "SpecLexer says what the first rule at a place and the tokens of a text are, in terms of the semantics of the token rules alone, without main. Theorems with the suffix _refuted show that the order of the rules and empty tokens matter."},
 "C98": {"note": "General reductions (hanging, messages, missing rules, marks) for all rules; instances for tiles in both directions; tools as arbitrary functions rules -> bool. That Post's problem itself has no program (Post 1946) is not proved here. The diagonal theorem on grammar texts is proved outright."},
 "C99": {"note": "For all rules and texts; acceptance, tree, rejection, message and ending of the search are each an equivalence."},
 "C100": {"note": "For all marks and texts; the counting specification does not mention the rules. Calls are counted as in C52."},
 "C101": {"note": "For all kinds and texts. The stack reader is a separate specification that does not mention rules; kinds may share a closing mark."},
 "C102": {"note": "For all rules, lines and both debug modes: the whole tree for a text with bad lines, that every line gives one thing, the end of the last line, messages, termination and the number of calls. A variant of the rules is refuted."},
 "C103": {"note": "For all rules, all maps of chars and all ASCII texts: acceptance and trees in both directions, messages, termination, calls, and two consequences. That rules may be written with capital letters is refuted."},
 "C104": {"note": "For all rules where the next char decides: exchange of nodes between trees, edits parsed by the rule of the node alone, and what happens to the text. The claim for rules in general is refuted."},
 "C105": {"note": "For all rules and all codes without words that start others: acceptance and trees in both directions for all texts, uniqueness of what a text counts as, messages, termination and calls. The condition on words is shown to be needed."},
 "C106": {"note": "A congruence for arbitrary replacements (soundness for any rewriting, exactness for rewritings that go both ways or to well formed rules), and its instances: helper rules, literals, both recursions, pruned rules. Two witnesses show where it ends."},
 "C107": {"note": "fault computes the whole error from the tree; first_defect is the same as a relation (path to the first defect, everything to the left is free of defects). The syntax errors of the parser are the subject of C15, C22 and the theorems about parse."},
 "C108": {"note": "history is an inductive definition over all ways to build a rule set, with arbitrary reordering of the entries at any time for the unspecified iteration order of HashMap. A rule set read from a PEG text contributes its own bindings as definitions; which bindings those are is the subject of the theorems about rules_from_peg."},
 "C109": {"note": "stm is the ambiguous syntax, nearest the rule that settles it; awaits is a second description of the accepted texts that only counts. The work is counted in calls of parse_expr (ModelCost)."},
 "C110": {"note": "csv_rules is what rules_from_peg gives for the grammar text (first theorem). A cell is a field as it is written, content what it says; write is one way to choose the quotes. Inputs are ASCII; the work is counted in calls of parse_expr (ModelCost)."},
 "C111": {"note": "visit and visit_nodes are programs of a user, written with the modelled helpers only; fold_node is the recursion they are compared with, over any type of results and any partial functions. Fuel bounds the nesting of the programs; one more than the number of tokens or nodes is enough."},
 "C112": {"note": "calculate is a program of a user, written with the modelled functions of the crate only; denotes is a grammar with values over texts, generic in the numbers and operations. Fuel is one number for all the stages; theorems say that some fuel gives the answer, and that no fuel gives another one."},
 "C113": {"note": "read_json is a program of a user, written with the modelled functions of the crate only. Strings and numbers are given as written. Some fuel gives the answer and no fuel gives another one."},
 "C114": {"note": "All lists of bounds, all separators that are no digits; the rules are built with the macros. The numbers are written as usize::to_string writes them."},
 "C115": {"note": "All lists of words without the mark; the rules are built with the macros."},
 "C116": {"note": "All lists of words. Calls are those of C52 and C54."},
 "C117": {"note": "Pumping lemma for derives (SpecBnf), for all rules, with a bound on the distance of the two parts; through C61 for accepted texts of predictive rules; impossibility of three equal numbers and of copies for both; the rules of C72 refute it for rules with predicates."},
 "C118": {"note": "Both rule shapes at once (with and without the separator at the end). Acceptance with the exact tree, termination, messages and the place of the error, each in terms of parsing one field alone; two refuted variants. A text that field_rules reject with an empty last field after others, under trail_rules, is covered by the acceptance theorem."},
 "C119": {"note": "Pretty output of the public types; the derives and std's builders are modelled in ModelPretty.v."},
 "C120": {"note": "Together with the statement that every text stops somewhere, the theorems give the result of the parse on every ASCII text."}
}
