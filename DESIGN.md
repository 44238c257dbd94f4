# Formal model of jleahred/dynparser in Rocq (Coq 8.16.1)

## Layout

Everything is in `rocq/theories`. Models and specifications contain no proofs; property files contain only statements
closed by a lemma, a `Print Assumptions` and a concrete case.

| file | content |
| --- | --- |
| `Base.v` | chars (Unicode scalars, `N`), strings, UTF-8 lengths, byte slicing, outcome type |
| `ModelAst.v` | `src/ast/mod.rs`, `src/ast/flat.rs` |
| `ModelParser.v` | `src/parser/*`, `src/lib.rs` (rule sets, status, atoms, expressions, parse, parse_debug, macros) |
| `ModelPegRules.v` | `src/peg/rules.rs` (the built-in PEG grammar, as data; generated by `tools/gen_pegrules.py`) |
| `ModelPeg.v` | `src/peg/mod.rs` (token consumer, `rules_from_peg`, errors) |
| `ModelGcode.v`, `ModelPeg2code.v`, `ModelMain.v` | `src/peg/gcode.rs`, `src/peg/peg2code.rs`, `src/main.rs` |
| `ModelDebug.v` | derived `Debug` and hand-written `Display` output of the public types |
| `ModelPretty.v` | the pretty `Debug` output (`{:#?}`) of the public types, with and without trailing commas |
| `ModelCost.v` | number and nesting of the calls the parser makes (same control flow as `ModelParser.v`) |
| `SpecPeg.v` | PEG semantics with trees and `error(..)` (C01 C02 C07 C08 C39 C40) |
| `SpecReport.v`, `SpecPanic.v` | the same with error reports, and with panics (C20 C41 C44) |
| `SpecPos.v`, `SpecApi.v`, `SpecCombinators.v` | positions, API vocabulary, runs of single combinators |
| `SpecWf.v` | well-formed rule sets (C14 C35 C52 C53) |
| `SpecAst.v` | trees, tokens and the AST tools |
| `SpecSyntax.v`, `SpecPegApi.v`, `SpecText.v` | concrete syntax of grammar texts and its meaning, printing, saving |
| `SpecRust.v` | how Rust reads the generated code |
| `SpecRename.v`, `SpecRefactor.v`, `SpecCost.v` | renaming, replacing equivalent parts, sizes and an expensive grammar |
| `Examples.v` | concrete grammars used by non-vacuity examples |
| `SpecLang.v`, `ProofLang.v`, `ProofIdioms.v`, `PropertiesIdioms.v` | languages of expressions (outcomes without trees), rewriting rules, the idioms of the documentation (C55) |
| `SpecDocs.v`, `ProofDocs.v`, `ProofCalc.v`, `PropertiesDocs.v` | the grammar texts of the documentation and what each accepts, with its trees (C56) |
| `ProofRunDet.v`, `ProofCalcCost.v`, `ProofCalcLean.v`, `PropertiesDocCost.v` | what the documented calculator costs, and how to mend it (C57) |
| `SpecHang.v`, `ProofHang.v`, `PropertiesHang.v` | exactly when parsing never returns, and the depth of every parse that does (C58) |
| `ModelClass.v`, `ProofClass.v`, `PropertiesClass.v` | `MatchRules`, `RepInfo`, `NRep` and their constructors; character classes as sets (C59) |
| `SpecLook.v`, `ProofLook.v`, `PropertiesLook.v` | which chars a parse looks at, and that nothing else matters (C60) |
| `SpecBnf.v`, `ProofBnf.v`, `PropertiesBnf.v` | the BNF reading of a grammar, and when it is the PEG reading (C61) |
| `ProofLinear.v`, `PropertiesLinear.v` | the linear cost of predictive grammars (C62) |
| `ProofViable.v`, `PropertiesViable.v` | errors and the texts that the rules generate (C63) |
| `SpecStuck.v`, `ProofStuck.v`, `PropertiesStuck.v` | obstacles: what stops a parse, where, and after which rules (C64) |
| `SpecTable.v`, `ProofTable.v`, `PropertiesTable.v` | a family of rule sets for tables (rows of fields), read exactly (C65) |
| `SpecWords.v`, `ProofWords.v`, `PropertiesWords.v` | words that are not reserved (C66) |
| `SpecBlanks.v`, `ProofBlanks.v`, `PropertiesBlanks.v` | the amount of blanks, and parsing as if blanks were removed (C67) |
| `SpecNested.v`, `ProofNested.v`, `PropertiesNested.v` | nested lists of words are read exactly (C68) |
| `SpecOps.v`, `ProofOps.v`, `PropertiesOps.v` | formulas with any number of levels of operators are read exactly (C69) |
| `SpecPower.v`, `ProofPower.v`, `PropertiesPower.v` | finite automata as rules, combinations of parsers, three equal numbers (C70–C72) |
| `SpecPieces.v`, `ProofPieces.v`, `PropertiesPieces.v` | pieces of trees are what their rules give alone (C73) |
| `SpecQuoted.v`, `ProofQuoted.v`, `PropertiesQuoted.v` | quoted strings are read exactly (C74) |
| SpecPlace.v, ProofPlace.v, PropertiesPlace.v | errors at the first wrong char (C75) |
| `SpecSwap.v`, `ProofSwap.v`, `ProofTill.v`, `ProofLongest.v` | what parsing gives with rules where a part is exchanged for another (C47, C55, C59), and rule sets made of one idiom (C55, C59, C66) |
| SpecLocal.v, ProofLocal.v, ProofBlame.v, PropertiesLocal.v | where syntax errors of grammar texts stand (C76) |
| `SpecJson.v`, `ProofJson.v`, `PropertiesJson.v` | C77: a grammar text for JSON, JSON defined after json.org, and that they agree |
| `SpecClauses.v`, `ProofClauses.v`, `PropertiesClauses.v` | C78: adding error clauses to rules |
| `SpecTiles.v`, `ProofTiles.v`, `PropertiesTiles.v` | C79: rules made from tiles (Post's correspondence problem) |
| `SpecTrail.v`, `ProofTrail.v`, `PropertiesTrail.v` | C80: the rules listed in an error |
| `SpecLeft.v`, `ProofLeft.v`, `PropertiesLeft.v` | C81: left recursion and what to write instead |
| `SpecRegex.v`, `ProofRegex.v`, `PropertiesRegex.v` | C82: regular expressions |
| `SpecGuard.v`, `ProofGuard.v`, `PropertiesGuard.v` | C83: hangs, messages and alternatives are as hard to predict as acceptance |
| `SpecSpeed.v`, `ProofSpeed.v`, `PropertiesSpeed.v` | C84: the time automata and regular expressions take |
| `SpecGrow.v`, `ProofGrow.v`, `PropertiesGrow.v` | C85: what growing rules keep |
| `SpecMirror.v`, `ProofMirror.v`, `PropertiesMirror.v` | C86: texts that are read the same from both ends |
| `ModelWalk.v`, `ProofWalk.v`, `ProofWalkLow.v`, `PropertiesWalk.v` | C87: calls of the token consumer, how many and how deeply nested |
| `SpecOrder.v`, `ProofOrder.v`, `PropertiesOrder.v` | C88: the order of the literals in a choice |
| `ModelTools.v`, `SpecTools.v`, `ProofTools.v`, `ProofToolsApi.v`, `PropertiesTools.v` | C89: work and nesting of the AST tools |
| `SpecCopy.v`, `ModelCopy.v`, `ProofCopy.v`, `ProofCopyApi.v`, `PropertiesCopy.v` | chars copied by errors, clones, traces and nodes; upper bounds by lines and calls, quadratic examples (C90) |
| `SpecStack.v`, `ProofStack.v`, `PropertiesStack.v` | automata with a stack and the rules made from them (C91) |
| `SpecShape.v`, `ProofShape.v`, `PropertiesShape.v` | which children the nodes of a tree can have (C92) |
| `SpecLoops.v`, `ProofLoops.v`, `PropertiesLoops.v` | time and stack of rules without recursion (C93) |
| `SpecRegular.v`, `ProofFinite.v`, `ProofRegular.v`, `PropertiesRegular.v` | rules without recursion and regular languages (C94) |
| `ProofDecide.v`, `PropertiesDecide.v` | questions about rules without recursion that a program can answer (C95) |
| `SpecLines.v`, `ProofLines.v`, `PropertiesLines.v` | Texts that are read line by line. |
| `SpecLexer.v`, `ProofLexer.v`, `PropertiesLexer.v` | Rules as a lexer. |
| `SpecHard.v`, `ProofHard.v`, `PropertiesHard.v` | questions about rules that are as hard as Post's problem (C98) |
| `SpecSearch.v`, `ProofSearch.v`, `PropertiesSearch.v` | searching a text for the matches of a rule (C99) |
| `SpecComments.v`, `ProofComments.v`, `ProofComments2.v`, `PropertiesComments.v` | nested comments (C100) |
| `SpecBlocks.v`, `ProofBlocks.v`, `PropertiesBlocks.v` | blocks with several kinds of marks (C101) |
| `SpecRecover.v`, `ProofRecover.v`, `PropertiesRecover.v` | rules that set bad lines aside (C102) |
| `SpecCase.v`, `ProofCase.v`, `PropertiesCase.v` | rules that ignore case, or any difference between chars (C103) |
| `SpecEdit.v`, `ProofEdit.v`, `PropertiesEdit.v` | exchanging pieces of trees and texts (C104) |
| `SpecCodes.v`, `ProofCodes.v`, `PropertiesCodes.v` | rules for texts of words, from rules for texts of chars (C105) |
| `SpecViews.v`, `ProofViews.v`, `PropertiesViews.v` | rules that differ only in what prune, pass_through_except and compact take away (C106) |
| `SpecFault.v`, `ProofFault.v`, `PropertiesFault.v` | the complete error of grammar texts with a defect (C107) |
| `SpecHistory.v`, `ProofHistory.v`, `PropertiesHistory.v` | all histories that build rule sets (C108) |
| `SpecElse.v`, `ProofElse.v`, `ProofElse2.v`, `PropertiesElse.v` | statements with an optional branch (C109) |
| `SpecCsv.v`, `ProofCsv.v`, `ProofCsvCost.v`, `ProofCsvError.v`, `PropertiesCsv.v` | CSV files, from the grammar text to the table (C110) |
| `SpecVisit.v`, `ProofVisit.v`, `PropertiesVisit.v` | programs that walk over trees and tokens with the helpers (C111) |
| `SpecEval.v`, `ProofEval.v`, `PropertiesEval.v` | a calculator from text to value (C112) |
| `SpecDecode.v`, `ProofDecode.v`, `PropertiesDecode.v` | a JSON reader from text to value (C113) |
| `SpecRange.v`, `ProofRange.v`, `PropertiesRange.v` | numbers up to given bounds (C114) |
| `SpecOnce.v`, `ProofOnce.v`, `PropertiesOnce.v` | options in any order (C115) |
| `SpecTrie.v`, `ProofTrie.v`, `PropertiesTrie.v` | a choice of words as a tree of chars (C116) |
| `ProofPump.v`, `ProofPump2.v`, `ProofPump3.v`, `PropertiesPump.v` | long generated and accepted texts repeat (C117) |
| `SpecFields.v`, `ProofFields.v`, `ProofFields2.v`, `PropertiesFields.v` | fields with separators between them (C118) |
| `SpecLayout.v`, `ProofLayout.v`, `PropertiesLayout.v` | layout of the pretty output: nested values are printed as alone, moved to the right |
| `SpecRecords.v`, `ProofRecords.v`, `PropertiesRecords.v` | records of fixed width |
| `ConformancePeg.v`, `Conformance.v` | the repository's own unit tests and documented examples, evaluated on the model (tests of the model, not proofs of properties; the first is generated by `tools/gen_conformance.py`) |
| `Peg*.v`, `Proof*.v`, `WfCheck.v`, `WfComplete.v` | proofs |
| `Properties*.v` | the property theorems |

`tools/` holds the generators of `properties.jsonl`, `MANIFEST.json` and the two data files; `seeded/LOG.jsonl` the seeded bugs.

## Modelling decisions

* `char` is a Unicode scalar value in `N`; a Rust `String`/`&str` is `list char`. Byte offsets are
  modelled explicitly (`utf8_len`, `byte_len`, `slice`), because `Error::from_status` slices by
  a char count and `parse_with_debug` compares a char count with a byte length.
* A panic is an explicit outcome `Panic`; non-termination / unbounded recursion is `Fuel` (out of fuel).
  Theorems exclude `Fuel` explicitly or state termination (`exists fuel, ...`). Results do not depend on
  the fuel once it suffices (proved: `fuel` monotonicity).
* `usize` counters are `nat`: they are bounded by the text length (Rust strings are shorter than 2^63).
* `HashMap` is an association list with unique keys; wherever iteration order is observable the theorem
  quantifies over all permutations.
* `idata` (external crate): `ipush`, `iappend`, `ipop`, `tail_call`, `consume_char` modelled by their
  documented behaviour (push at end, append, pop last, loop, uncons).
* `{:?}` of chars/strings in error descriptions and Debug output: the escapes of Rust's `escape_debug` for chars below 256; other
  chars print as themselves (Rust escapes the unprintable and combining ones).
* Stack overflow and allocation are not modelled; the nesting of calls is bounded by theorems instead (C35).
* `{:#?}` (pretty Debug) is modelled in both layouts: with trailing commas (Rust 1.38 and later) and without (as in README.md).
* Unused code is not modelled: the marker type `Started`, the commented-out code of `main.rs` and `rules.rs`.
* `src/main.rs` and `print_rules2parse_peg` are modelled by what they print, for every iteration order of the map.

## Trusted base

* Coq 8.16.1's kernel (and its `vm_compute` conversion, used in closed computations). `Print Assumptions` stands after every
  property theorem; each prints "Closed under the global context": no axiom, not even of the standard library.
* Only the Coq standard library is imported. `coqchk` lists seven parameters of the module type
  `Coq.ssr.ssrunder.Under_rel`, loaded with the standard library's ssreflect plugin files; no theorem depends on them.
* The correspondence between `/repo` and the `Model*.v` files, definition by definition, as cited in their comments. The crate
  was not built or run. What the standard library and the `idata` crate do is taken from their documentation.
* The specifications in `Spec*.v` say what the English properties mean.

## Properties and plan

| id | model / proof technique |
| --- | --- |
| C01 C02 | `SpecPeg.peg` big-step relation; refinement of the engine both ways (soundness by induction on fuel, completeness by induction on the derivation) |
| C03 C38 C40 | induction on the derivation / engine |
| C04 C05 | state invariant (position = function of consumed prefix) preserved by the engine |
| C06 | invariant `n <= chars consumed`, plus `_refuted` witnesses |
| C07 C08 C20 | refinement with 3-valued outcome (match / fail / abort) |
| C09-C12 C21 | case analysis / induction on the loops, for all states |
| C13 | `_refuted` witnesses + exact law |
| C14 C35 | static checker with nullable set and rank, explicit linear fuel bound, induction on it |
| C15 | induction on fuel |
| C16 | checker evaluated on the built-in grammar + consumer termination on all token lists + no panic |
| C17 C18 | simulation between two runs |
| C19 | finite map laws |
| C22-C26 | structural induction on trees, independent token-stream specifications |
| C27 C28 C31 C32 | concrete syntax relation (abstract grammar, text); induction; PEG derivations for the built-in grammar |
| C29 C30 C37 | inversion of derivations of the built-in grammar |
| C33 C34 | reader for the generated code; round trip; closed computation |
| C36 | induction |
| C39 | corollary of the refinement |
| C41 C44 | second and third refinement, engine against the semantics with reports and with panics, both directions, all texts |
| C42 C43 | inversion of derivations of the built-in grammar with reports; error paths of the consumer |
| C45 | structural induction on trees; witnesses for the orders that do not commute |
| C46 C47 | simulation between two rule sets; congruence of the PEG semantics under replacement |
| C48 | composition of C27 and C44 |
| C49 C50 | laws of the bindings of a text; printing a rule set and reading it back |
| C51 | printers are prefix free; induction on values |
| C52 C53 | cost functions along the control flow; ranks of the well-formedness proof as potential; an explicit expensive family |
| C54 | a cost relation over the PEG semantics that refines `tally`; amortised bound for each rule of the built-in grammar (a match pays with what it consumed, a failure costs linear time); an explicit family for the lower bound |
| C55 | `same_language` drops the trees from PEG outcomes; congruence by induction on the expression, rules by induction on derivations of the rewritten rules, exactness from termination of well formed rules; each idiom by induction on the derivation or on the text |
| C56 | each documented text is read by computation; the PEG derivations of its rules are then characterised in both directions (induction on the expression written, strong induction on the length of the text), and transferred to `parse` by C01 |
| C57 | the cost relation of C54 is deterministic; runs are built along the expression (linear, open parentheses) or, without the redundant alternative, by strong induction on the text, with an amortised bound that separates matches that end before an operator |
| C58 | the PEG semantics as a function with a depth limit; the tasks (part of a rule, rest of the text) are finitely many and the needed ones take strictly less depth, so an evaluation that ends has depth at most their number, and one that does not runs into a task twice |
| C59 | each law is an equality of outcomes on every text, through the set of chars an expression picks |
| C60 | the tasks that come up (C58) and the chars their atoms compare; induction on the reporting semantics relates the results on two tails |
| C61 | a derivation relation without priorities; matches are derivations by induction on the PEG semantics; conversely by induction on derivations for grammars where the next char decides, totality of well-formed grammars (C35) giving the failures |
| C62 | amortised induction on the runs of C54: an expression that cannot start here costs a constant; otherwise it pays with the chars it consumes or gets stuck before a char that cannot follow, after which everything is constant |
| C63 | induction on the semantics with reports: each report stands at most one char after a part that the expression can go on from, since what is still missing generates something |
| C64 | `stuck`/`refuses` say which obstacles a parse reaches; induction on the semantics with reports shows that every report is one of them, and that reaching a critical one aborts |
| C65 | a lemma about lists with separators in the semantics with reports, used for the fields of a row and for the rows; compact by its loop lemmas; uniqueness from determinism |
| C66 | case analysis on which literal of the choice matches first, against the longest word at the start of the text |
| C67 | simulation between two texts by induction on the semantics; between two rule sets in both directions for the removal of blanks |
| C68 | completeness by induction on the nested list; an answer for every text by induction on its length; determinism of the semantics |
| C69 | completeness by induction on the formula; an answer for every text by induction on its length and, inside, on the list of levels; determinism of the semantics |
| C70 | for every state and text a run or a failure, by induction on the text and, inside, on the steps; determinism of the semantics |
| C71 | what the combined expression gives in each case of the answers of its parts; expressions that do not refer to main keep their answers when main is replaced |
| C72 | the nested-brackets lemma of C55 for both pairs, and a count of the middle chars |
| C73 | by induction on the PEG derivation: every rule node of a match comes from a match of its rule; C61 for pieces that are cut out |
| C74 | completeness by induction on the chars of the string; an answer for every text by induction on its length; shared by both ways of quoting |
| C75 | viable prefixes by the BNF reading of SpecBnf; steady rules forget no failure in the middle of a part; induction on pege (SpecReport), with C63 for the text before the place |
| C76 | texts g + t with g in the syntax of SpecSyntax; `moved` relates two error records; reports (SpecReport) of the rules of rules_from_peg, by induction on the syntax of g |
| C77 | JSON defined by inductive relations (`SpecJson.json_text`), and the tree of a value by a function; the grammar text is read once by computation, its rules are predictive by the checker of C61, so accepting is generating; what the rules generate is worked out expression by expression, as equivalences between expressions and languages with tidied trees, values by induction on the length of the text one way and on `writes` the other; time and places of errors from C62 and C63 |
| C78 | two rule sets related part by part (`SpecClauses.clauses`, `placed`); simulation in both directions on the reporting semantics of C55, where an outcome is the same or an abort with one of the messages; for placed clauses, a clause is reached only after a char that can start the part was read, so parts that are not meant still fail plainly, and the proof that generated texts match (C61) carries over |
| C79 | `solvable`: some non-empty row of tiles of the set reads the same on top and at the bottom. `tile_rules P` is the rule set. Proved: some text is taken iff solvable (rules and grammar text), the taken texts are the encodings, equality with rules that accept nothing iff not solvable, and every text is answered. That Post's problem is undecidable is the classical theorem and is not formalised. |
| C80 | `unfinished`: the open rules with the trees finished in each; `entered` lists their names. Induction over the reporting semantics of C41, then `parse_report_iff`. |
| C81 | `rewritten`: two grammars that differ in one rule, left recursive in one and a repetition in the other; `ungrouped` maps the trees. Two inductions over `derives` (C61), and one over `peg` for bases written first. |
| C82 | `matches` is the usual inductive definition; `compile r k` puts what follows into each alternative, and makes a rule of each repetition; `normal` removes repetitions of what can be empty. Induction over the regex, and over the length of the text for repetitions. |
| C83 | `guarded a e` is `!(!(a !.)) e / .*`; with C71's lemmas, its result is that of `e` where `a` accepts and all chars elsewhere. The repetition of the empty literal has no `peg` derivation (C15). |
| C84 | Exact costs (`costs` of ProofRun) of a state by induction on the text: an alternative with another char costs 2, so a state costs at most 2d+4. Subset construction and partial derivatives give a deterministic automaton. Doubling by induction on the number of chars. |
| C85 | Induction on `peg` derivations, in both directions, with new alternatives that fail on every rest of the text; C61 for rules where the next char decides (derivations as BNF are monotone). Two counterexamples. |
| C86 | The result of `main` on each text by induction on its length; with a mark the first mark tells the middle. With one char the number of consumed chars goes through 2(n+1-2^k). |
| C87 | the token consumer with a tally of calls next to each result, combined by addition or maximum; erasure of the tally; a budget of ten per token for each consumer function; the loop over definitions followed on the trees of C27 |
| C88 | literals that do not start with an earlier one; the first literal that matches is the longest of these, so the set of them decides; a context that is the choice alone for the converse |
| C89 | the AST tools with a cost next to each result; induction on trees; for compact the invariant that the cost is below four times the square of the weight seen so far; induction on fuel for the height and weight of parsed trees; two families of texts for the lower bounds |
| C90 | counting copy of the engine (`parse_copied`); invariant: errors hold one line and a message of the rules; induction on fuel charges clones to calls; two families of texts by induction on their length |
| C91 | The run of a deterministic machine as a total function; by induction on the length of the text, each rule `q A p` matches exactly what the run reads before `A` is gone, if it is then in state `p`; the machine's own definition (moves, one after the other) is the specification. |
| C92 | The children a rule says as an inductive set of words; soundness from the BNF reading (C61), the tools by induction on the relations of C22-C24; every word occurs in a predictive grammar by building a derivation around it. |
| C93 | Induction on the finite expansion of the rules; each turn of a loop reads at least one char. The lower bound is a family of nested look-aheads, counted with the runs of ProofRun. |
| C94 | Each expression is shown to be computed by a finite machine that reads the text from its end (ProofFinite), then turned round into an automaton. The converse takes the states one by one, as in Kleene's theorem; greedy loops do not harm because the automaton is deterministic (ProofRegular). |
| C95 | The machines of C94 are built as data, not only shown to exist; two of them run side by side for questions about two rule sets. A shortest accepted text has fewer chars than the automaton has states. |
| C96 | Show that a char no atom minds is like the end of the text, for the semantics, the reports and the costs, by induction; follow the loop over the lines to get acceptance, trees, messages, the place of errors, rows and the sum of the calls. |
| C97 | Follow the loop of main over the text, by induction on the derivation; the tree tools are then applied to the list of tokens through their specifications (C22, C24, C25). |
| C98 | `e !. x` under the PEG semantics; rules of tiles of C79 with one more rule; diagonal argument on grammar texts; reductions by derivations, determinism, `parse_reachable` for the added rule |
| C99 | `(!n .)* n .*` and `(n / o)*` under the PEG semantics; inversion of the loop, C97 for the second form |
| C100 | the rules of nested comments, with and without `!o`, and their calls; strong induction on the text, both for derivations and for the cost relation of C57 |
| C101 | the rules of blocks, a reader with a stack, and calls; strong induction on the text for all kinds at once; the reader is deterministic; the cost relation of C57 |
| C102 | `recover_rules` beside `with_main`; what a line alone gives is said through `parse`; the lemmas on lines (C96) give what `e` does at a line in a text; induction on the lines, with the cost relation for the calls |
| C103 | `ignoring_rules` rewrites rules; `respelled` relates trees; induction on derivations in both directions with determinism for the literals that become sequences; induction on runs for the calls |
| C104 | `exchanged` says which tree arises, `edit` which text; BNF derivations (C61) are closed under exchange of nodes; what is derived is parsed |
| C105 | `coded_rules` rewrites rules, `counts_as` relates texts, `spells` trees; as for C103; that only words are consumed is a further induction on derivations |
| C106 | `shown a k` is an outcome as seen through the tools, `same_view` compares expressions, `same_views` rule sets; the view of a sequence is a function of the views of its parts (laws of compact from C45), then as for C55 |
| C107 | the tree of a defective text determines the error: function `fault` and relation `first_defect`; induction over the shapes of the syntax trees (ProofConsume), following each consumer on the tokens of a defective tree |
| C108 | inductive `history` of calls with the list of definitions; equality of maps as permutation of entries; induction over histories from the laws of single calls (C19); parsing through C18's `parse_reachable` |
| C109 | three rule sets for if-then-else over arbitrary marks; ambiguous statements and the nearest reading; totality of the reading by induction on the length; statements are read as far as possible by induction on statements; calls through ProofRun |
| C110 | the CSV grammar text and its rules over three distinct chars; cells, rows, tables, their texts and trees; a lemma on lists with separators used for rows and tables: what is written is read, and every text has a longest reading; determinism for uniqueness; calls with a potential that is lost only once, at a quote without an end |
| C111 | two walking programs over the modelled helpers, a recursion over trees; induction on `reads` for what is read, on fuel for soundness and totality |
| C112 | the documented grammar, all stages of a calculator, a grammar with values; mutual induction on formulas for the walk over tokens, on the grammar for its values; C56 for the parser |
| C113 | the JSON grammar of C77 and a reader over slices of nodes; induction on JSON values for the walk; C77 for the parser |
| C114 | rules made from the digits of any bounds, run by the engine's model; what each expression matches as a function on texts, the order of numerals against the order of numbers |
| C115 | rules with looks at the rest of the text, for any lists of words; every text cut at its marks; what each part of the rule does on such lists; determinism |
| C116 | expressions built from lists of words, with the cost model; what the expression matches as a walk down the tree; invariants of insertion; runs with their calls |
| C117 | `derives` of C61, `times`; texts `a u w v b` with `u v` not empty and all `a u^n w v^n b` generated; every derivation pumps, or has one of the rules above it inside, or is short: induction on the rules not yet above, the expression and the size of the derivation; the distance from a smallest long part of the derivation; equal numbers by counting chars and their order; copies by the place of the mark |
| C118 | `field_rules`, `trail_rules`, `join` (C65), `join_kids`; `stranger`, `reads`, `takes`, `finishes`, `complains` of C96; the separator acts as the end of the text for the field (C96); so the loop runs over the accepted fields, and the first other field fixes the result; reports are followed through the reporting semantics |
| C119 | the pretty output of `ModelPretty.v`, and texts moved to the right; induction over what is printed: printing at a depth is printing at depth 0 and moving; strings contain no line breaks |
| C120 | `record_rules`, a rule set for each list of classes; the reporting semantics of C41 run on the records and on the first column that is not filled; every text is cut up by induction on its length |
