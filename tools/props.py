import json
P=[]
def p(id,title,statement,quant,why,anchors):
    P.append(dict(id=id,title=title,statement=statement,quantifier=quant,why_tests_cant=why,anchors=anchors))
EX="src/parser/expression/mod.rs"; AT="src/parser/atom/mod.rs"; PM="src/parser/mod.rs"; LIB="src/lib.rs"; AST="src/ast/mod.rs"; FL="src/ast/flat.rs"; PEG="src/peg/mod.rs"; PR="src/peg/rules.rs"; GC="src/peg/gcode.rs"; P2="src/peg/peg2code.rs"
p("C01","parse accepts exactly the PEG language of `main`",
 "For every rule set whose repetitions have sane bounds (max absent, or max>=1 and min<=max) and every ASCII text on which parsing terminates, parse(text, rules) returns Ok if and only if the expression of rule `main` matches the whole text under the textbook PEG semantics (sequence, prioritized choice, greedy bounded repetition without backtracking, not-predicate, error(...) aborting everything except a not-predicate).",
 "all rule sets with sane repetition bounds, all ASCII input texts, all nesting depths",
 "grammars and texts form an infinite product space; unit tests sample a handful of grammars",
 [LIB+":parse",EX+":parse_expr,parse_and,parse_or,parse_not,parse_repeat,parse_rule_name",AT+":parse"])
p("C02","the AST returned is the PEG derivation tree",
 "Whenever parse returns Ok(ast), ast is the derivation tree PEG semantics assigns: the root is Rule(\"main\", children); every rule reference that was followed contributes one Rule node named after it, in text order; every literal/class/dot contributes one Val with the matched text; not-predicates and abandoned alternatives contribute nothing; sequence, choice and repetition add no node of their own. The tree is unique.",
 "all rule sets, all ASCII texts that are accepted",
 "needs an inductive comparison of tree and derivation for unbounded depth",
 [EX+":parse_rule_name,parse_and,parse_or,parse_repeat",AT+":parse_literal,parse_dot,parse_match"])
p("C03","the leaves of the AST spell the input",
 "If parse(text, rules) = Ok(ast) and no rule uses the EOF atom, then concatenating every Val of ast from left to right gives exactly text (nothing lost, duplicated or reordered). With the EOF atom the statement is false: it contributes the spurious text `EOF`.",
 "all rule sets, all texts, all accepted parses",
 "holds or fails per derivation; derivations are unbounded",
 [EX+":parse_and,parse_repeat",AT+":parse_literal,parse_dot,parse_match,parse_eof"])
p("C04","error positions are coherent with the input text",
 "Every parser::Error returned by parse satisfies: pos.n <= length of the text; pos.row is the number of '\\n' among the first pos.n chars; pos.start_line is the index just after the last '\\n' before pos.n (0 if none); pos.col is the number of chars since the last '\\n' or '\\r'; line_before is exactly text[start_line..n]; line_after is the text from n up to (excluding) the next '\\n' or '\\r'.",
 "all rule sets, all ASCII texts, every error returned",
 "depends on every path by which the position counters are advanced, saved and restored on backtracking",
 [AT+":Status::get_char",PM+":Error::from_status,Possition"])
p("C05","parse never panics on ASCII text",
 "For every rule set and every ASCII text, parse and parse_debug never panic (in particular the byte slice that builds the error's line_before is always in range), whatever backtracking happens.",
 "all rule sets, all ASCII texts, every step of every execution",
 "a panic can hide behind any combination of backtracking and line breaks",
 [PM+":Error::from_status",LIB+":parse_with_debug"])
p("C06","texts with a non-ASCII character are never accepted",
 "parse compares a character count with a byte length: for every rule set, if the text contains a character that needs more than one UTF-8 byte, parse never returns Ok; it returns Err, panics or does not terminate. Consequently C01 and C05 do not extend to non-ASCII texts (there are grammars matching such a text that are rejected, and runs that panic while building an error).",
 "all rule sets, all texts containing a non-ASCII character",
 "a universally quantified negative statement",
 [LIB+":parse_with_debug",PM+":Error::from_status",AT+":Status::get_char"])
p("C07","error(\"msg\") surfaces its own message",
 "For an ASCII text, parse returns an Err with Critical priority and description msg at offset n if and only if PEG evaluation of `main` reaches, outside of any not-predicate, an error(msg) expression (or an undefined rule) at offset n; no alternative, repetition or leftover-input report can replace, hide or reprioritise it.",
 "all rule sets with sane bounds, all ASCII texts, all positions of error expressions",
 "every surrounding combinator must propagate the abort; contexts are unbounded",
 [AT+":parse_error",EX+":parse_or,parse_repeat",LIB+":parse_with_debug"])
p("C08","undefined rules are reported by name",
 "Parsing with a rule set that has no `main` returns a Critical error `Missing rule: main` at offset 0 for every text. More generally a Critical error whose description was not written in an error(...) of the grammar is `Missing rule: X` for a name X that is not defined and is referenced by some rule (or is main).",
 "all rule sets, all ASCII texts",
 "quantifies over all grammars and all evaluation paths",
 [EX+":parse_rule_name"])
p("C09","a not-predicate consumes nothing and leaves no trace",
 "In any context, not!(e) either fails with a normal error `not`, or succeeds leaving the position, the pending error and the trace exactly as before and adding no AST node; it succeeds iff e does not match at that point, even if e aborts with a critical error.",
 "all expressions, all parser states",
 "must hold for every inner expression and every reachable state",
 [EX+":parse_not"])
p("C10","choice is prioritized and each alternative starts from a clean state",
 "or!(e1..en) returns exactly the result of the first alternative that does not fail normally, evaluated from the state at the start of the choice; failed alternatives leave no effect (position, nodes, pending error, trace), and alternatives after the selected one are irrelevant.",
 "all alternative lists, all parser states",
 "backtracking must restore every component of the state in every case",
 [EX+":parse_or"])
p("C11","choice reports the furthest failure",
 "When every alternative of or!(e1..en), n>=1, fails normally, the error returned is one of theirs, no alternative failed further into the text, and among those that failed furthest it is the last one.",
 "all alternative lists, all parser states",
 "fold over an unbounded list of errors",
 [EX+":parse_or (deep_err)"])
p("C12","repetition respects its bounds and is greedy",
 "If rep!(e,min,max) with min<=max and max>=1 (or no max) succeeds, e matched k consecutive times with min<=k<=max, the nodes are those of the k matches in order, and either k=max or e failed normally at the final position; if it fails normally, e matched fewer than min times and then failed.",
 "all expressions, bounds and states",
 "loop of unbounded length",
 [EX+":parse_repeat"])
p("C13","degenerate repetition bounds",
 "The bounds of rep!(e,min,max) are respected for every min and max. (False of the code: max=0 means no upper bound, and min>max>=1 succeeds after max matches, fewer than min.)",
 "all bounds, including max=0 and min>max",
 "the tests only use 1<=min<=max style bounds; the exact behaviour is a law over all bounds",
 [EX+":parse_repeat (touch_max_bound)"])
p("C14","well-formed grammars terminate on every input",
 "If a rule set passes a static check (no rule can call itself without consuming a char, no unbounded repetition of an expression that can match the empty string), then parse terminates on every text.",
 "all well-formed rule sets, all texts including non-ASCII",
 "termination over all inputs cannot be tested",
 [EX+":parse_repeat,parse_rule_name"])
p("C15","ill-formed grammars hang or overflow",
 "An unbounded repetition of an expression that matches without consuming never returns; a rule whose expression starts by referencing itself never returns (stack overflow), for every text.",
 "all expressions matching without consuming, all texts; all directly left-recursive rules",
 "non-termination cannot be observed by a test",
 [EX+":parse_repeat,parse_rule_name"])
p("C16","rules_from_peg is total",
 "rules_from_peg terminates on every text whatsoever, and never panics on ASCII text: it returns Ok(rules) or Err.",
 "all texts",
 "needs termination of the built-in PEG grammar and safety of the token consumer for every text",
 [PEG+":rules_from_peg,rules_from_flat_ast,consume_hex_char",PR+":parse_peg"])
p("C17","parse_debug agrees with parse",
 "For every rule set and text, parse_debug panics / diverges / returns Ok / returns Err exactly when parse does, with an equal AST, and an equal error except for parsing_rules. With parse, parsing_rules is always empty; with parse_debug it starts with `r:main` and every element is `r:<name>` with a defined or missing referenced name.",
 "all rule sets, all texts",
 "relational property between two executions for all inputs",
 [LIB+":parse_with_debug",EX+":parse_rule_name",PM+":Status::init,init_debug"])
p("C18","only rules reachable from main matter",
 "If two rule sets define the same expression for every name reachable from main by references, parse gives identical results on every text with both; in particular insertion order and unused rules are irrelevant.",
 "all pairs of rule sets, all texts",
 "relational property over pairs of executions",
 [EX+":parse_rule_name,SetOfRules"])
p("C19","add overwrites, merge keeps the receiver's rules",
 "After rules.add(name,e) the name maps to e and all other names are unchanged; after a.merge(b) a name maps to its expression in a if a defines it and otherwise to its expression in b; the rules! macro keeps the last definition of a duplicated name. No other name appears.",
 "all rule sets, names and sequences of operations",
 "finite-map law over all histories of operations",
 [EX+":SetOfRules::add,merge",LIB+":rules!"])
p("C20","leftover input is an error, and says where",
 "If main matches only a proper prefix of an ASCII text, parse returns a Normal-priority Err: either the pending error recorded by the last repetition that stopped on a failed attempt along the successful path, or `not consumed full input` located exactly at the end of the matched prefix when no such repetition exists.",
 "all rule sets, all ASCII texts matched by a proper prefix",
 "depends on the whole successful path",
 [LIB+":parse_with_debug",EX+":parse_repeat",PM+":Status::set_potential_error"])
p("C21","algebraic laws of the combinators",
 "Nested sequences and nested choices are associative with identical AST, final state and error; and!(e) and or!(e) with one element behave as e; not!(not!(e)) matches iff e matches; rep!(e,0,1) accepts as or!(e, and!()); rep!(e,1) accepts and builds nodes as and!(e, rep!(e,0)).",
 "all expressions, all states",
 "equational laws over all expressions",
 [EX+":parse_and,parse_or,parse_not,parse_repeat"])
p("C22","compact merges exactly the adjacent Vals",
 "For every AST, compact() has no two adjacent Val children anywhere, preserves the text and the rule structure (it only replaces maximal runs of adjacent Vals by their concatenation, keeping EOF and Rule children in place), and is idempotent.",
 "all ASTs",
 "trees of unbounded size and depth",
 [AST+":Node::compact"])
p("C23","prune removes exactly the named subtrees",
 "For every AST and list of names, prune(names) keeps the root, contains no other node with one of the names, deletes each such subtree with all its descendants and nothing else, keeps the order of the rest, is idempotent, and prune(a) then prune(b) equals prune(a++b).",
 "all ASTs, all name lists",
 "trees of unbounded size and depth",
 [AST+":Node::prune"])
p("C24","pass_through_except splices out exactly the unnamed rules",
 "For every AST and list of names, pass_through_except(names) keeps the root, removes every other Rule node whose name is not listed while splicing its children in place, keeps every leaf in order, and is idempotent. On flattened ASTs this is exactly filtering out the Begin/End tokens of unlisted names below the root.",
 "all ASTs, all name lists",
 "trees of unbounded size and depth",
 [AST+":Node::pass_through_except"])
p("C25","flatten is balanced and lossless",
 "flatten() yields a well-bracketed token list from which the tree is recovered uniquely, up to EOF nodes which are dropped; since parse never produces EOF nodes, flatten is injective on parse results.",
 "all ASTs",
 "trees of unbounded size and depth",
 [FL+":ast::Node::flatten"])
p("C26","node consuming helpers succeed exactly when promised",
 "Each helper on slices of nodes (consume_val, consume_this_value, split_first_nodes, peek_first_node, get_nodes_unique_val, consume_node_get_subnodes_for_rule_name_is, check_empty_nodes, and the flat versions including consume_node_start_rule_name and consume_node_end_rule_name) returns Ok exactly when the first node has the required kind and value, with exactly the remaining nodes, and never panics. Otherwise its error says what is wrong: no node, another kind of node, another name, nodes left over; but another value is reported as if there were no node.",
 "all node lists, all names and values",
 "quantifies over all slices",
 [AST+":consume_val,split_first_nodes,consume_this_value,consume_node_get_subnodes_for_rule_name_is,check_empty_nodes,peek_first_node,get_nodes_unique_val",FL+":consume_node_start_rule_name,consume_node_end_rule_name,split_first_nodes,consume_val"])
p("C27","rules_from_peg reads back every printed grammar",
 "For every abstract grammar (rules made of literals, classes, dot, rule references, error(...), parenthesised choices/sequences, !, *, +, ?; modules), writing it in PEG syntax and calling rules_from_peg gives Ok with exactly the rule set the grammar denotes: sequence binds tighter than choice, suffixes bind tighter than sequence, choices and sequences become flat n-ary nodes, parentheses add nothing.",
 "all abstract grammars of the supported syntax, of any size",
 "infinite family of grammars; the tests check a dozen, and only acceptance",
 [PEG+":rules_from_peg and every consume_*",PR+":parse_peg"])
p("C28","layout does not matter",
 "In C27, the result does not depend on the layout: any amount of spaces, line breaks (\\n, \\r\\n, \\r) and comments may appear wherever the PEG grammar has `_`.",
 "all layouts of all grammars",
 "infinitely many layouts per grammar",
 [PR+":_ , _1, _eol, comment",PEG+":rules_from_peg"])
p("C29","every grammar text accepted by the PEG grammar yields rules",
 "If the PEG grammar accepts a text, rules_from_peg returns Ok. (False of the code: an empty '' literal, and an error(...) followed by further sequence elements, are accepted by the grammar but rejected by the token consumer. For all other accepted texts it holds.)",
 "all texts accepted by the PEG grammar",
 "needs every AST shape the PEG grammar can produce",
 [PEG+":consume_literal_no_esc,consume_and,rules_from_flat_ast",PR+":parse_peg"])
p("C30","rules built from PEG text are sane",
 "Every rule set returned by rules_from_peg only contains repetitions with bounds (0,none), (1,none) or (0,1), never an EOF atom, no empty or unary sequence/choice, and no character class without chars and ranges; hence C01-C03 apply to it without side conditions.",
 "all PEG texts for which rules_from_peg succeeds",
 "all texts",
 [PEG+":consume_rep_or_neg,consume_match,consume_or,consume_and"])
p("C31","literal escapes",
 "In a rule text, a double-quoted literal denotes its content with \\n \\r \\t \\\\ \\\" and \\0xHH replaced by the corresponding character, everything else verbatim; a single-quoted literal denotes its content verbatim. (The second half is false of the code: every backslash is doubled; it holds for content without backslash.)",
 "all literal contents of any length",
 "all contents",
 [PEG+":consume_literal_esc,consume_esc_char,consume_hex_char,consume_literal_no_esc"])
p("C32","modules are transparent",
 "Wrapping definitions in `name { ... }` puts them in the same flat namespace under their bare names (no module prefix is ever added, the module's name plays no role); when a name is defined several times, the last plain definition of a block wins over every module of that block, before or after it; otherwise the first module of the block that defines the name provides it. A name is bound exactly if it is defined somewhere.",
 "all module nestings",
 "unbounded nesting and histories of definitions",
 [PEG+":consume_grammar,consume_module,Context",EX+":SetOfRules::merge"])
p("C33","generated Rust code denotes the same rules",
 "Reading back the macro invocations printed by rust_from_rules with Rust's literal syntax and the crate's macros yields the same rule set, for every rule set and every hash-map iteration order. (False of the code for backslashes in literals, classes without ranges, EOF, and quote characters in ranges; it holds outside those cases.)",
 "all rule sets, all iteration orders",
 "infinite family of rule sets",
 [GC+":rust_from_rules,expr2code,atom2code,match_rules2code",LIB+":macros"])
p("C34","the PEG grammar of PEG grammars bootstraps",
 "rules_from_peg applied to the crate's own PEG description of PEG succeeds, and the code generated from it, read back as Rust, is exactly the built-in rule set, whatever the iteration order of the hash map; but the rule set itself differs from the built-in one (esc_char and hex_char), so the in-memory result is not a fixed point. The program print_rules2parse_peg prints such code, without panicking.",
 "the crate's own grammar text (closed statement)",
 "a test exists only as a doc example that prints; equality is never checked",
 [P2+":text_peg2code,print_rules2parse_peg",PR+":parse_peg",GC+":rust_from_rules"])
p("C35","recursion depth is linear in the input",
 "For a well-formed rule set there is a constant c such that the nesting of parser calls (and the length of each repetition) while parsing a text of n chars is at most c*(n+1); and there are well-formed rules and accepted texts of every length n+1 for which calls nest at least 3*n deep, so no fixed stack is enough.",
 "all well-formed rule sets, all texts",
 "a bound over all inputs",
 [EX+":parse_expr"])
p("C36","consumer errors name the path to the problem",
 "Displaying a peg::Error prints the pushed descriptions outermost first separated by ` > `; every error of the token consumer raised below a construct mentions `consuming <construct>` for each enclosing construct, starting with `consuming main`.",
 "all errors, all nestings",
 "unbounded nesting",
 [PEG+":Error,push_err,consuming_rule"])
p("C37","a grammar text must end its last rule with a line break",
 "If rules_from_peg returns Ok, the last definition of the text is followed by spaces and comments and a line break of its own (the one that ends a line comment does not count), and then only by blanks and comments. So it never returns Ok for a text whose last char, up to spaces, is neither a line break nor the end of a comment, nor for a text containing neither '\\n' nor '\\r' (in particular the empty text), nor for a text without '='.",
 "all texts",
 "universally quantified negative: whatever stands before the last line",
 [PR+":rule,_eol,grammar",PEG+":rules_from_peg"])
p("C38","parse never produces EOF nodes",
 "No AST returned by parse contains Node::EOF; the EOF atom yields Val(\"EOF\") instead.",
 "all rule sets and texts",
 "all derivations",
 [AT+":parse_eof",AST+":Node"])
p("C39","suffix determinism: the outcome of an expression depends only on the remaining text",
 "Parsing e at two points with the same remaining ASCII text gives the same kind of outcome, same nodes and same number of consumed chars, whatever came before.",
 "all expressions, all pairs of states with equal remaining text",
 "relational property",
 [EX+":parse_expr",PM+":Status"])
p("C40","consumption is monotone: results never un-read or skip text",
 "Whenever an expression succeeds, the consumed text is a prefix of what remained and the new remaining text is exactly the rest; position counters advance by exactly the number of consumed chars.",
 "all expressions, all states",
 "all executions",
 [AT+":Status::get_char",EX+":parse_expr"])
p("C41","the whole parse result is determined by a reporting semantics of the grammar",
 "For every rule set with sane bounds and every ASCII text, what parse (and parse_debug) returns - the tree, or the error with its description, offset, row, column, line excerpts, entered rules and priority - is exactly what a PEG semantics extended with error reports prescribes: a literal reports the place just after the first differing char, a class the place after the rejected char, a choice its furthest failure (the latest among equals), a repetition remembers the failure that ended it, error(..) and undefined rules abort.",
 "all rule sets with sane bounds, all ASCII texts, with and without debug",
 "the furthest-failure rule and the trail of entered rules depend on the whole derivation",
 [EX+":parse_expr,parse_or,parse_repeat,parse_rule_name",PM+":Error::from_status",LIB+":parse_with_debug"])
p("C42","errors of rules_from_peg are located",
 "Every error rules_from_peg returns is either the parser error that parse reports for the text under the built-in PEG rules - whose offset, row, column and line excerpts are those of a split of the given text - or a consumer error starting with `consuming main`, and then the text was accepted by the PEG grammar and its tree has one of the two known defects (C29).",
 "all texts",
 "universally quantified over erroneous grammar texts",
 [PEG+":rules_from_peg,Error",PR+":parse_peg",PM+":Error::from_status"])
p("C43","reading a grammar aborts only for a missing closing parenthesis",
 "The only error of critical priority rules_from_peg can return is the one with description `unbalanced parethesis: missing ')'`; every other syntax error is an ordinary furthest failure.",
 "all texts",
 "needs every execution path of the built-in grammar",
 [PR+":parenth",PEG+":rules_from_peg",EX+":parse_rule_name"])
p("C44","the complete behaviour of parse, non-ASCII texts and panics included",
 "For every rule set and every text, ASCII or not, what parse does - return this tree, return this error, panic, or not return - is determined by the reporting semantics: it panics exactly when some error record, even one dropped later, is built at a place whose line excerpt cannot be cut because char counts are used as byte offsets; otherwise it answers as the semantics says, with the excerpt those offsets select, and takes the text for complete only when it is ASCII. On ASCII texts the excerpt always exists and is the start of the line.",
 "all rule sets, all texts, with and without debug",
 "panics depend on every error built during backtracking and on byte offsets of arbitrary Unicode texts",
 [PM+":Error::from_status",LIB+":parse_with_debug",EX+":parse_expr"])
p("C45","chains of AST tools have one normal form",
 "A compact before prune or pass_through_except makes no difference if a compact comes last; two pass_through_except keep exactly the names both keep; prune after pass_through_except acts only on kept names, and the two commute exactly when every pruned name is kept; the chain compact, prune, pass_through_except, compact gives the same tree in either order of the middle steps. compact must come last: prune and pass_through_except after it can leave adjacent Vals (witnesses).",
 "all trees, all name lists",
 "algebraic laws over arbitrary trees",
 [AST+":Node::compact,Node::prune,Node::pass_through_except"])
p("C46","rule names are only labels",
 "Consistently renaming rules (keeping main) without confusing two names in use changes nothing but the names: same acceptance, same tree up to node names, same error position, excerpts, priority and description (a missing-rule report names the new name), same trace up to names, same panics, same divergence. Two names can be confused if their rules are then the same: rules that say the same can be merged. Otherwise confusing two names can change the language (witness).",
 "all rule sets, all renamings, all texts, with and without debug",
 "relates two runs on arbitrary rule sets",
 [EX+":parse_rule_name,SetOfRules",LIB+":parse_with_debug"])
p("C47","parts of rules can be replaced by equivalent parts",
 "If rules are changed by replacing subexpressions with subexpressions that are equivalent under the old rules, every answer of the new rules is an answer of the old ones: same tree, or an error in both. If the new rules are well formed the two rule sets accept the same texts with the same trees; otherwise termination may be lost (witness). Parts that are equivalent whatever the rules can be exchanged anywhere in any rules, well formed or not, with the same answers. Common starts of alternatives can be factored out, repeated alternatives and alternatives after one that never fails can be dropped; neighbouring alternatives that exclude each other can be exchanged; turns of a repetition can be written out.",
 "all rule sets with sane bounds, all such changes, all ASCII texts",
 "relates two arbitrary grammars on every text",
 [EX+":parse_expr,parse_and,parse_or",LIB+":parse"])
p("C48","a grammar text determines the parser, end to end",
 "If a text writes down some bindings in the PEG syntax, then what parse does with the rules read from it, on every input - tree, error, panic - is what the semantics says about these bindings; the accepted inputs are exactly the language of main; the tree is rooted at main and spells the input; and when the bindings are well formed, reading and parsing always end with a tree or an error.",
 "all grammar texts, all inputs",
 "composes reading an arbitrary grammar text with parsing an arbitrary input",
 [PEG+":rules_from_peg",LIB+":parse,parse_with_debug"])
p("C49","grammar files can be concatenated",
 "The concatenation of two accepted grammar texts is accepted; for each name, a plain definition in the second text wins over the first text, otherwise the first text's rule is kept. Texts defining different names give the merge of the two rule sets in either order. The order of definitions matters only between definitions of the same name (witness that it does there).",
 "all pairs of accepted grammar texts, all reorderings",
 "relates the reading of arbitrary texts to that of their concatenation and permutation",
 [PEG+":rules_from_peg",EX+":SetOfRules::merge"])
p("C50","rule sets can be saved as grammar texts and loaded again",
 "Every accepted grammar text has a printed normal form that reads as the same rules; the grammars that can be printed are exactly those of ASCII texts; saving a rule set in any order of its entries and reading the result gives the same rules, for exactly the rule sets some text denotes, in particular for every rule set read from a text.",
 "all texts, all rule sets, all listing orders",
 "round trip over arbitrary texts and rule sets, with an exactness claim in both directions",
 [PEG+":rules_from_peg",EX+":SetOfRules"])
p("C51","printed errors, trees, tokens and rules determine what was printed",
 "Two parser errors, AST errors, trees, token lists, expressions or rule sets (in their listing order) with the same Debug output are equal; the displayed message of a syntax error from rules_from_peg is shared with no other error rules_from_peg can return. Error chains put together by hand can be displayed alike (witness). The pretty Debug output shows the same fields and also determines trees, rule sets and errors.",
 "all values of these types, all grammar texts",
 "injectivity over unbounded nested values with arbitrary strings inside",
 [PM+":Error",AST+":Node,Error",FL+":Node",AT+":Atom",EX+":Expression",PEG+":Error"])
p("C52","parsing takes at most, and sometimes, exponential time",
 "For a well-formed rule set the number of parser calls on a text of n chars is below 2^(c*(n+1)), c depending only on the rules; and since nothing is memoised there are well-formed rules with accepted texts of n+1 chars, for every n, on which parse makes at least 2^n - 1 calls. The number of calls is a function of rules and text.",
 "all well-formed rule sets, all texts",
 "asymptotic bounds in both directions",
 [EX+":parse_expr,parse_and,parse_or,parse_repeat,parse_rule_name",LIB+":parse"])
p("C53","the AST is linear in the input",
 "For a well-formed rule set there is a constant c such that the tree of an accepted text of n chars has at most c*(n+1) nodes, its flat form has at most c*(n+1) tokens, and the rules path in an error about a text of n chars has at most c*(n+1) entries.",
 "all well-formed rule sets, all texts",
 "a bound over all inputs, although rules may match without consuming anything",
 [LIB+":parse",AST+":Node",FL+":flatten"])
p("C54","reading a grammar text takes quadratic time",
 "rules_from_peg uses the same backtracking parser, but on its own fixed grammar there is a constant c such that parsing any grammar text of n chars, valid or not, makes at most c*(n+1)^2 parser calls. The bound is of the right order: for every n there is an accepted grammar text of 3n+4 chars that takes more than n^2 calls.",
 "all texts, valid or not",
 "asymptotic bounds in both directions, although the same engine is exponential for other rules",
 [PEG+":rules_from_peg",PR+":parse_peg",EX+":parse_expr,parse_and,parse_or,parse_repeat,parse_rule_name"])
p("C55","rewriting rules keeps the accepted texts",
 "Replacing parts of rules by parts that match the same prefixes of every text keeps the accepted and the rejected texts (exactly, if the new rules are well formed; otherwise every answer of the new rules is an answer of the old ones). Such replacements are: a reference by the body of its rule, r = e r / e by e+ (with the trees nested), r = e sep r / e by e (sep e)*, dropping an alternative that fails whenever an earlier one fails, for example a literal after one of its own prefixes. (!'l' .)* 'l' matches up to the first l, and m = 'a' m 'b' / 'a' 'b' matches exactly the nestings when the brackets cannot be confused (and not always otherwise). The order of alternatives cannot be changed in general.",
 "all rule sets, expressions, texts and literals",
 "a claim about all grammars and all texts at once",
 [LIB+":parse",EX+":parse_expr,parse_and,parse_or,parse_repeat,parse_rule_name","README.md:Rule elements enumeration"])
p("C56","the documented grammars do what the documentation says",
 "Reading the grammar texts of the documentation and parsing with their rules accepts exactly these texts, with exactly these trees: a letter followed by letters and digits (basic example); four words (example 2); 'hello' in balanced parentheses, where a missing closing one gives the message of the grammar's error(..) at its place; sums of products of numbers and parenthesised sums with any blanks around operators (calculator), the tree being the one of the expression, in one way only, and its tidied form a list of terms, factors and signs. Line and block comments are recognised when the newline is written in double quotes; as the README writes it, in single quotes, line comments do not end at the newline.",
 "all texts parsed with each documented grammar",
 "the accepted texts and trees are infinitely many and nested without bound",
 [LIB+":crate documentation","README.md:Consume till","README.md:Example 2",PEG+":rules_from_peg",LIB+":parse",AST+":compact,prune,pass_through_except"])
p("C57","the documented calculator is slow on unclosed parentheses only",
 "With the documented calculator grammar every accepted text of n chars takes O(n) parser calls, but n unclosed parentheses before any expression take at least 2^n calls to be rejected. Dropping the redundant alternative of its expr rule changes no accepted text, no tree and no rejection, and makes every text, accepted or not, take O(n) calls.",
 "all texts, accepted or not, of any length",
 "asymptotic bounds for infinitely many texts",
 [LIB+":crate documentation (calculator)",LIB+":parse",EX+":parse_or,parse_rule_name,parse_expr",PEG+":rules_from_peg"])
p("C58","parsing hangs exactly when it runs in a circle",
"For every rule set with sane bounds and every ASCII text, parse (or parse_debug) never returns exactly if, while evaluating main, it comes to a rule that is needed again at the very position where it is already being matched (left recursion, through any number of rules, options and predicates), or to an unbounded repetition whose expression matches nothing there. For every rule set whatsoever, a parse that returns nests its calls at most w*(n+1) deep, where w is the size of the rules and n the length of the text (and, with sane bounds, makes fewer than 2^(w*(n+1)) calls); a parse that needs more than that never returns.",
"all rule sets, all ASCII texts, all executions, ending or not",
"non-termination is a statement about infinitely many steps, and the depth bound quantifies over all rules and texts",
[EX+": parse_expr, parse_and, parse_or, parse_repeat, parse_rule_name", LIB+": parse, parse_debug"])
p("C59","character classes are sets of chars",
"A class built with ematch! (either form) or MatchRules::init has the chars and ranges it was given. Two classes give the same outcome on every text, in every rule, exactly if they have the same members: order, repetition and overlap do not matter, a range can be cut in two, a range with exchanged ends is empty, the empty class never matches, a one-char literal is the class of that char. A choice of classes is their union, [!class .] the complement and [!class other] the difference.",
"all classes, all rule sets, all texts",
"equality of outcomes on every text for every pair of classes",
[AT+": MatchRules, parse_match", LIB+": ematch!", EX+": RepInfo, NRep, MultiExpr"])
p("C60","only the text a parse looks at matters",
"A char is looked at when a literal, class, dot or EOF is compared with it. If a text is rejected without a look into its tail, it is rejected with every other non-empty tail: same position, description, entered rules, priority and line start; only the excerpt after the error differs. A parse that hangs without such a look hangs with every tail. An accepted text has been looked at up to its last char, and if its end was not looked at no continuation is accepted. The reported place does not tell how far the parser looked (witnesses at every distance).",
"all rule sets with sane bounds, all ASCII texts, all tails, with and without debug",
"two runs on texts that differ arbitrarily in their tails are compared",
[EX+": parse_expr and the functions it calls", AT+": parse_literal, parse_match, parse_dot, parse_eof, Status", PM+": parse"])
p("C61","when a grammar means what it means as BNF",
"Read as BNF, a grammar generates texts without priorities: any alternative may be taken, a repetition may stop after any allowed number of turns, predicates say nothing. Every accepted text is generated, with the tree that parse returns. If the next char always tells which alternative to take and whether to go on with a repetition (and rules are well formed, without predicates and error(..)), then parse accepts exactly the generated texts with exactly their trees and rejects all others with an error, every text has one tree at most, and if no alternative can be empty the order of the alternatives does not matter. Without that condition a grammar generates texts that parse rejects, and accepts them after reordering.",
"all rule sets with sane bounds, all ASCII texts",
"relates the answers on every text to a second, declarative reading of every grammar",
[LIB+": parse, parse_debug", EX+": parse_expr, parse_and, parse_or, parse_repeat, parse_rule_name","README.md: PEG"])
p("C62","rules where the next char tells what to do are fast",
"For well-formed rules where the next char always tells which alternative to take and whether to go on with a repetition (C61), and where every part of every rule generates some text, there is a constant c such that parsing any text of n chars, accepted or rejected, makes at most c*(n+1) parser calls. If some parts of the rules generate nothing this fails: such alternatives may all start with the same char, and 2^n calls can be needed.",
"all such rule sets, all texts",
"an asymptotic bound for all texts and a whole class of grammars",
[LIB+": parse, parse_debug", EX+": parse_expr, parse_and, parse_or, parse_repeat, parse_rule_name"])
p("C63","the text before an error can be right",
"If every part of the rules can generate some text (read as BNF), then whenever parse rejects a text, the text before the reported place, except perhaps for its last char, is the beginning of a text the rules generate; the error is never of the critical kind. So once a text has gone wrong, what comes after the first wrong char is never blamed. This does not hold when some part of the rules can never match.",
"all such rule sets, all texts, all fuels and both debug settings",
"a relation between every rejected text and the (infinite) set of texts the rules generate",
[LIB+": parse, parse_debug", EX+": parse_expr, parse_and, parse_or, parse_repeat, parse_rule_name", PM+": Error"])
p("C64","errors are truthful",
"Whenever parse rejects a text, the rules really ask for what the error says at a place the parse reaches (everything before it in each sequence and repetition has matched, the earlier alternatives of each choice have failed), the text does not have it there, the error stands there, and in debug mode the listed rules are the ones entered on the way in the order of the text; or main has matched and text is left over. A critical error is returned exactly when the parse reaches error(..) or an undefined rule.",
"all rule sets with sane bounds, all ASCII texts, both debug settings",
"relates every error message, place and trace to the rules and the text",
[LIB+": parse, parse_debug", EX+": parse_expr, parse_and, parse_or, parse_not, parse_repeat, parse_rule_name", AT+": parse, parse_literal, parse_match, parse_dot, parse_eof", PM+": Error, Status"])
p("C65","tables of fields are read exactly",
"With rules for rows of fields (`main = row (R row)*; row = field (F field)*; field = [class]*`), where the two separators differ and are not in the class, parse accepts exactly the texts of tables, a text is the text of one table only, the AST is that of the table, and compact gives each field in one piece (an empty field has no value). The first char that cannot be in a table is reported just after it, as a missing row separator. If a separator is in the class, fields swallow it.",
"every class of chars, pair of separators, table and text",
"Separators and fields interact through greedy repetition and backtracking; tests only try a few tables.",
[LIB+":parse",EX+":parse_repeat",EX+":parse_and",AT+":parse_match",AST+":compact"])
p("C66","reserved words",
"The idiom `!(('w1' / 'w2' / ..) ![class]) [class]+` matches exactly the longest word (run of chars of the class) at the start of the text, and fails if that is empty or one of w1, w2, ..; provided the reserved words consist of chars of the class and none is the beginning of a later one. A choice of literals in such an order matches the longest one that the text starts with. In another order reserved words can be missed: with 'in' before 'int', \"int\" is accepted.",
"every class of chars, list of reserved words and text, inside any rule set",
"The interplay of predicate, prioritized choice and greedy repetition depends on which reserved words are prefixes of others; tests try a few words.",
[EX+":parse_not",EX+":parse_or",EX+":parse_repeat",AT+":parse_literal",LIB+":parse"])
p("C67","blanks",
 "If only certain rules of the form [blanks]* or [blanks]+ read blanks, then how long the runs of blanks in a text are, and which blanks they consist of, does not matter: both texts are accepted, with the same tree once the blank rules are pruned, or both are rejected (an abort keeps its message; another error can change its description: witness). If every char that is read is followed by a reference to a rule [blanks]* and main starts with one, the text is parsed as if its blanks were removed: same accepted texts, same trees after pruning that rule.",
 "all such rule sets, all classes of blanks, all pairs of ASCII texts that differ in blanks only",
 "relates two arbitrary texts, and two arbitrary rule sets, through the whole engine",
 [LIB+":parse",EX+":parse_expr,parse_repeat",AST+":Node::prune"])
p("C68","nested lists",
 "For the rules main = value, value = word / list, word = [class]+, list = O (value (F value)*)? C, with brackets and separator outside of the class and different from the closing bracket, parse accepts exactly the texts of nested lists of words, to any depth, and the tree is that of the nested list; every other text is rejected with a Normal-priority error; a text denotes one nested list only. compact joins the chars of each word, and the two brackets of an empty list, and the compacted tree still determines the nested list. If the opening bracket belongs to the class, words swallow it (witness).",
 "every class of chars, pair of brackets and separator, every nested list of any depth and length, every ASCII text",
 "Recursion between rules has no bound on depth; tests try a few nestings.",
 [EX+":parse_or",EX+":parse_repeat",EX+":parse_rule_name",LIB+":parse",AST+":compact"])
p("C69","precedence of operators",
 "For a list of levels of operators, from the loosest to the tightest, and the rules main = l, l = ll ([operators] ll)*, ll = lll ([operators] lll)*, .. for each level, then number / group for the last, number = [class]+, group = O l C, where no operator belongs to two levels and brackets and operators are outside of the class and no operator is the closing bracket, parse accepts exactly the texts of formulas, with any number of levels and any depth of brackets; the tree groups the operators by their levels, in the order of the text; every other text is rejected with a Normal-priority error; a text denotes one formula only. An operator of two levels binds as on the tighter one (witness).",
 "every number of levels, every set of operators of each level, every class of chars and pair of brackets, every formula of any depth and length, every ASCII text",
 "The number of levels, the depth of brackets and the lengths of chains have no bound; tests try a few formulas of one grammar.",
 [EX+":parse_or",EX+":parse_and",EX+":parse_repeat",EX+":parse_rule_name",LIB+":parse"])
p("C70","finite automata",
 "Every finite automaton over chars, deterministic or not, can be written as rules, one rule for each state: s = 'a' ss / 'b' sss / .. with !. as last alternative where a text can end. parse then accepts exactly the texts that the automaton accepts and rejects the others with a Normal-priority error; the tree is that of the run where each step is the first one, in the order of the steps, from which the rest of the text can be accepted.",
 "every automaton with any number of states and steps, every ASCII text",
 "All automata and all texts: no bound on states, steps or lengths.",
 [EX+":parse_or",EX+":parse_not",EX+":parse_rule_name",LIB+":parse"])
p("C71","combinations of parsers",
 "Let a and b be expressions over a set of rules where nothing refers to main, and suppose that parsing a text with each of them as main finishes. Then parsing with main = !(!(a !.)) b accepts the text iff both do, with the tree of b; main = !(a !.) b accepts it iff b does and a does not; main = !(!(a !.)) a / b accepts it iff one of them does, with the tree of a if both do; main = !(a !.) .* accepts it iff a does not. All of them finish. Without the !. this is false: !a b and a / b reject a text that b accepts and a does not (witness).",
 "all rule sets and expressions with sane bounds, all ASCII texts",
 "Relates the outcomes of arbitrary parsers to the outcome of a combined one.",
 [EX+":parse_not",EX+":parse_or",EX+":parse_and",LIB+":parse,SetOfRules::add"])
p("C72","rules can count",
 "For chars x, y, z with x != y and y != z, the rules main = !(!(xy z)) x+ yz, xy = x xy y / x y, yz = y yz z / y z accept exactly the texts of n times x, n times y, n times z with the same n >= 1, and reject every other text with an error. If x = y the rules reject such texts (witness).",
 "all chars, all numbers, all ASCII texts",
 "The number has no bound.",
 [EX+":parse_not",EX+":parse_or",EX+":parse_rule_name",LIB+":parse"])
p("C73","pieces of trees",
 "A rule node in the tree of an accepted text, at any depth, is what its rule gives alone: parsing the text from the place of the node on, with main = n .*, gives the same node, followed by the remaining chars. The same holds with the rules of a library instead of the whole rule set, if both agree on the rule and on all the rules it needs: merging a library into other rules does not change what its rules read. If the next char always tells what to do, parsing only the piece of the text that the node spells, with main = n, gives the same node; otherwise it can be read in another way (witness).",
 "all rule sets with sane bounds, without EOF atoms and where nothing refers to main, all accepted texts, all nodes of their trees",
 "Quantifies over all nodes of all trees and relates each of them to another parse.",
 [LIB+":parse",AST+":Node",EX+":parse_rule_name",EX+":SetOfRules::merge"])
p("C74","quoted strings",
 "For a quote Q and an escape char E, the rules main = string, string = Q char* Q, char = E . / !Q . accept exactly the texts Q body Q where the body consists of chars other than Q and E, and of pairs of E and any char; the tree tells how each char was written, and every other text is rejected with a Normal-priority error. With char = Q Q / !Q . quotes are doubled instead, with the same guarantees and only one way to write each content. Every ASCII content can be written in both ways and is read back. With the alternatives in the other order the escape char is not seen (witness).",
 "all chars Q and E, all contents, all ASCII texts",
 "All contents of any length, including those with quotes and escape chars in any combination.",
 [EX+":parse_not",EX+":parse_or",EX+":parse_repeat",AT+":parse_dot",LIB+":parse"])
p("C75","errors that stand at the first wrong char",
  "For rules where the next char always tells what to do (C61), where every part generates some text, and where a repeated part (or an alternative of a choice that can be empty) fails at its first char or not at all: if main asks for the end of the text, or matches no beginning of it, the last char before the reported place is the first wrong one: what comes before it is the beginning of a text that the rules generate, and with it is not (at the end of the text, the text may also be too short). For such rules without repetitions, if text is left over the place is just before the first wrong char. Without these conditions the error can stand at the first char although any number of chars is right (two witnesses).",
  "all rule sets of that kind, all ASCII texts, both debug modes; witnesses for every distance",
  "whether an error stands at the first wrong char depends on all the ways in which the text could have gone on; tests look at a few errors",
  [EX+":parse_or",EX+":parse_repeat",AT+":get_char",LIB+":parse_with_debug"])
p("C76","where grammar texts are wrong",
  "A well written grammar text g in front of a text that begins with a definition (a name and = or {) changes nothing about the syntax errors of that text: g + t is reported as wrong iff t is, with the same description, importance and rest of the line, at the same place of t (so line number and offset grow by those of g). Whatever follows g, a syntax error is never reported before the end of g, unless what follows begins, after blanks, with = or {, which turns the last name of g into the name of a definition (witness).",
  "all well written grammar texts, all ASCII texts after them",
  "all texts, well written or not, of any length and any way to be wrong",
  [PEG+":rules_from_peg",PR+":parse_peg",EX+":parse_repeat",LIB+":parse"])
p("C77","a JSON grammar reads JSON",
  "A grammar text of eight rules, read by rules_from_peg, gives rules that accept an ASCII text iff it is JSON (as defined at json.org: blanks, numbers, strings with escapes, arrays and objects, nested to any depth) and reject every other ASCII text with an error. The tree, after prune of the blanks and compact, is a fixed function of the JSON value that is written, different for different values; a text is JSON for one value only; and every value that is written out comes back. The number of parser steps is linear in the length of the text, also for wrong texts. What stands before the place of an error can be continued to JSON, so errors are not reported after the first mistake; but they can be reported before it (witness).",
  "all ASCII texts, all JSON values",
  "all texts and all values, nested to any depth, with any blanks",
  [PEG+":rules_from_peg",LIB+":parse",AST+":prune",AST+":compact",EX+":parse_or",EX+":parse_repeat"])
p("C78","error clauses only add their messages",
  "Adding clauses / error(\"..\") at the end of choices or after parts of rules (not inside predicates) changes nothing but this: every answer of the rules with the clauses is the answer of the rules without them, the same tree or the same error in all its fields, or it is a critical error with one of the messages; and every answer of the rules without clauses stays or is replaced by such an error. If the rules are such that the next char tells what to do, and the clauses come after something not empty in a sequence (not directly in the body of a repetition or in an alternative that is not the last), then the texts accepted, their trees, and the texts rejected are the same. If every part of the rules generates some text, what is before the place of a message can be continued to a text that the rules generate. Without these conditions clauses can make texts rejected, and inside predicates accepted (witnesses).",
  "all rule sets, all ways to add clauses, all ASCII texts",
  "all rules, all places for clauses and all texts",
  [AT+":parse_error",EX+":parse_or",EX+":parse_not",EX+":parse_repeat",LIB+":parse_with_debug"])
p("C79", "whether a grammar accepts anything is Post's correspondence problem",
  "From any finite set of tiles with a word on top and a word at the bottom one can write rules (and a grammar text) that accept some text exactly when the tiles can be laid in a row that reads the same on top and at the bottom; the accepted texts are exactly the encodings of such rows. So whether a grammar accepts anything, or the same texts as another, is Post's correspondence problem (known to be undecidable; that fact itself is not part of the claim), although every single text is still answered.",
  "all finite sets of tiles with ASCII words, all input texts",
  "Tests try single texts; the claim is about the existence of an accepted text among all of them, for every set of tiles.",
  [LIB + ":parse", EX + ":parse_expr", PEG + ":rules_from_peg"])
p("C80", "what the rules listed in an error say",
  "With parse_debug, the rules listed in an error are the rules entered on the branch that led to it: the rules that are not finished, from main on, each named in the body of the one before, and after each of them the rules of the trees finished in it, in order. For leftover text they are the rules of the tree that was read. So the list is not the path the documentation announces, and does not tell which of its rules failed.",
  "all sane rule sets, all ASCII texts, all fuel",
  "Each test sees one list; which rules are listed, and which finished ones stay, depends on the whole derivation.",
  [PM + ":Error", PM + ":push_rule", EX + ":parse_rule_name", LIB + ":parse_debug"])
p("C81", "left recursion has to be written as a repetition",
  "Read as BNF, a = a x / .. / b / .. and a = (b / ..) (x / ..)* generate the same texts everywhere in the grammar, and the trees differ only in that the left edges of a-nodes become one node. When the next char tells what to do in the rewritten rules, parsing with them accepts exactly what the left-recursive rules mean. The left-recursive rules themselves never answer, and with the bases written first nothing is ever repeated.",
  "all rules a, all lists of steps and bases, all other rules, all ASCII texts",
  "The equivalence ranges over all grammars around the rule and all derivations of any depth; a hang cannot be observed by a test.",
  [EX + ":parse_rule_name", EX + ":parse_or", EX + ":parse_repeat", LIB + ":parse"])
p("C82", "every regular expression can be written as rules",
  "From any regular expression, rules can be made that accept exactly the texts it matches as a whole, and that always answer; they can be written as a grammar text. The symbol by symbol transcription (sequence, ordered choice, repetition) accepts only texts the expression matches, but not all of them, and never answers where something that can be empty is repeated.",
  "all regular expressions, all ASCII texts",
  "There is no bound on the expression or the text, and a missing match shows up only where two alternatives share a beginning.",
  [EX + ":parse_or", EX + ":parse_and", EX + ":parse_repeat", EX + ":parse_not", LIB + ":parse", PEG + ":rules_from_peg"])
p("C83", "whether a parser hangs, gives a message or needs an alternative is as hard as Post's problem",
  "From any parser that always answers, a parser can be made that hangs exactly on the texts the first accepts, one that gives a chosen message exactly on those, and one with an alternative that can be dropped iff there are none. So whether some text makes a parser hang, or gets a given error(..) message, is Post's correspondence problem. The static conditions of C14 are sufficient only: they refuse rules that answer every text.",
  "all rule sets that always answer, all sets of tiles, all ASCII texts",
  "The equivalences range over all rule sets and all texts, and a hang cannot be observed by a test.",
  [EX + ":parse_not", EX + ":parse_or", EX + ":parse_repeat", AT + ":parse_error", LIB + ":parse"])
p("C84", "a regular expression can be recognised in linear time, if each char decides",
  "Rules that follow an automaton where each char leads to one state make at most (2d+4)(n+1) calls on a text of n chars, for d chars per state, whether it is accepted or not. Any automaton can be written like that, and so can any regular expression: then the parser accepts the same texts and needs at most 260 calls per char. If a char can lead to two states, as in (a|a)*, each char can double the number of calls.",
  "all automata, all regular expressions, all ASCII texts, with and without trace",
  "The bound must hold for all texts and expressions; the slow cases are found by texts that tests seldom have.",
  [EX + ":parse_or", EX + ":parse_and", AT + ":parse_literal", LIB + ":parse"])
p("C85", "what stays accepted when a grammar grows",
  "If alternatives are added anywhere in the rules, nothing changes for a text where what they have to start with is absent: it gets the same tree, or an error as before. If no rule uses main, alternatives added at its end keep every accepted text and its tree. If the next char tells what to do in the new rules, they can allow more in any way (alternatives, optional parts, more turns, more chars): accepted texts keep their tree. In general an alternative added at the end of a rule can reject a text that was accepted.",
  "all rule sets without undefined rules, all additions, all ASCII texts, with and without trace",
  "A test suite has finitely many old texts; the promise is about all of them.",
  [EX + ":parse_or", EX + ":parse_repeat", EX + ":parse_not", EX + ":SetOfRules::add", LIB + ":parse"])
p("C86", "mirrored texts need a mark in the middle",
  "main = 'a' main 'a' / 'b' main 'b' / .. / 'm' accepts exactly the texts w m w-reversed, with the tree of the pairs, if m is none of the other chars. Without a mark, accepted texts are mirrored, but not all mirrored texts are accepted: with one char a, n times a is accepted iff n+2 is a power of two (n+1 if the middle is an a).",
  "all sets of chars, all ASCII texts, all numbers of repetitions, with and without trace",
  "The rule looks right and works for short texts (0, 2 and 6 times the char); the law for all lengths is no test.",
  [EX + ":parse_or", EX + ":parse_and", EX + ":parse_rule_name", LIB + ":parse"])
p("C87","walking over a parsed grammar is linear work, nested as deep as the grammar has definitions",
  "After a grammar text is parsed, rules_from_peg walks over its tokens. That walk makes at most ten calls per token, and there is a constant c such that it makes at most c*(n+1) calls, and nests at most c*(n+1) deep, for any text of n chars, valid or not. The definitions of a text are read by calls nested one in the other: a grammar text with k top level definitions needs calls nested more than k+2 deep, so for every n there is an accepted text of 4n+4 chars, with nothing but rules m=a, that needs more than n+3 nested calls: no fixed stack is enough.",
  "all texts, valid or not; all token lists; all numbers of definitions",
  "bounds over all texts in both directions; a test sees one text and one stack size",
  [PEG + ":rules_from_peg,rules_from_flat_ast,consuming_rule,consume_grammar,rec_consume_rules_or_modules,rec_consume_and,rec_consume_or,rec_consume_lit_esc_ch"])
p("C88","the order of literals in a choice",
  "A choice of literals accepts exactly those of its literals that do not start with an earlier one, and wherever it stands it matches the longest of these that the text goes on with. Two choices of literals can replace each other in any rules, giving the same trees, errors and aborts on every text, exactly if these literals are the same. An alternative that begins with a literal that starts with an earlier alternative is never used, and can be dropped, whatever the other alternatives are. All orders of some literals do the same exactly if none starts with another one; all literals are used if no later one is longer. In other orders texts are lost: with '<' before '<=', \"<=\" is rejected.",
  "all lists of literals, all rules they stand in, all texts, all orders",
  "an equivalence over all rules around the choice and all texts; a test has one order and one text",
  [EX + ":parse_or", AT + ":parse_literal,parse_atom", LIB + ":parse"])
p("C89","what the AST tools cost",
  "For a tree of w nodes and chars and h levels, prune and flatten do at most 3w units of work (calls, nodes moved, chars copied), pass_through_except at most 2wh and compact at most 4w*w. Their calls nest exactly h deep (compact: at most one less; prune: the height of what is left). For every well formed rule set there is a c such that on the tree of any text of n chars the work of prune and flatten is at most c(n+1), that of pass_through_except and compact at most c(n+1)^2, and the nesting of all four at most c(n+1). All this is reached: compacting a text of n chars read by .* copies at least n*n chars, passing through n nested rules takes (n*n+9n+16)/2 units, and for every n there is a text of n+1 chars for whose tree all four tools nest deeper than n: no fixed stack is enough.",
  "all trees, all lists of names, all well formed rule sets and texts, all n",
  "bounds over all trees in both directions; a test sees one tree and one stack size",
  [AST + ":prune,pass_through_except,pthr_vn,compact,concat_nodes,compact_nodes", FL + ":flatten,flatten_acc", LIB + ":parse"])
p("C90", "what a parse copies: errors, clones and traces",
  "Every failed atom builds an error that holds the current line of the text and a message, and every alternative, turn of a repetition and negation clones the state with its pending error and its trace. Counted in chars, nothing that a parse returns is left out: the texts of the tree, or of the error, are at most what was copied. Without tracing, what is copied is at most a constant of the rules, times the longest line plus one, times the number of calls plus one. So for the grammars of C62 it is linear in the text when lines are short, and at most quadratic always. It is quadratic for `('b' / 'a')*` on a text of one line, although the calls are linear. With tracing it is quadratic even if all lines are empty, since the trace grows with the text and is cloned again and again.",
  "all rule sets, fuels and ascii texts; all lengths for the two examples",
  "A test measures some texts and machines; the constant that holds for all texts, and the growth for all lengths, need induction.",
  [PM + ":Error::from_status", PM + ":Status::clone", EX + ":parse_or", EX + ":parse_repeat", EX + ":parse_not", EX + ":parse_rule_name", LIB + ":parse_with_debug"])
p("C91","automata with a stack","Take an automaton with a stack of symbols: each move reads a char and puts any number of symbols in the place of the top one, and a text is read when the automaton is in a final state at its end, or when its stack is empty there.  If there is never more than one move, rules can be written down from the table of moves (one rule for each way from a state, past a symbol, to a state) so that parse returns Ok exactly for the ASCII texts the automaton reads, and a plain error for all others.  For automata that have to guess the same rules can miss texts.","all automata of the kind, with any number of states, symbols and moves; all ASCII texts; with and without trace","the number of automata and the depth of their stacks are not bounded",[EX+" parse_and, parse_or, parse_rule_name", LIB+" parse, parse_debug"])
p("C92","which children the nodes of a tree can have","In the tree of an accepted text the children of every node, at any depth, are as the rule of its name says: one piece of text for each literal, class or dot, one node for each reference, none for predicates, put together by sequence, choice and bounded repetition.  prune leaves out the named ones, compact makes one piece of text of each run of them, and pass_through_except puts the children of the unlisted rules in their place, so that what a consumer of the tree can meet after any chain of these tools can be told from the rules.  If the next char always tells what to do, no more can be told: everything a reachable rule says occurs in the tree of some text.  Without that condition an alternative can be hidden by an earlier one (witness).","all sane rule sets, all texts, all trees, all lists of names; the last part all predictive rule sets","the children of a node are one word of an infinite set, and a test sees only a few trees",[EX+" parse_expr, parse_rule_name", AT+" parse", AST+" prune, compact, pass_through_except"])
p("C93","rules without recursion","If no rule refers to itself, directly or through others, and no loop can go round without reading, the number of calls parse makes is at most a polynomial in the length of the text.  Its degree is how deep repetitions without an upper bound are nested once names are replaced by what they stand for: 0 if there are none, 1 (linear time) if none is inside another.  No smaller degree will do: for every d there are such rules that need a constant part of n^d calls on every ASCII text of n chars.  A fixed stack is enough for rules without recursion: how deep the calls nest and how high the trees are does not depend on the text.","all rule sets without recursion, all texts, with and without trace; all degrees","Bounds over all texts, with a degree read off the rules; a test measures a few texts and cannot see a degree.",
  [EX + ":parse_repeat,parse_rule_name,parse_not,parse_and,parse_or", LIB + ":parse"])
p("C94","rules without recursion and regular expressions","If no rule refers to itself, directly or through others, the texts that parse accepts are exactly those of a finite automaton, and of a regular expression, whatever predicates, ordered choices, greedy loops, error messages and missing rules the rules contain; the texts on which parse never returns are those of a finite automaton as well.  The other way round, for every finite automaton and every regular expression there is a single rule that refers to no rule, has no empty loop, and accepts exactly its ASCII texts.  So in every long accepted text there is a part near its start that can be left out or repeated, and rules without recursion cannot match pairs: if they accept as many x as y for all numbers they also accept different numbers.","all rule sets without recursion (with sane repetition bounds) and all texts; all automata and regular expressions","An equality of two infinite sets of texts, for every rule set; no number of sample texts shows that an automaton exists, or that no rule set without recursion can do something.",
  [EX + ":parse_repeat,parse_rule_name,parse_not,parse_and,parse_or", LIB + ":parse", AT + ":parse_literal,parse_match,parse_dot"])
p("C95","what a tool can tell about rules without recursion","For rules where no rule refers to itself, directly or through others, a program can answer, and give a text where there is one: is any text accepted; are all ASCII texts accepted; is there an ASCII text on which parse never returns; is a given message of an error clause or of a missing rule ever reported; do two such rule sets accept the same texts; does one accept all that the other does; is there a text both accept.  A program can also tell whether a rule set is of this kind.  (With recursion the same questions are as hard as Post's problem: C79, C83, C98.)","all rule sets without recursion (with sane repetition bounds), all messages, all texts","Each answer speaks about all texts, and a program that gives it must be right for every rule set; a test finds texts but cannot say that there are none.",
  [EX + ":parse_repeat,parse_rule_name,parse_not,parse_and,parse_or", LIB + ":parse", AT + ":parse_literal,parse_match,parse_dot,parse_error"])
p("C96","lines can be checked one by one",
  "If a line rule never asks for the line end, has no dot and does not test for the end of the text, then to it the line end is like the end of the text: it does on a line in a file just what it does on that line parsed alone. Rules of the form main = (line 'c')* accept exactly the texts whose lines are all accepted one by one and whose last line is ended; the tree is what the lines give, in order, each followed by its line end; the calls add up. There is one more condition: on the empty text, which comes after the last line, the line rule must not give a message (error) or run for ever; otherwise every text is rejected, or never answered. If a line is not accepted, the first such line alone decides whether the parse returns, which message it gives and how far into the line; without a message, the error stands in that line, line end included, and does not depend on the lines after it. With newlines, the row of the error is the number of lines before it, except that an error at the newline itself is reported at the start of the next row.",
  "every rules, every line expression that is a stranger to the line end, every list of lines of ASCII text and everything that follows the first bad line",
  "a test has one file; whether a line means the same in every file, whatever comes before and after it, is a statement about all files",
  [EX+": parse_expr, parse_and, parse_repeat", AT+": parse_literal, parse_match, parse_dot", PM+": parse_with_debug, error_from_status"])
p("C97","rules as a lexer",
  "Rules of the form main = (n1 / n2 / ..)* cut a text into tokens: parse accepts exactly the texts that can be cut into non-empty tokens, each taken by the first rule of the list that does not fail where it starts, if no token starts at the end of the text; the tree is the list of these tokens, and there is one way to cut. pass_through_except with the names of the token rules, then compact and flatten, give the plain list of names and texts, whatever rules the token rules use. A text is rejected without a message exactly when something is left where no token starts, and the error never stands before that place; a message is that of the first token to give one; where a token is empty the parse never returns. If no two tokens can start at the same place the order of the rules does not matter; in general it does.",
  "every rules for tokens, every list of them, every ASCII text",
  "tests try some token lists and texts; that the tree is the greedy cut of the text, for all rules and texts, is a universal statement",
  [EX+": parse_expr, parse_or, parse_repeat", PM+": parse_with_debug", AST+": pass_through_except, compact", FL+": flatten"])
p("C98","more questions about rules that are as hard as Post's problem",
  "Rules can go on after an accepted text, main = e !. x, and what x does happens for exactly the texts that e accepts: with w = w parsing never ends for them, with error(m) or a rule that is not defined they lead to that message at the end of the text, with w = '' they are marked in the tree. So whether parsing ends for all texts, whether a message can appear, whether a missing rule matters, whether a rule is ever used and whether all texts are accepted are each Post's correspondence problem for rules made from tiles, and a tool that answered one of these for all rules would solve it; for rules without recursion they can all be answered (C95). (C79 and C83 have other such questions.) And no grammar accepts exactly the grammar texts that do not accept themselves.",
  "all rule sets, expressions and ASCII texts; all finite sets of tiles with ASCII words; all tools as functions from rules to answers; all grammar texts",
  "The claims are about the existence of a text among infinitely many, for every rule set, and about every possible tool.",
  [LIB+":parse", EX+":parse_expr", AT+":parse_atom", PEG+":rules_from_peg"])
p("C99","searching a text",
  "main = (!n .)* n .* finds the first place of a text where the rule n matches: the tree has the chars before it one by one, the node of n, and the chars after it. At the places before, n may fail or give a message, which are both hidden; a text is rejected without a message when n matches nowhere, and the only message that comes through is that of n at the end of the text. The search ends if and only if it gets to a match or to the end. main = (n / o)* with o = . finds all matches, each as soon as possible after the one before; there is one way to do it, every text is accepted where n gives no message and no empty match, and prune with the name of one of the rules leaves the hits, or the text without them. A rule that can match the empty text is found at once, and the search for all its matches never returns.",
  "all rule sets whose rules do not use main, all rule names, all ASCII texts, both debug modes",
  "The first match is a claim about all earlier places of every text, for every rule; that all matches are found, and that nothing else is, is about all ways to cut a text.",
  [LIB+":parse", EX+":parse_repeat", EX+":parse_not", AT+":parse_dot", AST+":prune"])
p("C100","comments in comments",
  "For marks o and c, of which neither is the start of the other, comment = o (comment / !o !c .)* c accepts exactly the texts that are one comment: counting the marks from left to right, the count comes back to 0 at the end of the text and not before. The tree has a node for each comment, all other texts are rejected without a message, and the number of calls is linear in the text. Without !o, n comments that are not closed take at least 2^n calls; if the marks are single chars it makes no other difference, but in general it does: then a text as /* /*/ is accepted.",
  "all pairs of marks, all ASCII texts, both debug modes, all numbers of open comments",
  "Comments can be nested to any depth; the claims are about all texts, and the exponential time shows only for texts that tests do not have.",
  [LIB+":parse", EX+":parse_or", EX+":parse_repeat", EX+":parse_not", EX+":parse_rule_name", AT+":parse_literal"])
p("C101","blocks with several kinds of marks",
  "For kinds of blocks with marks o1 c1, o2 c2, .. of which none is the start of another, block = o1 inside (c1 / error('m1')) / o2 inside (c2 / error('m2')) / .., inside = (block / !(any mark) .)* does what a reader with a stack of open blocks does: a text is accepted if the last open block is closed at its end and not before; a message is given if the text ends, or a mark closes, while another block is on top of the stack: the message of that block, at that place; other texts are rejected without a message. The tree has a node for each block. Every parse ends, and the number of calls is linear in the text and in the number of kinds. Where a mark is the start of another one, a text in which all blocks could be closed may be rejected.",
  "all lists of kinds, all ASCII texts",
  "Blocks can be nested in any order and to any depth, there is any number of kinds, and the message has to name the right block at the right place for every text.",
  [LIB+":parse", LIB+":error!", EX+":parse_or", EX+":parse_repeat", EX+":parse_not", EX+":parse_rule_name", AT+":parse_literal", AT+":parse_error"])
p("C102","going on after a bad line",
  "With rules 'main = (e \"c\" / bad \"c\")*' and 'bad = (!\"c\" .)*', where e never asks for the char c, a parse goes on after a bad line: every text of ended lines is accepted, a line that e accepts alone gives its nodes and any other line gives a node bad with its chars, and every line gives exactly one of these. The last line must be ended. A line for which e gives an error message of the grammar cannot be set aside: the parse ends with that message, at its place in the line. A line on which e does not terminate cannot be set aside either. The number of calls is at most the sum for the lines alone plus 11 per char plus a constant. The variant '((e / bad) \"c\")*' does not have the property.",
  "all rules, expressions, line ends, lists of lines, with and without debug output",
  "A test tries a few lines with a few mistakes; that no bad line can disturb its neighbours is about all lines and all rules.",
  [f"{LIB}:parse", f"{EX}:parse_or", f"{EX}:parse_repeat", f"{EX}:parse_not", f"{EX}:parse_rule_name", f"{AT}:parse_literal"])
p("C103","rules that ignore case",
  "Let f say how chars count, for example capital letters as small ones. If each literal in the rules is exchanged for a sequence of classes, one for each char c with all chars that count as c, and each class gets all chars that count as one of its chars, then the new rules accept a text exactly if the old rules accept the text with every char replaced by what it counts as. The tree is the old one with the chars of the text, a leaf for each char of a literal. Error messages of the rules are the same at the same places, the parse ends for the same texts, and the number of calls grows at most by the factor L+1 where L is the length of the longest literal. So texts that differ only in what is ignored get the same answer, and texts that f does not change get the old answers. The old rules have to be written with chars that f gives: capital letters in a literal of the old rules match nothing.",
  "all rules, all maps of ASCII chars to ASCII chars, all ASCII texts, with and without debug output",
  "A test tries some spellings of some words; the claim is about every spelling of every text and about arbitrary rules with negation and recursion.",
  [LIB+":parse", EX+":parse_and", EX+":parse_or", EX+":parse_not", EX+":parse_repeat", AT+":parse_literal", AT+":parse_match", AT+":MatchRules"])
p("C104","texts and trees can be edited",
  "For rules where the next char always tells what to do (as in C61): if a node of the tree of an accepted text is exchanged for a node of the same rule taken from the tree of any accepted text, then the new tree is exactly what parse gives for the new text, and the new text is the old one with the leaves of the new node in place of those of the old node. So after an edit inside what a node spells it is enough to parse the new part with the rule of the node; the rest of the tree stays. Every node of a tree can be exchanged so. For rules in general this is false: the new text can be rejected.",
  "all rules where the next char decides, all accepted texts, all nodes of their trees, all replacements, with and without debug output",
  "A test edits some texts at some places; the claim is that no edit of a part can change how the rest of any text is read.",
  [LIB+":parse", EX+":parse_or", EX+":parse_and", EX+":parse_repeat", EX+":parse_rule_name"])
p("C105","words in place of chars",
  "Let words (keywords, escape sequences, tokens with the blanks after them) count as chars, no word being empty or the start of another one. If in rules for texts of these chars every char is exchanged for the words that count as it (a literal for a sequence, a class or dot for a choice of words), then the new rules accept exactly the texts of words that count as a text the old rules accept, with the same trees but for words in place of chars. Every text counts as at most one text of chars. Error messages are the same and stand after the words for the chars before them, always between words. Parses end for the same texts, and the number of calls grows at most by the factor (L+1)(W+1), L being the length of the longest literal and W the number of words. If a word may be the start of another one, this is false.",
  "all rules, all codes in which no word is the start of another, all texts, with and without debug output",
  "The claim is about all rules, with negation, recursion and messages, and about every text of words, and says that no other text is accepted.",
  [LIB+":parse", EX+":parse_and", EX+":parse_or", EX+":parse_not", EX+":parse_repeat", AT+":parse_literal", AT+":parse_match"])
p("C106","what the AST tools hide does not depend on how rules are cut up",
  "Consider trees after prune(a), pass_through_except(k) and compact. If parts of rules are replaced by parts that match the same prefixes with trees that look the same after these tools, then parsing every text gives trees that look the same, errors for the same texts and the same messages. Such replacements are: moving a part to a helper rule that is neither pruned nor kept and writing such a rule out, cutting a literal in two, r = e r / e against e+, r = e sep r / e against e (sep e)*, and any change of a pruned rule that keeps the prefixes it matches. With an empty literal as last alternative the recursion leaves an empty piece of text behind, and kept rules show how the rules are cut (witnesses).",
  "all rules, all replacements in any number of places, all lists of pruned and kept names, all texts",
  "Users restructure rules and expect the consumer of the tidied tree to go on working for every text; tests compare trees of some texts.",
  [LIB+":parse", AST+":compact", AST+":prune", AST+":pass_through_except", EX+":parse_and", EX+":parse_repeat", AT+":parse_literal"])
p("C107","the error of a grammar text with a defect is determined in full by its syntax tree",
  "If rules_from_peg fails on a text, the error is either the syntax error of the parser handed through, or it is the error of the first defect in the syntax tree of the text: an empty single-quoted literal, or a sequence that goes on after error(...) ended it. Its descriptions are exactly the constructs on the way to that defect, outermost first, with the labels 'or:' below an expression and 'n:<kind>' below an atom, its cause is one of two messages, and what stands to the right of the first defect does not matter. A text without a defect is never blamed.",
  "all grammar texts, all trees, all nesting depths of modules, parentheses and sequences",
  "tests check a few messages; the claim fixes the complete error for every defective text, wherever the defect is and whatever surrounds it",
  [PEG+":consuming_rule",PEG+":consume_or",PEG+":consume_atom",PEG+":consume_atom_or_par",PEG+":consume_literal_no_esc",PEG+":rec_consume_and",PEG+":rules_from_peg"])
p("C108", "what a rule set means does not depend on the calls that built it",
  "However a program builds a rule set, with SetOfRules::new, the rules macro, add, merge, and rule sets read from PEG texts, in any order and nesting and with any iteration order of the maps, each name is bound to the definition that came last (the receiver of a merge counts as later than its argument) and to nothing if there was none. One use of the macro on the list of definitions gives the same map and the same answer for every text. Two histories give the same map exactly when they end with the same bindings. Merging is associative and idempotent, has the empty set as neutral element, and commutes exactly when the two sets agree on common names; adding overwrites, additions of different names commute, and adding is merging a single definition as the receiver. The rule sets a program can hold are exactly the finite maps from names to expressions.",
  "all histories of calls that build rule sets, all texts, both debug settings, all amounts of fuel",
  "Tests build a few rule sets in one fixed way; the claim is about every sequence and nesting of calls and every iteration order of a hash map.",
  [EX+":SetOfRules::new", EX+":SetOfRules::add", EX+":SetOfRules::merge", LIB+":rules!", LIB+":rules_from_peg"])
p("C109", "a second branch goes to the nearest statement that can take it",
  "Let statements be i statement, i statement e statement, or x (as in if-then-else), with marks i and x that are not the start of each other and a mark e that is not empty. The rules stmt = i stmt (e stmt)? / x accept exactly the texts of statements, that is, the texts where each e finds an i before it that has none yet. A text can be read as several statements; the tree is the one where each second branch belongs to the nearest i that can take it, and there is exactly one such reading. All other texts are rejected with a plain error. The calls made are linear on texts of statements and at most quadratic on other texts, and some need it. With the long alternative first (stmt = i stmt e stmt / i stmt / x) the results are the same but correct texts take exponential time; with the short alternative first no text with a second branch is accepted.",
  "all marks, all texts of any length and nesting, with and without debug output",
  "Tests try a few nestings; the claim is about the reading of every ambiguous text and about the work for every length.",
  [LIB+":parse", EX+":parse_or", EX+":parse_and", EX+":parse_repeat", EX+":parse_rule_name"])
p("C110", "a five-line grammar reads CSV files",
  "The grammar main = row (newline row)*, row = field (, field)*, field = quoted / plain, where a quoted field stands in quotes with each inner quote written twice and a plain field has no quote, comma or new line, accepts exactly the texts of CSV tables (at least one row, each with at least one field) and gives the tree of the table; all other texts are rejected with a plain error. The same holds with any three different chars. No text and no tree belongs to two tables. Every table of strings, with any chars in the fields, can be written, with quotes on all fields or only on those that need them, and then comes back. All texts, right or wrong, take linear time. The error of a wrong text stands just behind the first mistake, which follows the text of a table: a quote in a field without quotes, a quote that is never closed, or a char behind a closing quote that is no separator; there is only one such mistake in a text.",
  "all tables of any size with any field contents, all texts, all three distinct chars, with and without debug output",
  "Tests try a few files; the claim is that no field content can break the format and that no wrong file is accepted.",
  [LIB+":parse", LIB+":rules_from_peg", EX+":parse_repeat", EX+":parse_not", EX+":parse_or", AT+":parse_literal", AT+":parse_dot"])
p("C111", "programs that walk over a tree with the consuming helpers",
  "A program that walks over the tokens of flatten with peek_first_node, get_node_val, consume_val, get_nodename, consume_node_start_rule_name and consume_node_end_rule_name, doing anything it likes (also failing) at texts and rules, gives exactly what a recursion over the tree gives: children first, from left to right, with the first failure as its failure. On tokens that are not well bracketed it ends with an error; it always ends. A program that walks over slices of nodes with check_empty_nodes, split_first_nodes, get_node_val and get_nodename_and_nodes gives the same on every result of parse. Nothing is lost: a program can build the tree again. With EOF nodes, which parse never makes, the two ways differ (witness).",
  "all trees, all token lists, all functions done at texts and rules",
  "Tests walk over a few trees with one function; the claim is about every tree, every token list and every walker.",
  [FL+":flatten", FL+":peek_first_node", FL+":get_node_val", FL+":consume_val", FL+":get_nodename", FL+":consume_node_start_rule_name", FL+":consume_node_end_rule_name", AST+":split_first_nodes", AST+":get_nodename_and_nodes", AST+":check_empty_nodes"])
p("C112","a calculator computes the value of its text",
  "A program that reads the documented calculator grammar with rules_from_peg, parses a text, tidies the tree with compact, prune and pass_through_except, flattens it and walks over the tokens with the consuming helpers returns a value exactly for the texts that have one in the usual (left recursive) grammar of sums of products of numbers and parenthesised sums with blanks around operators, and returns that value: products before sums, operators of one level from left to right. It reports a failing operation exactly if the value does not exist for that reason, and a syntax error exactly for the other ASCII texts. No helper ever finds a token it does not expect. A text has one value at most.",
  "all texts, all kinds of numbers, all ways to read them and all partial operations on them",
  "Tests compute some formulas; the claim is about every formula with any nesting and blanks, and every wrong text.",
  [LIB+":parse", PEG+":rules_from_peg", AST+":Node::compact,Node::prune,Node::pass_through_except", FL+":flatten", FL+":consume_node_start_rule_name", FL+":consume_node_end_rule_name", FL+":consume_val", FL+":consume_this_value", FL+":peek_first_node", FL+":get_node_val"])
p("C113","a JSON reader gives the value that is written",
  "A program that reads the JSON grammar of C77 with rules_from_peg, parses a text, drops the blanks with prune, joins chars with compact and walks over slices of nodes with consume_node_get_subnodes_for_rule_name_is, consume_val, consume_this_value, get_nodes_unique_val, peek_first_node and check_empty_nodes returns a value exactly for the ASCII texts that are JSON, and it is the value that is written; it reports a syntax error exactly for the other ASCII texts. No helper ever finds a node it does not expect. Every value that is written out comes back.",
  "all ASCII texts, all JSON values of any size and depth",
  "Tests read some JSON texts; the claim is about every text and value.",
  [LIB+":parse", PEG+":rules_from_peg", AST+":Node::compact,Node::prune", AST+":consume_node_get_subnodes_for_rule_name_is", AST+":consume_val", AST+":consume_this_value", AST+":get_nodes_unique_val", AST+":peek_first_node", AST+":check_empty_nodes", AST+":get_nodename_and_nodes", AST+":get_node_val"])
p("C114","rules for numbers in a range accept these numbers and no others",
"For any list of bounds and any separator that is not a digit, a rule made from the digits of the bounds (a smaller digit and then any digits, or the same digit and so on; numbers with fewer digits; zero) accepts exactly the texts of as many numbers, each up to its bound and written without leading zeros, with the separator between them, as in addresses (four numbers up to 255) and times. The tree has the chars of the text, the text says what the numbers are, and every other ASCII text is rejected with an ordinary error. Trying the short numbers first does not work.",
"all lists of bounds, all ASCII separators that are not digits, all texts, both debug settings",
"The rules depend on the bounds, of which there are infinitely many; whether a bound is missed by one is seen only at the numbers next to it, for each number of digits.",
[LIB+":parse",EX+":parse_or",EX+":parse_and",AT+":parse_match"])
p("C115","options in any order, none of them twice",
"For any mark and any lists of required and known words without the mark, a rule that first looks for each required option in the rest of the text, and then takes known options as long as the same option does not come again, accepts exactly the texts of lists of known options with all the required ones, in any order and none of them twice. Its length is that of the lists, though there may be n! texts. The tree has the options in the order of the text, and every other ASCII text is rejected with an ordinary error. A plain repetition of a choice does not do this.",
"all marks, all lists of words without the mark (also words that begin with others), all texts, both debug settings",
"The orders are too many to try for longer lists, and whether a look ahead finds a word inside another option depends on the words.",
[LIB+":parse",EX+":parse_not",EX+":parse_repeat",EX+":parse_or"])
p("C116","a choice of words written as a tree of chars",
"A list of words can be written as an expression that branches char by char. In any rules it matches the longest of the words that the text goes on with, whatever their order, and fails if there is none; alone it accepts exactly the words and rejects every other ASCII text with an ordinary error. The number of calls is bounded by the size of the alphabet and the length of the text, whatever the number of words, while a choice of literals makes a call for every literal if none fits.",
"all lists of words (also words that begin with others, or repeated ones), all texts, all rule sets around the expression, both debug settings",
"The expression is built from the words, and whether a shorter word is found after a longer one fails halfway depends on all of them; the cost claim is about all numbers of words.",
[LIB+":parse",EX+":parse_or",EX+":parse_and",AT+":parse_literal"])
p("C117","long texts have parts that can be repeated, unless there are predicates",
  "For every grammar read as BNF there is a length such that every longer text it generates has two parts, not both empty and within that length of each other, that can be left out or repeated equally often: all these texts are generated too. The same holds for the accepted texts of rules where the next char always tells what to do (C61). So such rules can match pairs, but they cannot ask for three equal numbers: if they accept n times x, n times y, n times z for all n >= 1, they accept other texts too, and so it is with generated texts. Nor can they ask for a text to come again, as a name in a closing tag: if they accept t, a mark and t again for all texts t of two chars, they accept other texts too. In general it is false: no text that the rules of C72 accept, however long, has such parts; it is their predicate that makes the difference.",
  "all rule sets with sane bounds, all expressions, all texts, all numbers of repetitions, all chars",
  "The parts exist in every long text and can be repeated any number of times, and the impossibility speaks about all rule sets; tests look at single texts of single rule sets.",
  [LIB+":parse", EX+":Expression", EX+":parse_expr"])
p("C118","fields between separators can be checked one by one",
  "If field does not ask for the separator, neither itself nor through its rules, main = field (',' field)* accepts a text iff it is a list of fields, each of which is accepted when taken out and parsed alone; the tree has what the fields give, in order, with the separators between. With ','? at the end of the rule, one separator more is accepted at the end, if field rejects the empty text without a message; otherwise the option changes nothing. The first field that is not accepted decides: whether the parse returns, and which message it gives, is as for that field alone, and otherwise the error stands in that field or its separator, the same whatever follows. Rows of fields, (field (',' field)* newline)*, are accepted iff all their fields are. It is false for fields that take separators, and (field ','?)* is not a list.",
  "all rule sets with sane bounds that do not use main, all field expressions that do not ask for the separator, all separators, all ASCII texts, debug on or off",
  "Lists have any number of fields of any shape, and the statement is an equivalence for all rules; tests try a few lists.",
  [LIB+":parse", EX+":parse_and", EX+":parse_repeat", AT+":parse_literal"])
p("C119","the pretty output nests",
  "In the pretty Debug output of a tree each child is printed as it is printed alone, moved to the right by four spaces for each bracket around it, one below the other with commas between; so are the rules of a rule set and the parts of an expression. Strings are printed without line breaks, so the number of lines of a printed tree depends on its shape only.",
  "all trees, rule sets and expressions, with and without the trailing commas of later versions of Rust",
  "Values nest to any depth and hold any text; a test compares a few outputs.",
  [AST+":Node", EX+":SetOfRules,Expression,RepInfo,NRep"])
p("C120","records of fixed width",
  "The rules main = record*, record = [..] [..] .. [..] with at least one class accept exactly the texts that are lists of records with a char of each class; the tree has the records in order, char by char, and compact gives each record in one piece; a text is one list of records only. If every char of the text is in every class, it is accepted iff its length is a multiple of the width. On any other text the error names the class of the first column that is not filled, and its place tells how many records and columns are right. With no class at all the parse never ends.",
  "all lists of char classes, all ASCII texts, debug on or off",
  "Any number of columns and records; the statement is an equivalence.",
  [LIB+":parse", EX+":parse_and", EX+":parse_repeat", AT+":parse_match"])
open('/verif/properties.jsonl','w').write("".join(json.dumps(x)+"\n" for x in P))
