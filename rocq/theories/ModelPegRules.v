(** Model of src/peg/rules.rs: the built-in rule set that parses PEG grammars.
    Generated by tools/gen_pegrules.py from the source text. *)
From Verif Require Import Base ModelAst ModelParser.

(** src/peg/rules.rs:3-40 [parse_peg]; one entry per source line 5-37, in source order. *)
Definition parse_peg_list : list (str * expr) := [
  (* line 5 *) (s_ "dot", lit (s_ "."));
  (* line 6 *) (s_ "module", And [ref_rule (s_ "_"); ref_rule (s_ "mod_name"); ref_rule (s_ "_"); lit (s_ "{"); ref_rule (s_ "_"); ref_rule (s_ "grammar"); ref_rule (s_ "_"); lit (s_ "}"); ref_rule (s_ "_eol"); ref_rule (s_ "_")]);
  (* line 7 *) (s_ "mline_comment", And [lit (s_ "/*"); rep0 (And [Not (lit (s_ "*/")); dot_]) 0; lit (s_ "*/")]);
  (* line 8 *) (s_ "_1", Or [lit (s_ " "); ref_rule (s_ "eol")]);
  (* line 9 *) (s_ "comment", Or [ref_rule (s_ "line_comment"); ref_rule (s_ "mline_comment")]);
  (* line 10 *) (s_ "or", And [ref_rule (s_ "and"); rep2 (And [ref_rule (s_ "_"); lit (s_ "/"); ref_rule (s_ "_"); ref_rule (s_ "or")]) 0 1]);
  (* line 11 *) (s_ "literal", Or [ref_rule (s_ "lit_noesc"); ref_rule (s_ "lit_esc")]);
  (* line 12 *) (s_ "mod_name", ref_rule (s_ "symbol"));
  (* line 13 *) (s_ "esc_char", Or [lit (s_ "\r"); lit (s_ "\n"); lit (s_ "\t"); lit (s_ "\\"); lit (s_ "\""")]);
  (* line 14 *) (s_ "atom", Or [ref_rule (s_ "literal"); ref_rule (s_ "match"); ref_rule (s_ "rule_name"); ref_rule (s_ "dot")]);
  (* line 15 *) (s_ "hex_char", And [lit (s_ "\0x"); ematch (s_ "") [(48%N, 57%N); (65%N, 70%N)]; ematch (s_ "") [(48%N, 57%N); (65%N, 70%N)]]);
  (* line 16 *) (s_ "parenth", And [lit (s_ "("); ref_rule (s_ "_"); ref_rule (s_ "expr"); ref_rule (s_ "_"); Or [lit (s_ ")"); error_ (s_ "unbalanced parethesis: missing ')'")]]);
  (* line 17 *) (s_ "and", Or [ref_rule (s_ "error"); And [ref_rule (s_ "rep_or_neg"); rep0 (And [ref_rule (s_ "_1"); ref_rule (s_ "_"); Not (And [ref_rule (s_ "rule_name"); ref_rule (s_ "_"); Or [lit (s_ "="); lit (s_ "{")]]); ref_rule (s_ "and")]) 0]]);
  (* line 18 *) (s_ "rule", And [ref_rule (s_ "_"); ref_rule (s_ "rule_name"); ref_rule (s_ "_"); lit (s_ "="); ref_rule (s_ "_"); ref_rule (s_ "expr"); ref_rule (s_ "_eol"); ref_rule (s_ "_")]);
  (* line 19 *) (s_ "grammar", rep0 (Or [ref_rule (s_ "rule"); ref_rule (s_ "module")]) 1);
  (* line 20 *) (s_ "match", And [lit (s_ "["); Or [And [ref_rule (s_ "mchars"); rep0 (ref_rule (s_ "mbetween")) 0]; rep0 (ref_rule (s_ "mbetween")) 1]; lit (s_ "]")]);
  (* line 21 *) (s_ "rep_or_neg", Or [And [ref_rule (s_ "atom_or_par"); rep2 (Or [lit (s_ "*"); lit (s_ "+"); lit (s_ "?")]) 0 1]; And [lit (s_ "!"); ref_rule (s_ "atom_or_par")]]);
  (* line 22 *) (s_ "_eol", And [rep0 (Or [lit (s_ " "); ref_rule (s_ "comment")]) 0; ref_rule (s_ "eol")]);
  (* line 23 *) (s_ "line_comment", And [lit (s_ "//"); rep0 (And [Not (ref_rule (s_ "eol")); dot_]) 0; ref_rule (s_ "eol")]);
  (* line 24 *) (s_ "lit_noesc", And [ref_rule (s_ "_'"); rep0 (And [Not (ref_rule (s_ "_'")); dot_]) 0; ref_rule (s_ "_'")]);
  (* line 25 *) (s_ "rule_name", And [rep2 (lit (s_ ".")) 0 1; ref_rule (s_ "symbol"); rep0 (And [lit (s_ "."); ref_rule (s_ "symbol")]) 0]);
  (* line 26 *) (s_ "_""", lit (s_ """"));
  (* line 27 *) (s_ "mchars", rep0 (And [Not (lit (s_ "]")); Not (And [dot_; lit (s_ "-")]); dot_]) 1);
  (* line 28 *) (s_ "expr", ref_rule (s_ "or"));
  (* line 29 *) (s_ "symbol", And [ematch (s_ "_") [(97%N, 122%N); (65%N, 90%N); (48%N, 57%N)]; rep0 (ematch (s_ "_'""") [(97%N, 122%N); (65%N, 90%N); (48%N, 57%N)]) 0]);
  (* line 30 *) (s_ "error", And [lit (s_ "error"); ref_rule (s_ "_"); lit (s_ "("); ref_rule (s_ "_"); ref_rule (s_ "literal"); ref_rule (s_ "_"); lit (s_ ")")]);
  (* line 31 *) (s_ "_'", lit (s_ "'"));
  (* line 32 *) (s_ "eol", Or [lit ([ch_cr; ch_nl]); lit ([ch_nl]); lit ([ch_cr])]);
  (* line 33 *) (s_ "lit_esc", And [ref_rule (s_ "_"""); rep0 (Or [ref_rule (s_ "esc_char"); ref_rule (s_ "hex_char"); And [Not (ref_rule (s_ "_""")); dot_]]) 0; ref_rule (s_ "_""")]);
  (* line 34 *) (s_ "mbetween", And [dot_; lit (s_ "-"); dot_]);
  (* line 35 *) (s_ "_", rep0 (Or [lit (s_ " "); ref_rule (s_ "eol"); ref_rule (s_ "comment")]) 0);
  (* line 36 *) (s_ "main", ref_rule (s_ "grammar"));
  (* line 37 *) (s_ "atom_or_par", Or [ref_rule (s_ "atom"); ref_rule (s_ "parenth")])
].

(** src/peg/rules.rs:4-39, the map made by [rules!]. *)
Definition parse_peg : rules := rules_macro parse_peg_list.
