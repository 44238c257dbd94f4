(** The unit tests of src/parser and the examples of the documentation, as computations of the model.  They are evidence
    that the model behaves as its authors expect of the program; the properties do not depend on them. *)
From Verif Require Import Base ModelAst ModelParser ModelPegRules ModelPeg ModelGcode SpecDocs ConformancePeg.

(** Position after a successful run, as (col, n, row). *)
Definition ends_at {A} (r : outcome perror (status * A)) : option (nat * nat * nat) :=
  match r with Ok (st, _) => Some (pcol (st_pos st), pn (st_pos st), prow (st_pos st)) | _ => None end.

(* ------------------------------------------------------------------------------------------- *)
(** * src/parser/atom/test.rs *)

(** 10-19, 21-30. *)
Example atom_literal_ok : ends_at (parse_literal (status_init (s_ "aaaaaaaaaaaaaaaa")) (s_ "aaa")) = Some (3, 3, 0) /\
  ends_at (parse_literal (status_init (s_ "abcdefghij")) (s_ "abc")) = Some (3, 3, 0).
Proof. split; vm_compute; reflexivity. Qed.

(** 32-51. *)
Example atom_literal_fail : is_err (parse_literal (status_init (s_ "abcdefghij")) (s_ "bbb")) = true /\
  is_err (parse_literal (status_init (s_ "abcdefghij")) (s_ "abd")) = true /\
  is_err (parse_literal (status_init (s_ "abcd")) (s_ "abcdefghij")) = true.
Proof. repeat split; vm_compute; reflexivity. Qed.

(** 53-72. *)
Example atom_literal_with_new_line :
  ends_at (parse_literal (status_init (s_ "aa" ++ nl ++ s_ "aaaaaaaaaaaaaa")) (s_ "aa" ++ nl ++ s_ "a")) = Some (1, 4, 1).
Proof. vm_compute. reflexivity. Qed.

(** 74-90. *)
Example atom_dot : let r1 := parse_dot (status_init (s_ "ab")) in ends_at r1 = Some (1, 1, 0) /\
  match r1 with Ok (st1, _) => let r2 := parse_dot st1 in ends_at r2 = Some (2, 2, 0) /\
    match r2 with Ok (st2, _) => is_err (parse_dot st2) = true | _ => False end | _ => False end.
Proof. vm_compute. auto. Qed.

(** 92-112. *)
Example atom_match_ok : let r1 := parse_match (status_init (s_ "a f0ghi")) (s_ "54321ed_cba") [] in ends_at r1 = Some (1, 1, 0) /\
  match r1 with Ok (st1, _) =>
    match parse_dot st1 with Ok (st2, _) =>
      let r3 := parse_match st2 [] [(102%N, 103%N); (104%N, 106%N)] in ends_at r3 = Some (3, 3, 0) /\
      match r3 with Ok (st3, _) => is_err (parse_match st3 [] [(102%N, 103%N); (104%N, 106%N)]) = true | _ => False end
    | _ => False end | _ => False end.
Proof. vm_compute. auto. Qed.

(** 114-127. *)
Example atom_match_err : let r1 := parse_match (status_init (s_ "a9")) (s_ "ed_cba") [] in ends_at r1 = Some (1, 1, 0) /\
  match r1 with Ok (st1, _) => is_err (parse_match st1 [] [(97%N, 122%N); (48%N, 56%N)]) = true | _ => False end.
Proof. vm_compute. auto. Qed.

(** 129-146. *)
Example atom_match_eof :
  match parse_match (status_init (s_ "a")) [] [(97%N, 122%N); (48%N, 57%N)] with Ok (st1, _) => is_ok (parse_eof st1) = true | _ => False end /\
  match parse_match (status_init (s_ "ab")) [] [(97%N, 122%N); (48%N, 57%N)] with Ok (st1, _) => is_err (parse_eof st1) = true | _ => False end.
Proof. vm_compute. auto. Qed.

(* ------------------------------------------------------------------------------------------- *)
(** * src/parser/test.rs *)

(** 9-73. *)
Example parser_tests :
  ends_at (expression_parse (rules_macro [(s_ "main", lit (s_ "aaa"))]) 20 (status_init (s_ "aaaaaaaaaaaaaaaa"))) = Some (3, 3, 0) /\
  ends_at (expression_parse (rules_macro [(s_ "main", And [lit (s_ "aa"); And [lit (s_ "bb"); lit (s_ "cc")]])]) 20 (status_init (s_ "aabbcc"))) = Some (6, 6, 0) /\
  ends_at (expression_parse (rules_macro [(s_ "main", Or [lit (s_ "bb"); And [lit (s_ "aa"); lit (s_ "bb")]])]) 20 (status_init (s_ "aabb"))) = Some (4, 4, 0) /\
  ends_at (expression_parse (rules_macro [(s_ "main", Not (lit (s_ "bb")))]) 20 (status_init (s_ "aa"))) = Some (0, 0, 0) /\
  ends_at (expression_parse (rules_macro [(s_ "main", rep0 (lit (s_ "aa")) 3)]) 20 (status_init (s_ "aaaaaa"))) = Some (6, 6, 0).
Proof. repeat split; vm_compute; reflexivity. Qed.

(* ------------------------------------------------------------------------------------------- *)
(** * src/parser/expression/test.rs *)

Definition on (s : str) (e : expr) : result_expr := parse_expr rules_new 30 (status_init s) e.
Definition as16 : str := s_ "aaaaaaaaaaaaaaaa".

(** 10-29, 31-62, 64-89. *)
Example expression_literal_and_not :
  ends_at (on as16 (lit (s_ "aaa"))) = Some (3, 3, 0) /\ is_err (on as16 (lit (s_ "bb"))) = true /\
  ends_at (on as16 (And [lit (s_ "aa"); lit (s_ "aa")])) = Some (4, 4, 0) /\ is_err (on as16 (And [lit (s_ "aa"); lit (s_ "bb")])) = true /\
  ends_at (on (s_ "aa") (Not (lit (s_ "bb")))) = Some (0, 0, 0) /\ is_err (on (s_ "aa") (Not (lit (s_ "aa")))) = true.
Proof. repeat split; vm_compute; reflexivity. Qed.

(** 91-148. *)
Example expression_or :
  ends_at (on as16 (Or [lit (s_ "aa"); lit (s_ "aa")])) = Some (2, 2, 0) /\ ends_at (on as16 (Or [lit (s_ "aa"); lit (s_ "bb")])) = Some (2, 2, 0) /\
  ends_at (on as16 (Or [lit (s_ "bb"); lit (s_ "aa")])) = Some (2, 2, 0) /\ is_err (on as16 (And [lit (s_ "cc"); lit (s_ "bb")])) = true.
Proof. repeat split; vm_compute; reflexivity. Qed.

(** 150-220. *)
Example expression_repeat :
  ends_at (on (s_ "aaaaaa") (Repeat (lit (s_ "aa")) 0 None)) = Some (6, 6, 0) /\ ends_at (on (s_ "aaaaaa") (Repeat (lit (s_ "aa")) 3 None)) = Some (6, 6, 0) /\
  ends_at (on (s_ "aaaaaa") (Repeat (lit (s_ "aa")) 0 (Some 3))) = Some (6, 6, 0) /\ ends_at (on (s_ "aaaaaa") (Repeat (lit (s_ "aa")) 0 (Some 1))) = Some (2, 2, 0) /\
  ends_at (on (s_ "aaaaaa") (Repeat (lit (s_ "bb")) 0 None)) = Some (0, 0, 0) /\ is_err (on (s_ "aaaaaa") (Repeat (lit (s_ "aa")) 4 None)) = true.
Proof. repeat split; vm_compute; reflexivity. Qed.

(* ------------------------------------------------------------------------------------------- *)
(** * src/lib.rs and src/parser/expression/mod.rs, examples of the macros and of rule sets *)

(** lib.rs:114-132, 152-163, 181-192, 226-237, 259-270, 277-290, 322-333, 350-361, 378-389, 410-436, 453-463, 494-505. *)
Example macro_examples :
  is_ok (parse 20 (s_ "aabc") (rules_macro [(s_ "main", And [lit (s_ "aa"); ref_rule (s_ "rule2")]); (s_ "rule2", And [lit (s_ "b"); lit (s_ "c")])])) = true /\
  is_ok (parse 20 (s_ "aa") (rules_macro [(s_ "main", lit (s_ "aa"))])) = true /\
  is_err (parse 20 (s_ "aa") (rules_macro [(s_ "main", error_ (s_ "aa"))])) = true /\
  is_ok (parse 20 (s_ "aa") (rules_macro [(s_ "main", And [dot_; dot_])])) = true /\
  is_ok (parse 20 (s_ "aabcdj") (rules_macro [(s_ "main", rep0 (ematch (s_ "cd") [(97%N, 98%N); (106%N, 112%N)]) 0)])) = true /\
  is_ok (parse 20 (s_ "a") (rules_macro [(s_ "main", Or [lit (s_ "z"); lit (s_ "a")])])) = true /\
  is_ok (parse 20 (s_ "a") (rules_macro [(s_ "main", And [Not (lit (s_ "b")); dot_])])) = true /\
  is_ok (parse 20 (s_ "aaaaaaaa") (rules_macro [(s_ "main", rep0 (lit (s_ "a")) 0)])) = true /\
  is_ok (parse 20 (s_ "aaa") (rules_macro [(s_ "main", rep2 (lit (s_ "a")) 0 3)])) = true /\
  is_ok (parse 20 (s_ "aaa") (rules_macro [(s_ "main", ref_rule (s_ "3a")); (s_ "3a", lit (s_ "aaa"))])) = true.
Proof. repeat split; vm_compute; reflexivity. Qed.

(** expression/mod.rs:53-69, 85-101. *)
Definition main_rule2 : rules := rules_macro [(s_ "main", And [rep2 (lit (s_ "a")) 1 5; ref_rule (s_ "rule2")])].
Example add_and_merge : is_ok (parse 20 (s_ "aabcd") (rules_add main_rule2 (s_ "rule2") (lit (s_ "bcd")))) = true /\
  is_ok (parse 20 (s_ "aabcd") (rules_merge main_rule2 (rules_macro [(s_ "rule2", lit (s_ "bcd"))]))) = true.
Proof. split; vm_compute; reflexivity. Qed.

(* ------------------------------------------------------------------------------------------- *)
(** * README.md, src/lib.rs, src/peg/mod.rs, examples with a grammar text *)

Definition with_rules {A} (text : str) (f : rules -> option A) : option A := match rules_from_peg fuel text with Ok rs => f rs | _ => None end.
Definition tree (s : str) (rs : rules) : option node := match parse fuel s rs with Ok t => Some t | _ => None end.
Definition message (s : str) (rs : rules) : option str := match parse fuel s rs with Err e => Some (e_descr e) | _ => None end.

(** lib.rs:12-32; README "Basic example" with the tree it shows for [a2Z]. *)
Example basic_example : unwrap_then (rules_from_peg fuel basic_text) (fun rs => is_ok (parse fuel (s_ "a2AA456bzJ88") rs)) = true /\
  with_rules basic_text (tree (s_ "a2Z")) =
  Some (Rule (s_ "main") [Rule (s_ "letter") [Val (s_ "a")]; Rule (s_ "letter_or_num") [Rule (s_ "number") [Val (s_ "2")]];
                          Rule (s_ "letter_or_num") [Rule (s_ "letter") [Val (s_ "Z")]]]).
Proof. split; vm_compute; reflexivity. Qed.

(** README "Example 2", with the tree it shows for [abcd], from a text and from macros. *)
Definition example2_rules : rules := rules_macro [
  (s_ "main", And [lit (s_ "a"); Or [And [lit (s_ "bc"); lit (s_ "c")]; lit (s_ "bcdd"); And [ref_rule (s_ "b_and_c"); ref_rule (s_ "d_or_z")]]]);
  (s_ "b_and_c", And [lit (s_ "b"); lit (s_ "c")]); (s_ "d_or_z", Or [lit (s_ "d"); lit (s_ "z")])].
Definition example2_tree : node := Rule (s_ "main") [Val (s_ "a"); Rule (s_ "b_and_c") [Val (s_ "b"); Val (s_ "c")]; Rule (s_ "d_or_z") [Val (s_ "d")]].
Example example2 : unwrap_then (rules_from_peg fuel example2_text) (fun rs =>
    is_ok (parse fuel (s_ "abcz") rs) && is_ok (parse fuel (s_ "abcdd") rs) && is_ok (parse fuel (s_ "abcc") rs) && is_err (parse fuel (s_ "bczd") rs)) = true /\
  with_rules example2_text (tree (s_ "abcd")) = Some example2_tree /\ tree (s_ "abcd") example2_rules = Some example2_tree.
Proof. repeat split; vm_compute; reflexivity. Qed.

(** lib.rs:37-81, README "Calculator example". *)
Example calculator_example :
  with_rules calculator_text (fun rs => option_map (fun t => pass_through_except [s_ "main"; s_ "add_t"; s_ "fact_t"] (prune [s_ "_"] (compact t)))
    (tree (s_ " 1 +  2*  3 +(5/5 - (8-7))") rs)) =
  Some (Rule (s_ "main") [
    Rule (s_ "add_t") [Rule (s_ "fact_t") [Val (s_ "1")]]; Val (s_ "+");
    Rule (s_ "add_t") [Rule (s_ "fact_t") [Val (s_ "2")]; Val (s_ "*"); Rule (s_ "fact_t") [Val (s_ "3")]]; Val (s_ "+");
    Rule (s_ "add_t") [Rule (s_ "fact_t") [Val (s_ "("); Rule (s_ "add_t") [Rule (s_ "fact_t") [Val (s_ "5")]; Val (s_ "/"); Rule (s_ "fact_t") [Val (s_ "5")]]; Val (s_ "-");
      Rule (s_ "add_t") [Rule (s_ "fact_t") [Val (s_ "("); Rule (s_ "add_t") [Rule (s_ "fact_t") [Val (s_ "8")]]; Val (s_ "-"); Rule (s_ "add_t") [Rule (s_ "fact_t") [Val (s_ "7")]]; Val (s_ ")")]];
      Val (s_ ")")]]]).
Proof. vm_compute. reflexivity. Qed.

(** lib.rs:86-105, README "Errors"; peg/mod.rs:165-189. *)
Example unbalanced_example : with_rules unbalanced_text (message (s_ "((hello)")) = Some (s_ "unbalanced parenthesis") /\
  with_rules unbalanced_text (message (s_ "(hello")) = Some (s_ "unbalanced parenthesis") /\
  unwrap_then (rules_from_peg fuel unbalanced_text) (fun rs => is_ok (parse fuel (s_ "hello") rs) && is_ok (parse fuel (s_ "(hello)") rs)
    && is_ok (parse fuel (s_ "((hello))") rs) && is_ok (parse fuel (s_ "(((hello)))") rs)) = true.
Proof. repeat split; vm_compute; reflexivity. Qed.

(** peg/mod.rs:115-142, 146-161. *)
Example peg_mod_examples : unwrap_then (rules_from_peg fuel hello_text) (fun rs => is_ok (parse fuel (s_ "hello world.") rs)) = true /\
  unwrap_then (rules_from_peg fuel comments_text) (fun rs => is_ok (parse fuel (s_ "hello world") rs)) = true.
Proof. split; vm_compute; reflexivity. Qed.

(** README, "An important note about the or". *)
Example shadowed_alternative : unwrap_then (rules_from_peg fuel shadow_text) (fun rs =>
  is_ok (parse fuel (s_ "hello") rs) && is_err (parse fuel (s_ "hello world") rs) && is_ok (parse fuel (s_ "hola") rs)) = true.
Proof. vm_compute. reflexivity. Qed.

(** gcode.rs:5-40: the code it shows, up to the order of the rules. *)
Definition gcode_text : str := nl ++ nl ++ s_ "             main            =   as / a  bs" ++ nl ++ nl ++ s_ "             as              =   a+" ++ nl ++ nl ++
  s_ "             a               =   'a'" ++ nl ++ nl ++ s_ "             bs              =   'b'+" ++ nl ++ nl.
Example gcode_example : with_rules gcode_text (fun rs => Some (map (fun k => rules_get rs (s_ k)) ["as"; "a"; "main"; "bs"]%string)) =
  Some [Some (rep0 (ref_rule (s_ "a")) 1); Some (lit (s_ "a")); Some (Or [ref_rule (s_ "as"); And [ref_rule (s_ "a"); ref_rule (s_ "bs")]]); Some (rep0 (lit (s_ "b")) 1)].
Proof. vm_compute. reflexivity. Qed.

(* ------------------------------------------------------------------------------------------- *)
(** * src/ast/mod.rs and src/ast/flat.rs, examples of the tools *)

(** ast/mod.rs:50-69, 96-119, 148-171. *)
Example ast_tools :
  prune [s_ "_1"; s_ "_2"] (Rule (s_ "root") [Rule (s_ "a") [Rule (s_ "_1") []; Rule (s_ "_2") []]]) = Rule (s_ "root") [Rule (s_ "a") []] /\
  pass_through_except [s_ "root"; s_ "a"; s_ "_2"] (Rule (s_ "root") [Rule (s_ "a") [Rule (s_ "_1") [Rule (s_ "_2") []]]]) =
    Rule (s_ "root") [Rule (s_ "a") [Rule (s_ "_2") []]] /\
  compact (Rule (s_ "root") [Rule (s_ "node") [Val (s_ "hello"); Val (s_ " "); Val (s_ "world")]]) = Rule (s_ "root") [Rule (s_ "node") [Val (s_ "hello world")]].
Proof. repeat split; vm_compute; reflexivity. Qed.

(** ast/mod.rs:212-434, the helpers. *)
Example ast_helpers :
  get_nodename_and_nodes (Rule (s_ "root") [Val (s_ "hello")]) = Ok (s_ "root", [Val (s_ "hello")]) /\
  get_node_val (Val (s_ "hello")) = Ok (s_ "hello") /\ get_nodes_unique_val [Val (s_ "hello")] = Ok (s_ "hello") /\
  is_err (get_nodes_unique_val [Val (s_ "hello"); Val (s_ "world")]) = true /\
  consume_val [Val (s_ "hello"); Val (s_ "world")] = Ok (s_ "hello", [Val (s_ "world")]) /\ consume_val [Val (s_ "world")] = Ok (s_ "world", []) /\
  consume_this_value (s_ "hello") [Val (s_ "hello"); Val (s_ "world"); Val (s_ ".")] = Ok [Val (s_ "world"); Val (s_ ".")] /\
  consume_node_get_subnodes_for_rule_name_is (s_ "hello") [Rule (s_ "hello") [Val (s_ "world")]] = Ok ([], [Val (s_ "world")]) /\
  check_empty_nodes [] = Ok tt /\ peek_first_node [Rule (s_ "hello") []; Val (s_ "world")] = Ok (Rule (s_ "hello") []).
Proof. repeat split; vm_compute; reflexivity. Qed.

(** flat.rs:44-80. *)
Example flat_flatten :
  flatten (Rule (s_ "first") [Rule (s_ "node1") [Val (s_ "hello"); Rule (s_ "node1.1") [Val (s_ " ")]]; Rule (s_ "node2") [Val (s_ "world")]]) =
  [FBegin (s_ "first"); FBegin (s_ "node1"); FVal (s_ "hello"); FBegin (s_ "node1.1"); FVal (s_ " "); FEnd (s_ "node1.1"); FEnd (s_ "node1");
   FBegin (s_ "node2"); FVal (s_ "world"); FEnd (s_ "node2"); FEnd (s_ "first")].
Proof. vm_compute. reflexivity. Qed.

(** flat.rs:97-302, the helpers. *)
Example flat_helpers :
  fconsume_node_start_rule_name (s_ "hello") [FBegin (s_ "hello"); FVal (s_ "world")] = Ok [FVal (s_ "world")] /\
  fconsume_node_end_rule_name (s_ "hello") [FEnd (s_ "hello"); FEnd (s_ "hi")] = Ok [FEnd (s_ "hi")] /\
  fsplit_first_nodes [FVal (s_ "hello"); FVal (s_ "world")] = Ok (FVal (s_ "hello"), [FVal (s_ "world")]) /\
  fpeek_first_node [FBegin (s_ "hello"); FVal (s_ "world")] = Ok (FBegin (s_ "hello")) /\ fget_node_val (FVal (s_ "hello")) = Ok (s_ "hello") /\
  fconsume_this_value (s_ "hello") [FVal (s_ "hello"); FVal (s_ "world")] = Ok [FVal (s_ "world")] /\ fget_nodename (FBegin (s_ "aaa")) = Ok (s_ "aaa") /\
  fconsume_val [FVal (s_ "hello"); FVal (s_ "world")] = Ok (s_ "hello", [FVal (s_ "world")]).
Proof. repeat split; vm_compute; reflexivity. Qed.
