(** A program that reads JSON with the crate: the grammar of SpecJson, then a walk over slices of nodes with the consuming helpers. *)
From Verif Require Import Base ModelAst ModelParser ModelPeg SpecDocs SpecJson.

(** What can go wrong: the grammar text, the text, or a tree of an unexpected shape. *)
Inductive read_error : Type :=
| OfGrammar (e : ModelPeg.peg_error)
| OfText (e : perror)
| OfTree (e : ast_error).

Definition unexpected {X} (what : str) : outcome ast_error X := Err (ast_mk_error (s_ "unexpected " ++ what) None).

(** The parts of a list, with a comma between them, up to the closing mark. *)
Fixpoint read_items {X} (fuel : nat) (item : list node -> outcome ast_error (X * list node)) (close : str) (nodes : list node)
  : outcome ast_error (list X) :=
  match fuel with
  | 0 => Fuel
  | S f =>
      let? (x, rest) := item nodes in
      let? (v, rest') := consume_val rest in
      if str_eqb v (s_ ",") then let? xs := read_items f item close rest' in Ok (x :: xs)
      else if str_eqb v close then let? _ := check_empty_nodes rest' in Ok [x]
      else unexpected v
  end.

Definition read_list {X} (fuel : nat) (item : list node -> outcome ast_error (X * list node)) (open close : str) (parts : list node)
  : outcome ast_error (list X) :=
  match get_nodes_unique_val parts with
  | Ok v => if str_eqb v (open ++ close) then Ok [] else unexpected v
  | _ => let? rest := consume_this_value open parts in read_items fuel item close rest
  end.

(** Without the quotes. *)
Definition read_string (parts : list node) : outcome ast_error str :=
  let? q := get_nodes_unique_val parts in Ok (removelast (tl q)).

(** A member of an object, given how to read a value. *)
Definition read_member (value : list node -> outcome ast_error (json * list node)) (nodes : list node) : outcome ast_error ((str * json) * list node) :=
  let? (rest, kids) := consume_node_get_subnodes_for_rule_name_is (s_ "member") nodes in
  let? (kids1, parts) := consume_node_get_subnodes_for_rule_name_is (s_ "string") kids in
  let? k := read_string parts in
  let? kids2 := consume_this_value (s_ ":") kids1 in
  let? (v, kids3) := value kids2 in
  let? _ := check_empty_nodes kids3 in
  Ok ((k, v), rest).

(** The first node, which has to be a value; the others are left. *)
Fixpoint read_value (fuel : nat) (nodes : list node) : outcome ast_error (json * list node) :=
  match fuel with
  | 0 => Fuel
  | S f =>
      let? (rest, kids) := consume_node_get_subnodes_for_rule_name_is (s_ "value") nodes in
      let? nd := peek_first_node kids in
      let? v :=
        match get_node_val nd with
        | Ok w =>
            if str_eqb w (s_ "null") then Ok JNull
            else if str_eqb w (s_ "true") then Ok JTrue
            else if str_eqb w (s_ "false") then Ok JFalse
            else unexpected w
        | _ =>
            let? (name, parts) := get_nodename_and_nodes nd in
            if str_eqb name (s_ "number") then let? n := get_nodes_unique_val parts in Ok (JNumber n)
            else if str_eqb name (s_ "string") then let? x := read_string parts in Ok (JString x)
            else if str_eqb name (s_ "array") then let? l := read_list f (read_value f) (s_ "[") (s_ "]") parts in Ok (JArray l)
            else if str_eqb name (s_ "object") then let? l := read_list f (read_member (read_value f)) (s_ "{") (s_ "}") parts in Ok (JObject l)
            else unexpected name
        end in
      Ok (v, rest)
  end.

Definition read_tree (fuel : nat) (tree : node) : outcome ast_error json :=
  let? (_, kids) := consume_node_get_subnodes_for_rule_name_is (s_ "main") [tree] in
  let? (v, rest) := read_value fuel kids in
  let? _ := check_empty_nodes rest in
  Ok v.

(** Read the grammar, parse, drop the blanks, join the chars, walk. *)
Definition read_json (fuel : nat) (s : str) : outcome read_error json :=
  let? rs := map_err OfGrammar (rules_from_peg fuel json_grammar) in
  let? ast := map_err OfText (parse fuel s rs) in
  map_err OfTree (read_tree fuel (compact (prune [s_ "ws"] ast))).
