(** Model of src/ast/mod.rs and src/ast/flat.rs. *)
From Verif Require Import Base.

(* ------------------------------------------------------------------------------------------- *)
(** * src/ast/mod.rs *)

(** src/ast/mod.rs:18-19 [struct Error(pub String, pub Option<String>)]. *)
Record ast_error := AstError { ast_descr : str; ast_context : option str }.

(** src/ast/mod.rs:31-33 [error]. *)
Definition ast_mk_error (desc : str) (ctx : option str) : ast_error := AstError desc ctx.

(** src/ast/mod.rs:37-45 [enum Node]. *)
Inductive node : Type :=
| Val (v : str)
| Rule (name : str) (children : list node)
| EOF.

(** [nodes2prune.iter().find(|n| *n == &nname).is_some()], src/ast/mod.rs:73 and 124. *)
Definition name_in (names : list str) (n : str) : bool := existsb (fun x => str_eqb x n) names.

(** src/ast/mod.rs:74-77 the closure [node2prune]. *)
Definition node2prune (names : list str) (nd : node) : bool :=
  match nd with Rule n _ => name_in names n | _ => false end.

(** src/ast/mod.rs:72-92 [Node::prune]; the [fold] of [prune_vn] (78-86) is the inner loop,
    with [acc.ipush(x)] = [acc ++ [x]]. *)
Fixpoint prune (names : list str) (nd : node) : node :=
  match nd with
  | EOF => EOF
  | Val v => Val v
  | Rule n vn =>
      Rule n ((fix prune_vn (acc : list node) (l : list node) : list node :=
                 match l with
                 | [] => acc
                 | x :: r => prune_vn (if negb (node2prune names x) then acc ++ [prune names x] else acc) r
                 end) [] vn)
  end.

(** src/ast/mod.rs:125-128 the closure [node2keep]. *)
Definition node2keep (names : list str) (nd : node) : bool :=
  match nd with Rule n _ => name_in names n | _ => true end.

(** src/ast/mod.rs:122-145 [Node::pass_through_except].  In Rust [pthr_vn] (123-139) and the method call
    each other; here [pthr names nd] returns what one element contributes to the accumulator of [pthr_vn]
    (one kept node, or the spliced list), and [pass_through_except] is the method itself. *)
Fixpoint pthr (names : list str) (nd : node) : list node :=
  match nd with
  | EOF => [EOF]
  | Val v => [Val v]
  | Rule n vn =>
      let inner :=
        (fix pthr_vn (acc : list node) (l : list node) : list node :=
           match l with
           | [] => acc
           | x :: r => pthr_vn (acc ++ pthr names x) r
           end) [] vn in
      if node2keep names nd then [Rule n inner] else inner
  end.

(** src/ast/mod.rs:123-139 [pthr_vn]. *)
Definition pthr_vn (names : list str) (l : list node) : list node :=
  fold_left (fun acc x => acc ++ pthr names x) l [].

(** src/ast/mod.rs:140-144. *)
Definition pass_through_except (names : list str) (nd : node) : node :=
  match nd with
  | EOF => EOF
  | Val v => Val v
  | Rule n vn => Rule n (pthr_vn names vn)
  end.

(** src/ast/mod.rs:175-178 [get_val]: value of the last node if it is a [Val]. *)
Fixpoint last_val (nodes : list node) : option str :=
  match nodes with
  | [] => None
  | [Val v] => Some v
  | [_] => None
  | _ :: r => last_val r
  end.

(** src/ast/mod.rs:174-197 [concat_nodes]; [rec n] stands for [Node::Rule((n.clone(), compact_nodes(vn)))]
    (193-195), which is what [compact] returns on a rule (206).  [nodes.ipop().1] is [removelast nodes]. *)
Definition concat_nodes (rec : node -> node) (nodes : list node) (n : node) : list node :=
  match n, last_val nodes with
  | EOF, _ => nodes ++ [EOF]
  | Val v, Some pv => removelast nodes ++ [Val (pv ++ v)]
  | Val v, None => nodes ++ [Val v]
  | Rule _ _, _ => nodes ++ [rec n]
  end.

(** src/ast/mod.rs:173-208 [Node::compact]; the inner loop is [compact_nodes] (198-202). *)
Fixpoint compact (nd : node) : node :=
  match nd with
  | EOF => EOF
  | Val v => Val v
  | Rule n vn =>
      Rule n ((fix compact_nodes (acc : list node) (l : list node) : list node :=
                 match l with
                 | [] => acc
                 | x :: r => compact_nodes (concat_nodes compact acc x) r
                 end) [] vn)
  end.

(** src/ast/mod.rs:225-230 [get_nodename_and_nodes]. *)
Definition get_nodename_and_nodes (nd : node) : outcome ast_error (str * list node) :=
  match nd with
  | Rule n ns => Ok (n, ns)
  | _ => Err (ast_mk_error (s_ "expected node::Rule") None)
  end.

(** src/ast/mod.rs:242-247 [get_node_val]. *)
Definition get_node_val (nd : node) : outcome ast_error str :=
  match nd with
  | Val v => Ok v
  | _ => Err (ast_mk_error (s_ "expected node::Val") None)
  end.

(** src/ast/mod.rs:272-277 [get_nodes_unique_val]. *)
Definition get_nodes_unique_val (nodes : list node) : outcome ast_error str :=
  match hd_error nodes, length nodes with
  | Some n, 1 => get_node_val n
  | _, _ => Err (ast_mk_error (s_ "expected only one value in nodes") None)
  end.

(** src/ast/mod.rs:334 and 360, src/ast/flat.rs:192 and 256. *)
Definition msg_empty_slice : str := s_ "trying get first element from nodes on empty slice".

(** src/ast/mod.rs:331-335 [split_first_nodes]. *)
Definition split_first_nodes (nodes : list node) : outcome ast_error (node * list node) :=
  match nodes with
  | n :: r => Ok (n, r)
  | [] => Err (ast_mk_error msg_empty_slice None)
  end.

(** src/ast/mod.rs:300-306 [consume_val]. *)
Definition consume_val (nodes : list node) : outcome ast_error (str * list node) :=
  let? (nd, rest) := split_first_nodes nodes in
  match nd with
  | Val v => Ok (v, rest)
  | _ => Err (ast_mk_error (s_ "expected Val node") None)
  end.

(** src/ast/mod.rs:352-364 [consume_this_value]. *)
Definition consume_this_value (v : str) (nodes : list node) : outcome ast_error (list node) :=
  let? (nd, rest) := split_first_nodes nodes in
  let? nv := get_node_val nd in
  if str_eqb nv v then Ok rest else Err (ast_mk_error msg_empty_slice None).

(** Part of [{:?}], src/ast/mod.rs:397.  Lower-case hex digits of a number below 256, without leading zero. *)
Definition hex_digit (n : N) : char := if N.ltb n 10 then N.add 48 n else N.add 87 n.
(** Part of [{:?}], src/ast/mod.rs:397: one or two hex digits. *)
Definition hex_short (n : N) : str := if N.ltb n 16 then [hex_digit n] else [hex_digit (N.div n 16); hex_digit (N.modulo n 16)].

(** Part of [{:?}], src/ast/mod.rs:397 and src/parser/atom/mod.rs:150.  [char::escape_debug] of a char that is not a quote or a backslash: tab, CR, LF and NUL have short forms, the other
    ASCII control chars print as hex, and so do those from 128 to 159, the no-break space (160) and the soft hyphen (173).
    Simplification: the chars from 256 on print as themselves (Rust escapes unprintable and combining ones). *)
Definition escape_plain (c : char) : str :=
  if N.eqb c ch_nl then s_ "\n" else if N.eqb c ch_cr then s_ "\r" else if N.eqb c ch_tab then s_ "\t"
  else if N.eqb c 0 then s_ "\0"
  else if N.ltb c 32 || (N.leb 127 c && N.leb c 160) || N.eqb c 173 then s_ "\u{" ++ hex_short c ++ s_ "}"
  else [c].

(** [{:?}] of a [str], in that of a node: src/ast/mod.rs:397; single quotes are not escaped. *)
Definition debug_str (s : str) : str :=
  [ch_dquote] ++
  flat_map (fun c =>
    if N.eqb c ch_dquote then [ch_bslash; ch_dquote]
    else if N.eqb c ch_bslash then [ch_bslash; ch_bslash] else escape_plain c) s
  ++ [ch_dquote].

(** Derived [Debug] of [Node] (src/ast/mod.rs:36). *)
Fixpoint debug_node (nd : node) : str :=
  match nd with
  | EOF => s_ "EOF"
  | Val v => s_ "Val(" ++ debug_str v ++ s_ ")"
  | Rule n vn =>
      s_ "Rule((" ++ debug_str n ++ s_ ", [" ++
      (fix go (l : list node) : str :=
         match l with
         | [] => []
         | [x] => debug_node x
         | x :: r => debug_node x ++ s_ ", " ++ go r
         end) vn ++ s_ "]))"
  end.

(** src/ast/mod.rs:380-401 [consume_node_get_subnodes_for_rule_name_is]. *)
Definition consume_node_get_subnodes_for_rule_name_is (name : str) (nodes : list node)
  : outcome ast_error (list node * list node) :=
  let? (nd, rest) := split_first_nodes nodes in
  match nd with
  | Rule n sub =>
      if str_eqb n name then Ok (rest, sub)
      else Err (ast_mk_error (s_ "expected " ++ name ++ s_ " node, received " ++ n) None)
  | unknown =>
      Err (ast_mk_error (s_ "expected " ++ name ++ s_ " Node::Rule, received " ++ debug_node unknown) None)
  end.

(** src/ast/mod.rs:413-419 [check_empty_nodes]. *)
Definition check_empty_nodes (nodes : list node) : outcome ast_error unit :=
  match nodes with
  | [] => Ok tt
  | _ => Err (ast_mk_error (s_ "not consumed full nodes") None)
  end.

(** src/ast/mod.rs:433-439 [peek_first_node]. *)
Definition peek_first_node (nodes : list node) : outcome ast_error node :=
  match nodes with
  | [] => Err (ast_mk_error (s_ "exptected node on peek_first_node") None)
  | n :: _ => Ok n
  end.

(* ------------------------------------------------------------------------------------------- *)
(** * src/ast/flat.rs *)

(** src/ast/flat.rs:25-35 [flat::Node]. *)
Inductive fnode : Type :=
| FVal (v : str)
| FBegin (name : str)
| FEnd (name : str)
| FEOF.

(** src/ast/flat.rs:82-92 [flatten_acc]. *)
Fixpoint flatten_acc (acc : list fnode) (next : node) : list fnode :=
  match next with
  | EOF => acc
  | Val v => acc ++ [FVal v]
  | Rule n vn =>
      (fix fold (facc : list fnode) (l : list node) : list fnode :=
         match l with [] => facc | x :: r => fold (flatten_acc facc x) r end)
        (acc ++ [FBegin n]) vn ++ [FEnd n]
  end.

(** src/ast/flat.rs:81-95 [flatten]. *)
Definition flatten (nd : node) : list fnode := flatten_acc [] nd.

(** src/ast/flat.rs:189-193 [flat::split_first_nodes]. *)
Definition fsplit_first_nodes (nodes : list fnode) : outcome ast_error (fnode * list fnode) :=
  match nodes with
  | n :: r => Ok (n, r)
  | [] => Err (ast_mk_error msg_empty_slice None)
  end.

(** src/ast/flat.rs:115-132 [consume_node_start_rule_name]. *)
Definition fconsume_node_start_rule_name (name : str) (nodes : list fnode)
  : outcome ast_error (list fnode) :=
  let? (nd, rest) := fsplit_first_nodes nodes in
  let? node_name := match nd with
                    | FBegin n => Ok n
                    | _ => Err (ast_mk_error (s_ "expected begin rule for " ++ name) None)
                    end in
  if str_eqb node_name name then Ok rest
  else Err (ast_mk_error (s_ "expected " ++ name ++ s_ " node, received " ++ node_name) None).

(** src/ast/flat.rs:150-164 [consume_node_end_rule_name]. *)
Definition fconsume_node_end_rule_name (name : str) (nodes : list fnode)
  : outcome ast_error (list fnode) :=
  let? (nd, rest) := fsplit_first_nodes nodes in
  let? node_name := match nd with
                    | FEnd n => Ok n
                    | _ => Err (ast_mk_error (s_ "expected end rule for " ++ name) None)
                    end in
  if str_eqb node_name name then Ok rest
  else Err (ast_mk_error (s_ "expected " ++ name ++ s_ " node, received " ++ node_name) None).

(** src/ast/flat.rs:208-214 [flat::peek_first_node]. *)
Definition fpeek_first_node (nodes : list fnode) : outcome ast_error fnode :=
  match nodes with
  | [] => Err (ast_mk_error (s_ "exptected node on peek_first_node") None)
  | n :: _ => Ok n
  end.

(** src/ast/flat.rs:226-231 [flat::get_node_val]. *)
Definition fget_node_val (nd : fnode) : outcome ast_error str :=
  match nd with
  | FVal v => Ok v
  | _ => Err (ast_mk_error (s_ "expected node::Val") None)
  end.

(** src/ast/flat.rs:248-260 [flat::consume_this_value]. *)
Definition fconsume_this_value (v : str) (nodes : list fnode) : outcome ast_error (list fnode) :=
  let? (nd, rest) := fsplit_first_nodes nodes in
  let? nv := fget_node_val nd in
  if str_eqb nv v then Ok rest else Err (ast_mk_error msg_empty_slice None).

(** src/ast/flat.rs:274-280 [get_nodename]. *)
Definition fget_nodename (nd : fnode) : outcome ast_error str :=
  match nd with
  | FBegin n => Ok n
  | FEnd n => Ok n
  | _ => Err (ast_mk_error (s_ "expected node::Rule") None)
  end.

(** src/ast/flat.rs:303-309 [flat::consume_val]. *)
Definition fconsume_val (nodes : list fnode) : outcome ast_error (str * list fnode) :=
  let? (nd, rest) := fsplit_first_nodes nodes in
  match nd with
  | FVal v => Ok (v, rest)
  | _ => Err (ast_mk_error (s_ "expected Val node") None)
  end.
