(** Model of the pretty Debug output ([{:#?}]) of the public types: what README.md prints trees and rules with.  The derives list the fields of
    each type; [std::fmt::builders] lays them out. *)
From Verif Require Import Base ModelAst ModelParser ModelPeg ModelDebug.

(** The derives of src/ast/mod.rs:18-19 and 36-44, src/parser/mod.rs:32-80, src/parser/atom/mod.rs:19-38 and src/parser/expression/mod.rs:33-156.  What a derived [Debug] hands to the builders: strings, chars, numbers, unit variants, tuples (and tuple variants), structs, lists, maps
    with string keys. *)
Inductive shown : Type :=
| ShStr (s : str)
| ShChar (c : char)
| ShNum (n : nat)
| ShUnit (name : str)
| ShTuple (name : str) (l : list shown)
| ShStruct (name : str) (l : list (str * shown))
| ShList (l : list shown)
| ShMap (l : list (str * shown)).

(** [{:?}], e.g. src/peg/mod.rs:98-99: on one line. *)
Fixpoint compact_of (d : shown) : str :=
  match d with
  | ShStr s => debug_str s
  | ShChar c => debug_char c
  | ShNum n => dec n
  | ShUnit name => name
  | ShTuple name l => name ++ s_ "(" ++ debug_items compact_of l ++ s_ ")"
  | ShStruct name l => name ++ s_ " { " ++ debug_items (fun p => match p with (a, x) => a ++ s_ ": " ++ compact_of x end) l ++ s_ " }"
  | ShList l => s_ "[" ++ debug_items compact_of l ++ s_ "]"
  | ShMap l => s_ "{" ++ debug_items (fun p => match p with (a, x) => debug_str a ++ s_ ": " ++ compact_of x end) l ++ s_ "}"
  end.

Section Pretty.
(** Whether the last field is followed by a comma: so since Rust 1.38, not so in the output shown in README.md. *)
Variable comma : bool.

(** [{:#?}], src/lib.rs:76 and README.md.  A line break and the indentation ([PadAdapter]). *)
Definition new_line (k : nat) : str := ch_nl :: repeat 32%N k.

(** [{:#?}], src/lib.rs:76 and README.md: one line for each part. *)
Definition lines {A} (k : nat) (f : A -> str) : list A -> str :=
  fix go (l : list A) : str :=
    match l with
    | [] => []
    | x :: r => new_line (k + 4) ++ f x ++ (match r with [] => if comma then s_ "," else [] | _ => s_ "," end) ++ go r
    end.

(** [{:#?}] of a list, struct or tuple, src/lib.rs:76.  Nothing is broken into lines if there is nothing in it. *)
Definition block {A} (k : nat) (op : str) (f : A -> str) (l : list A) (cl : str) : str :=
  op ++ match l with [] => [] | _ => lines k f l ++ new_line k end ++ cl.

(** [{:#?}], src/lib.rs:76, where the current indentation is [k]. *)
Fixpoint pretty (k : nat) (d : shown) : str :=
  match d with
  | ShStr s => debug_str s
  | ShChar c => debug_char c
  | ShNum n => dec n
  | ShUnit name => name
  | ShTuple name l => name ++ block k (s_ "(") (pretty (k + 4)) l (s_ ")")
  | ShStruct name l => name ++ block k (s_ " {") (fun p => match p with (a, x) => a ++ s_ ": " ++ pretty (k + 4) x end) l (s_ "}")
  | ShList l => block k (s_ "[") (pretty (k + 4)) l (s_ "]")
  | ShMap l => block k (s_ "{") (fun p => match p with (a, x) => debug_str a ++ s_ ": " ++ pretty (k + 4) x end) l (s_ "}")
  end.
End Pretty.

(** The options of src/ast/mod.rs:18-19 and src/parser/expression/mod.rs:131-138. *)
Definition show_option {A} (f : A -> shown) (o : option A) : shown :=
  match o with None => ShUnit (s_ "None") | Some x => ShTuple (s_ "Some") [f x] end.

(** src/parser/mod.rs:32-42. *)
Definition show_position (p : position) : shown :=
  ShStruct (s_ "Possition") [(s_ "n", ShNum (pn p)); (s_ "row", ShNum (prow p)); (s_ "col", ShNum (pcol p)); (s_ "start_line", ShNum (pstart_line p))].
(** src/parser/mod.rs:56-62. *)
Definition show_prio (p : prio) : shown := ShUnit (match p with Normal => s_ "Normal" | Critical => s_ "Critical" end).
(** src/parser/mod.rs:65-82. *)
Definition show_perror (e : perror) : shown :=
  ShStruct (s_ "Error") [(s_ "pos", show_position (e_pos e)); (s_ "descr", ShStr (e_descr e)); (s_ "line_before", ShStr (e_line_before e));
    (s_ "line_after", ShStr (e_line_after e)); (s_ "parsing_rules", ShList (map ShStr (e_parsing_rules e))); (s_ "priority", show_prio (e_priority e))].
(** src/ast/mod.rs:18-19. *)
Definition show_ast_error (e : ast_error) : shown := ShTuple (s_ "Error") [ShStr (ast_descr e); show_option ShStr (ast_context e)].
(** src/ast/mod.rs:36-45 [Node]: a rule holds a pair. *)
Fixpoint show_node (x : node) : shown :=
  match x with
  | EOF => ShUnit (s_ "EOF")
  | Val v => ShTuple (s_ "Val") [ShStr v]
  | Rule n l => ShTuple (s_ "Rule") [ShTuple [] [ShStr n; ShList (map show_node l)]]
  end.
(** src/ast/flat.rs:25-34. *)
Definition show_token (x : fnode) : shown :=
  match x with
  | FVal v => ShTuple (s_ "Val") [ShStr v]
  | FBegin v => ShTuple (s_ "BeginRule") [ShStr v]
  | FEnd v => ShTuple (s_ "EndRule") [ShStr v]
  | FEOF => ShUnit (s_ "EOF")
  end.
(** src/parser/atom/mod.rs:19-38. *)
Definition show_atom (a : atom) : shown :=
  match a with
  | Literal s => ShTuple (s_ "Literal") [ShStr s]
  | Match cs rg => ShTuple (s_ "Match") [ShTuple (s_ "MatchRules") [ShStr cs; ShList (map (fun p => ShTuple [] [ShChar (fst p); ShChar (snd p)]) rg)]]
  | AError s => ShTuple (s_ "Error") [ShStr s]
  | Dot => ShUnit (s_ "Dot")
  | AEOF => ShUnit (s_ "EOF")
  end.
(** src/parser/expression/mod.rs:108-154. *)
Definition show_nrep (n : nat) : shown := ShTuple (s_ "NRep") [ShNum n].
(** src/parser/expression/mod.rs:108-150. *)
Fixpoint show_expr (e : expr) : shown :=
  match e with
  | Simple a => ShTuple (s_ "Simple") [show_atom a]
  | And es => ShTuple (s_ "And") [ShTuple (s_ "MultiExpr") [ShList (map show_expr es)]]
  | Or es => ShTuple (s_ "Or") [ShTuple (s_ "MultiExpr") [ShList (map show_expr es)]]
  | Not e1 => ShTuple (s_ "Not") [show_expr e1]
  | Repeat e1 mn mx => ShTuple (s_ "Repeat") [ShStruct (s_ "RepInfo")
      [(s_ "expression", show_expr e1); (s_ "min", show_nrep mn); (s_ "max", show_option show_nrep mx)]]
  | RuleName n => ShTuple (s_ "RuleName") [ShStr n]
  end.
(** src/parser/expression/mod.rs:33-34; [entries] is the hash map in the order it is iterated. *)
Definition show_rules (entries : list (str * expr)) : shown := ShTuple (s_ "SetOfRules") [ShMap (map (fun p => (fst p, show_expr (snd p))) entries)].
