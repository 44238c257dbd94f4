(** Programs that walk over a tree, written with the helpers of the crate. *)
From Verif Require Import Base ModelAst.

Section Visit.
(** What the program does with a text and, when it has done its children, with a rule.  Both can fail. *)
Variable B : Type.
Variable on_val : str -> outcome ast_error B.
Variable on_rule : str -> list B -> outcome ast_error B.

(** ** What it should give *)

(** Children first, from left to right; the first failure counts. *)
Fixpoint fold_node (nd : node) : outcome ast_error (list B) :=
  match nd with
  | EOF => Ok []
  | Val v => let? b := on_val v in Ok [b]
  | Rule n kids =>
      let? bs := (fix folds (l : list node) : outcome ast_error (list B) :=
                    match l with
                    | [] => Ok []
                    | k :: r => let? b := fold_node k in let? bs := folds r in Ok (b ++ bs)
                    end) kids in
      let? b := on_rule n bs in Ok [b]
  end.
Fixpoint folds (l : list node) : outcome ast_error (list B) :=
  match l with
  | [] => Ok []
  | k :: r => let? b := fold_node k in let? bs := folds r in Ok (b ++ bs)
  end.

(** ** Over the tokens of flatten *)

(** Nodes up to the end of the enclosing rule.  A name alone does not tell where a rule starts from where it ends; the program
    tries to read a start. *)
Fixpoint visit (fuel : nat) (tokens : list fnode) : outcome ast_error (list B * list fnode) :=
  match fuel with
  | 0 => Fuel
  | S f =>
      match fpeek_first_node tokens with
      | Ok nd =>
          match fget_node_val nd with
          | Ok _ =>
              let? (v, rest) := fconsume_val tokens in
              let? b := on_val v in
              let? (bs, rest') := visit f rest in
              Ok (b :: bs, rest')
          | _ =>
              let? name := fget_nodename nd in
              match fconsume_node_start_rule_name name tokens with
              | Ok inner =>
                  let? (kids, rest) := visit f inner in
                  let? rest' := fconsume_node_end_rule_name name rest in
                  let? b := on_rule name kids in
                  let? (bs, rest'') := visit f rest' in
                  Ok (b :: bs, rest'')
              | _ => Ok ([], tokens)
              end
          end
      | _ => Ok ([], tokens)
      end
  end.

(** All tokens. *)
Definition visit_all (fuel : nat) (tokens : list fnode) : outcome ast_error (list B) :=
  let? (bs, rest) := visit fuel tokens in
  match fpeek_first_node rest with
  | Ok _ => Err (ast_mk_error (s_ "unexpected end of a rule") None)
  | _ => Ok bs
  end.

(** ** Over slices of nodes *)

Fixpoint visit_nodes (fuel : nat) (nodes : list node) : outcome ast_error (list B) :=
  match fuel with
  | 0 => Fuel
  | S f =>
      match check_empty_nodes nodes with
      | Ok _ => Ok []
      | _ =>
          let? (nd, rest) := split_first_nodes nodes in
          let? b := match get_node_val nd with
                    | Ok v => on_val v
                    | _ => let? (name, kids) := get_nodename_and_nodes nd in
                           let? bs := visit_nodes f kids in
                           on_rule name bs
                    end in
          let? bs := visit_nodes f rest in
          Ok (b :: bs)
      end
  end.

End Visit.

(** Nodes in a tree. *)
Fixpoint tree_size (nd : node) : nat :=
  match nd with
  | Rule _ kids => S (list_sum (map tree_size kids))
  | _ => 1
  end.
