(** Tables: rows of fields, as in a CSV file.  A family of rule sets, one for each class of chars and pair of separators. *)
From Verif Require Import Base ModelAst ModelParser SpecPeg SpecPos SpecApi SpecReport.

Definition nm_row : str := s_ "row".
Definition nm_field : str := s_ "field".

(** [main = row (R row)*;  row = field (F field)*;  field = [..]*] *)
Definition table_rules (cs : str) (rg : list (char * char)) (F R : char) : rules := rules_macro
  [(main, And [ref_rule nm_row; rep0 (And [lit [R]; ref_rule nm_row]) 0]);
   (nm_row, And [ref_rule nm_field; rep0 (And [lit [F]; ref_rule nm_field]) 0]);
   (nm_field, rep0 (ematch cs rg) 0)].

(** Texts with a separator between them. *)
Fixpoint join (sep : char) (l : list str) : str :=
  match l with
  | [] => []
  | [x] => x
  | x :: r => x ++ sep :: join sep r
  end.

(** The text of a table, given as the list of its rows, each the list of its fields. *)
Definition table_text (F R : char) (rows : list (list str)) : str := join R (map (join F) rows).

(** At least one row, each with at least one field (which may be empty); fields consist of the chars of the class. *)
Definition is_table (cs : str) (rg : list (char * char)) (rows : list (list str)) : Prop :=
  rows <> [] /\ Forall (fun row => row <> [] /\ Forall (Forall (in_class cs rg)) row) rows.

(** Trees with a separator between them. *)
Fixpoint join_trees (sep : char) (l : list node) : list node :=
  match l with
  | [] => []
  | [x] => [x]
  | x :: r => x :: Val [sep] :: join_trees sep r
  end.

(** The tree of a table, when fields are shown by [show]. *)
Definition table_tree (show : str -> list node) (F R : char) (rows : list (list str)) : node :=
  Rule main (join_trees R (map (fun row => Rule nm_row (join_trees F (map (fun w => Rule nm_field (show w)) row))) rows)).

(** Char by char, as the parser gives it; in one piece (nothing if empty), as [compact] gives it. *)
Definition by_chars (w : str) : list node := map (fun c => Val [c]) w.
Definition in_one (w : str) : list node := match w with [] => [] | _ => [Val w] end.

(** The chars that can be in the text of a table. *)
Definition table_char (cs : str) (rg : list (char * char)) (F R c : char) : Prop := in_class cs rg c \/ c = F \/ c = R.
