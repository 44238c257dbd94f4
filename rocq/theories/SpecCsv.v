(** CSV files (RFC 4180): rows of fields, where a field can be quoted. *)
From Verif Require Import Base ModelAst ModelParser SpecPeg SpecPos SpecApi SpecTable.

Definition nm_quoted : str := s_ "quoted".
Definition nm_plain : str := s_ "plain".

(** As a grammar text. *)
Definition csv_grammar : str :=
  s_ "main   = row (""\n"" row)*" ++ [ch_nl] ++
  s_ "row    = field ("","" field)*" ++ [ch_nl] ++
  s_ "field  = quoted / plain" ++ [ch_nl] ++
  s_ "quoted = '""' ('""""' / !'""' .)* '""'" ++ [ch_nl] ++
  s_ "plain  = (!'""' !',' !""\n"" .)*" ++ [ch_nl].

Section Csv.
(** The quote, the char between fields and the char between rows. *)
Variables Q F R : char.

(** The same rules with these chars. *)
Definition csv_rules : rules := rules_macro
  [(main, And [ref_rule nm_row; rep0 (And [lit [R]; ref_rule nm_row]) 0]);
   (nm_row, And [ref_rule nm_field; rep0 (And [lit [F]; ref_rule nm_field]) 0]);
   (nm_field, Or [ref_rule nm_quoted; ref_rule nm_plain]);
   (nm_quoted, And [lit [Q]; rep0 (Or [lit [Q; Q]; And [Not (lit [Q]); dot_]]) 0; lit [Q]]);
   (nm_plain, rep0 (And [Not (lit [Q]); Not (lit [F]); Not (lit [R]); dot_]) 0)].

(** A field as it is written. *)
Inductive cell : Type :=
| Bare (w : str)
| Quoted (w : str).

(** Its content. *)
Definition content (c : cell) : str := match c with Bare w | Quoted w => w end.

(** Fields with special chars have to be quoted; any field may be. *)
Definition cell_ok (c : cell) : Prop :=
  match c with
  | Bare w => Forall (fun x => x <> Q /\ x <> F /\ x <> R) w
  | Quoted _ => True
  end.

(** A quote in a quoted field is written twice. *)
Definition twice (x : char) : str := if (x =? Q)%N then [Q; Q] else [x].

Definition cell_text (c : cell) : str :=
  match c with
  | Bare w => w
  | Quoted w => Q :: flat_map twice w ++ [Q]
  end.

Definition cell_tree (c : cell) : node :=
  Rule nm_field
    [match c with
     | Bare w => Rule nm_plain (map (fun x => Val [x]) w)
     | Quoted w => Rule nm_quoted (Val [Q] :: map (fun x => Val (twice x)) w ++ [Val [Q]])
     end].

(** A table has at least one row, a row at least one field. *)
Definition csv_ok (rows : list (list cell)) : Prop :=
  rows <> [] /\ Forall (fun row => row <> [] /\ Forall cell_ok row) rows.

Definition csv_text (rows : list (list cell)) : str := join R (map (fun row => join F (map cell_text row)) rows).

Definition csv_tree (rows : list (list cell)) : node :=
  Rule main (join_trees R (map (fun row => Rule nm_row (join_trees F (map cell_tree row))) rows)).

(** Mistakes: the char [x], with [r] after it, cannot follow the field [c].  After a quoted field only a separator can follow; in a
    field without quotes there is no quote, and at its start it would open a field that is never closed. *)
Definition mistake (c : cell) (x : char) (r : str) : Prop :=
  match c with
  | Quoted _ => x <> Q /\ x <> F /\ x <> R
  | Bare w => x = Q /\ (w <> [] \/ exists u, r = flat_map twice u)
  end.

(** What the table says. *)
Definition contents (rows : list (list cell)) : list (list str) := map (map content) rows.

(** A way to write a field: with quotes if it has to be. *)
Definition plain_char (x : char) : bool := negb ((x =? Q) || (x =? F) || (x =? R))%N.
Definition write (w : str) : cell := if forallb plain_char w then Bare w else Quoted w.

End Csv.
