(** Quoted strings, with an escape char or with doubled quotes. *)
From Verif Require Import Base ModelAst ModelParser SpecPeg SpecPos SpecApi.

Definition nm_string : str := s_ "string".
Definition nm_char : str := s_ "char".

(** [main = string;  string = Q char* Q;  char = ..] *)
Definition quoted_rules (Q : char) (ch : expr) : rules :=
  [(main, ref_rule nm_string); (nm_string, And [lit [Q]; rep0 (ref_rule nm_char) 0; lit [Q]]); (nm_char, ch)].

(** [char = E . / !Q .] *)
Definition escape_char (Q E : char) : expr := Or [And [lit [E]; dot_]; And [Not (lit [Q]); dot_]].
Definition escape_rules (Q E : char) : rules := quoted_rules Q (escape_char Q E).

(** [char = Q Q / !Q .] *)
Definition double_char (Q : char) : expr := Or [And [lit [Q]; lit [Q]]; And [Not (lit [Q]); dot_]].
Definition double_rules (Q : char) : rules := quoted_rules Q (double_char Q).

(** A char as it is, or after the char that marks it. *)
Inductive qchar : Type := Plain (c : char) | Marked (c : char).

Definition meant (x : qchar) : char := match x with Plain c | Marked c => c end.

(** [E]: the char that marks the next one. *)
Definition written (E : char) (x : qchar) : str := match x with Plain c => [c] | Marked c => [E; c] end.
Definition qtree (E : char) (x : qchar) : node :=
  Rule nm_char match x with Plain c => [Val [c]] | Marked c => [Val [E]; Val [c]] end.

Definition string_text (Q E : char) (l : list qchar) : str := Q :: flat_map (written E) l ++ [Q].
Definition string_tree (Q E : char) (l : list qchar) : node := Rule main [Rule nm_string (Val [Q] :: map (qtree E) l ++ [Val [Q]])].

(** A quote or an escape char is marked; any other char may be marked. *)
Definition escape_ok (Q E : char) (x : qchar) : Prop := match x with Plain c => c <> Q /\ c <> E | Marked _ => True end.
(** A quote is marked by another quote; no other char is marked. *)
Definition double_ok (Q : char) (x : qchar) : Prop := match x with Plain c => c <> Q | Marked c => c = Q end.

(** The usual way to write a char. *)
Definition escaped (Q E : char) (c : char) : qchar := if ((c =? Q) || (c =? E))%N then Marked c else Plain c.
Definition doubled (Q : char) (c : char) : qchar := if (c =? Q)%N then Marked c else Plain c.
