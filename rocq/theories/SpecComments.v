(** Comments in comments. *)
From Verif Require Import Base ModelAst ModelParser SpecPeg SpecPos SpecApi.

Definition nm_comment : str := s_ "comment".

Section Comments.
(** The marks that open and close a comment, as [/*] and [*] [/]. *)
Variables o c : str.

(** [main = comment;  comment = o (comment / plain)* c] *)
Definition comment_rules (plain : expr) : rules := rules_macro
  [(main, ref_rule nm_comment);
   (nm_comment, And [lit o; rep0 (Or [ref_rule nm_comment; plain]) 0; lit c])].

(** [plain = !o !c .] *)
Definition strict_rules : rules := comment_rules (And [Not (lit o); Not (lit c); dot_]).
(** [plain = !c .] *)
Definition loose_rules : rules := comment_rules (And [Not (lit c); dot_]).

Definition starts_with (w s : str) : Prop := exists rest, s = w ++ rest.

(** Neither mark is the start of the other. *)
Definition distinct_marks : Prop := ~ starts_with o c /\ ~ starts_with c o.

(** Reading [s] from left to right, with [d] comments open, the last of them is closed before [rest]: only the number of open comments
    has to be remembered. *)
Inductive closed_after : nat -> str -> str -> Prop :=
| en_done s : closed_after 0 s s
| en_close d s rest : closed_after d s rest -> closed_after (S d) (c ++ s) rest
| en_open d s rest : closed_after (S (S d)) s rest -> closed_after (S d) (o ++ s) rest
| en_char d x s rest : ~ starts_with o (x :: s) -> ~ starts_with c (x :: s) -> closed_after (S d) s rest -> closed_after (S d) (x :: s) rest.

(** What is in a comment: chars and comments. *)
Inductive item : Type :=
| Plain (x : char)
| Inner (l : list item).

Fixpoint item_text (i : item) : str := match i with Plain x => [x] | Inner l => o ++ flat_map item_text l ++ c end.
Fixpoint item_tree (i : item) : node := match i with Plain x => Val [x] | Inner l => Rule nm_comment (Val o :: map item_tree l ++ [Val c]) end.

(** [s] starts with the items [l] and the mark that closes the comment; [rest] is left. *)
Inductive closes : str -> list item -> str -> Prop :=
| cl_end rest : closes (c ++ rest) [] rest
| cl_open s k s' l rest : closes s k s' -> closes s' l rest -> closes (o ++ s) (Inner k :: l) rest
| cl_char x s l rest : ~ starts_with o (x :: s) -> ~ starts_with c (x :: s) -> closes s l rest -> closes (x :: s) (Plain x :: l) rest.

End Comments.

(** [n] copies of a text. *)
Fixpoint copies (n : nat) (w : str) : str := match n with 0 => [] | S k => w ++ copies k w end.
