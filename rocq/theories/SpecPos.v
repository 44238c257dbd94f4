(** Independent specification of text positions: everything is a function of the part of the text that
    precedes the position. *)
From Verif Require Import Base ModelParser.

Definition is_nl (c : char) : bool := N.eqb c ch_nl.
Definition is_eol (c : char) : bool := N.eqb c ch_nl || N.eqb c ch_cr.

(** The chars before the first one satisfying [f]. *)
Fixpoint up_to (f : char -> bool) (s : str) : str :=
  match s with
  | [] => []
  | c :: r => if f c then [] else c :: up_to f r
  end.

(** The longest suffix of [pre] without a char satisfying [f]. *)
Definition tail_after (f : char -> bool) (pre : str) : str := rev (up_to f (rev pre)).

(** The position after [pre]: chars, line breaks, chars since the last line break (or carriage return),
    and the offset where the current line starts. *)
Definition pos_of (pre : str) : position :=
  Pos (length pre)
      (length (filter is_nl pre))
      (length (tail_after is_eol pre))
      (length pre - length (tail_after is_nl pre)).

(** The rest of the current line. *)
Definition until_eol (post : str) : str := up_to is_eol post.

Definition ascii_char (c : char) : Prop := (c < 128)%N.
Definition ascii (s : str) : Prop := Forall ascii_char s.

(** The state stands somewhere in its text, and its position says where. *)
Definition coherent_pos (st : status) : Prop :=
  exists pre, text2parse st = pre ++ it_parsing st /\ st_pos st = pos_of pre.
