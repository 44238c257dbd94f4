(** How nested values are laid out in lines: C119. *)
From Verif Require Import Base ModelAst.

(** The same text with every line but the first moved to the right by [k] spaces. *)
Definition moved (k : nat) (s : str) : str := flat_map (fun c => if N.eqb c ch_nl then ch_nl :: repeat 32%N k else [c]) s.

(** A new line, [k] spaces, and a text that starts there; its further lines are moved as well. *)
Definition under (k : nat) (s : str) : str := ch_nl :: repeat 32%N k ++ moved k s.

(** The comma after the last part: written or not. *)
Definition last_comma (comma : bool) : str := if comma then s_ "," else [].

(** Texts one below the other, each starting after [k] spaces, with commas between them. *)
Fixpoint listed (comma : bool) (k : nat) (l : list str) : str :=
  match l with
  | [] => []
  | [x] => under k (x ++ last_comma comma)
  | x :: r => under k (x ++ s_ ",") ++ listed comma k r
  end.

(** The greatest number of repetitions. *)
Definition max_text (comma : bool) (mx : option nat) : str :=
  match mx with
  | None => s_ "None"
  | Some m => s_ "Some(" ++ under 4 (s_ "NRep(" ++ under 4 (dec m ++ last_comma comma) ++ under 0 (s_ ")" ++ last_comma comma)) ++ under 0 (s_ ")")
  end.

(** The number of lines a tree takes: one for the end of input, three for a value, and for a rule one for its name, six for the brackets (the
    innermost two on one line if there is nothing between them) and those of its children. *)
Fixpoint tree_lines (t : node) : nat :=
  match t with
  | EOF => 1
  | Val _ => 3
  | Rule _ l => (match l with [] => 6 | _ => 7 end) + fold_right (fun x n => tree_lines x + n) 0 l
  end.

(** The number of lines of a text. *)
Definition lines_of (s : str) : nat := S (count_occ N.eq_dec s ch_nl).
