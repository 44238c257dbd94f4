(** Words and reserved words. *)
From Verif Require Import Base ModelAst ModelParser SpecPeg SpecPos SpecApi SpecTable.

(** [!(('w1' / 'w2' / ..) ![class]) [class]+]: a word that is none of the given ones. *)
Definition reserved (cs : str) (rg : list (char * char)) (words : list str) : expr :=
  And [Or (map lit words); Not (ematch cs rg)].
Definition word_not_in (cs : str) (rg : list (char * char)) (words : list str) : expr :=
  And [Not (reserved cs rg words); rep0 (ematch cs rg) 1].

(** [w] is the longest beginning of [s] that consists of chars of the class. *)
Definition first_word (cs : str) (rg : list (char * char)) (s w rest : str) : Prop :=
  s = w ++ rest /\ Forall (in_class cs rg) w /\ match rest with c :: _ => ~ in_class cs rg c | [] => True end.

(** No word of the list is the beginning of a later one. *)
Definition longer_first (words : list str) : Prop :=
  forall l u m v r x, words = l ++ u :: m ++ v :: r -> v <> u ++ x.
