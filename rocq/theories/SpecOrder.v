(** The order of the literals in a choice. *)
From Verif Require Import Base.

(** The text [w] starts with [u]. *)
Definition starts (u w : str) : Prop := exists r, w = u ++ r.

(** [w] is in the list, and does not start with a literal that stands before it. *)
Definition used (ws : list str) (w : str) : Prop :=
  exists before after, ws = before ++ w :: after /\ forall u, In u before -> ~ starts u w.

(** No literal of the list starts with another one. *)
Definition apart (ws : list str) : Prop := forall u w, In u ws -> In w ws -> starts u w -> u = w.
