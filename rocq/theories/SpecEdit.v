(** Exchanging a piece of a tree. *)
From Verif Require Import Base ModelAst ModelParser SpecApi.

(** [exchanged u v k l l']: the nodes [l'] are [l], with one piece [u], that stands after leaves with [k] chars, exchanged for [v]. *)
Inductive exchanged (u v : node) : nat -> list node -> list node -> Prop :=
| ex_here l : exchanged u v 0 (u :: l) (v :: l)
| ex_inside k n kids kids' l : exchanged u v k kids kids' -> exchanged u v k (Rule n kids :: l) (Rule n kids' :: l)
| ex_after k t l l' : exchanged u v k l l' -> exchanged u v (length (leaves t) + k) (t :: l) (t :: l').

(** [s] with [w] in place of the [len] chars after the first [k]. *)
Definition edit (s : str) (k len : nat) (w : str) : str := firstn k s ++ w ++ skipn (k + len) s.
