(** How far a parse looks into the text. *)
From Verif Require Import Base ModelAst ModelParser SpecPeg SpecHang.

(** The number of chars of [s] that are compared with the literal [l]: up to and including the first that differs. Running into
    the end of the text counts as one more. *)
Fixpoint compared (l s : str) : nat :=
  match l, s with
  | [], _ => 0
  | _ :: _, [] => 1
  | c :: l1, d :: s1 => if N.eqb c d then S (compared l1 s1) else 1
  end.

(** The number of chars of [s], the end of the text included, that an atom looks at. *)
Definition looks (a : atom) (s : str) : nat :=
  match a with
  | Literal l => compared l s
  | Match _ _ | Dot | AEOF => 1
  | AError _ => 0
  end.

(** Evaluating the task looks at something of [tail], which is how the text ends: at one of its chars, or at the end of the text. *)
Definition looks_into (G : str -> option expr) (t : task) (tail : str) : Prop :=
  exists a q, comes_up G t (Simple a, q ++ tail) /\ length q < looks a (q ++ tail).
