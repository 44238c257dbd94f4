(** Texts that are read the same from both ends. *)
From Verif Require Import Base ModelAst ModelParser SpecPeg SpecPos SpecApi.

(** [main = 'a' main 'a' / 'b' main 'b' / .. / mids]: the chars [cs] on both sides of something. *)
Definition mirror_rules (cs : list char) (mids : list expr) : rules :=
  [(main, Or (map (fun c => And [lit [c]; ref_rule main; lit [c]]) cs ++ mids))].

(** The tree of the chars [w], the middle and the chars [w] in reverse. *)
Fixpoint mirror_tree (mid : list node) (w : str) : node :=
  match w with [] => Rule main mid | c :: w' => Rule main [Val [c]; mirror_tree mid w'; Val [c]] end.
