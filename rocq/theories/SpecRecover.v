(** Going on after a bad line. *)
From Verif Require Import Base ModelAst ModelParser SpecPeg SpecPos SpecApi SpecPower SpecLines.

(** [(!'c' .)*]: the rest of the line. *)
Definition rest_of_line (c : char) : expr := rep0 (And [Not (lit [c]); dot_]) 0.

(** [main = (e 'c' / b 'c')*], where [b] is the rest of the line. *)
Definition recover_rules (rs : rules) (e : expr) (b : str) (c : char) : rules :=
  with_main rs (rep0 (Or [And [e; lit [c]]; And [ref_rule b; lit [c]]]) 0).

(** What a line gives: the nodes it gives when parsed alone, or, if it is not accepted, a node [b] with its chars. *)
Definition gives (rs : rules) (e : expr) (b : str) (l : str) (ns : list node) : Prop :=
  reads rs e l ns \/ (forall ks, ~ reads rs e l ks) /\ ns = [Rule b (map (fun x => Val [x]) l)].
