(** Pieces of trees. *)
From Verif Require Import Base ModelAst ModelParser SpecPeg SpecPos SpecApi SpecPower.

(** [piece k nd l]: the tree [nd] stands in the trees [l], at any depth, after leaves that spell [k] chars. *)
Inductive piece : nat -> node -> list node -> Prop :=
| piece_here nd l : piece 0 nd (nd :: l)
| piece_inside k nd n kids l : piece k nd kids -> piece k nd (Rule n kids :: l)
| piece_after k nd t l : piece k nd l -> piece (length (leaves t) + k) nd (t :: l).

(** Nothing refers to main. *)
Definition main_is_start (rs : rules) : Prop := forall n e, rules_get rs n = Some e -> ~ has_ref main e.

(** [main = n .*]: rule [n] at the start of the text, whatever comes after it. *)
Definition start_with (n : str) : expr := And [ref_rule n; rep0 dot_ 0].

(** The library [lib] and the rules [rs] agree on [n] and on all that it needs. *)
Definition agree_below (n : str) (lib rs : rules) : Prop :=
  forall m, m <> main -> reachable (with_main lib (ref_rule n)) m -> rules_get lib m = rules_get rs m.
