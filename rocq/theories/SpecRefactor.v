(** Replacing parts of rules by equivalent ones. *)
From Verif Require Import Base ModelAst ModelParser SpecPeg SpecApi.

(** The two expressions give the same trees and rests, failures and aborts, on every text. *)
Definition equiv (G : str -> option expr) (e e' : expr) : Prop := forall s r, peg G e s r <-> peg G e' s r.

(** [e'] is [e] where some subexpressions [x] are replaced by some [x'] with [E x x']. *)
Inductive replaced (E : expr -> expr -> Prop) : expr -> expr -> Prop :=
| rp_here e e' : E e e' -> replaced E e e'
| rp_same e : replaced E e e
| rp_and es es' : Forall2 (replaced E) es es' -> replaced E (And es) (And es')
| rp_or es es' : Forall2 (replaced E) es es' -> replaced E (Or es) (Or es')
| rp_not e e' : replaced E e e' -> replaced E (Not e) (Not e')
| rp_rep e e' mn mx : replaced E e e' -> replaced E (Repeat e mn mx) (Repeat e' mn mx).

(** Every rule of [G'] is the one of [G], with parts replaced by parts equivalent under [G]. *)
Definition refactored (G G' : str -> option expr) : Prop :=
  forall n, match G n, G' n with
            | Some e, Some e' => replaced (equiv G) e e'
            | None, None => True
            | _, _ => False
            end.
