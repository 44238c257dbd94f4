(** Rules without recursion. *)
From Verif Require Import Base ModelAst ModelParser SpecPeg SpecWf SpecApi.

Section Loops.
Variable G : str -> option expr.

(** The definition of [m] refers to the defined rule [n]. *)
Definition refers (m n : str) : Prop := G n <> None /\ exists e, G m = Some e /\ occurs (RuleName n) e.

(** No rule refers to itself, directly or through others. *)
Definition no_recursion : Prop := forall n, ~ clos_trans str refers n n.

(** With the names replaced by what they stand for, [e] is finite and has at most [d] repetitions without an upper bound inside
    each other. *)
Inductive loops_within : nat -> expr -> Prop :=
| lw_simple d a : loops_within d (Simple a)
| lw_and d es : (forall e, In e es -> loops_within d e) -> loops_within d (And es)
| lw_or d es : (forall e, In e es -> loops_within d e) -> loops_within d (Or es)
| lw_not d e : loops_within d e -> loops_within d (Not e)
| lw_bounded d e mn mx : ~ unlimited mx -> loops_within d e -> loops_within d (Repeat e mn mx)
| lw_loop d e mn mx : unlimited mx -> loops_within d e -> loops_within (S d) (Repeat e mn mx)
| lw_rule d n e : G n = Some e -> loops_within d e -> loops_within d (RuleName n)
| lw_missing d n : G n = None -> loops_within d (RuleName n).

End Loops.

(** A char; any number of times [!!x .], where [x] is that; the same, where [x] is the latter; and so on. At each char the loops
    inside look at the text up to its end. *)
Fixpoint look_ahead (d : nat) : expr :=
  match d with 0 => dot_ | S k => rep0 (And [Not (Not (look_ahead k)); dot_]) 0 end.
Definition look_ahead_rules (d : nat) : rules := rules_macro [(main, look_ahead d)].
