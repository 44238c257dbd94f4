(** Adding error clauses to rules: [.. / error("..")]. *)
From Verif Require Import Base ModelAst ModelParser SpecPeg SpecApi SpecWf SpecBnf.

Definition fails_with (m : str) : expr := Simple (AError m).

(** The names that [e] refers to, also by way of the rules. *)
Inductive uses (G : str -> option expr) : expr -> str -> Prop :=
| us_here e n : has_ref n e -> uses G e n
| us_rule e n x m : uses G e n -> G n = Some x -> has_ref m x -> uses G e m.

Section Clauses.
Variables G G' : str -> option expr.    (* the rules without and with the clauses *)
Variable M : str -> Prop.               (* the messages *)

(** [clauses e e']: [e'] is [e] with clauses added: at the end of choices, or after any part; not inside predicates. *)
Inductive clauses : expr -> expr -> Prop :=
| cl_atom a : clauses (Simple a) (Simple a)
| cl_and es es' : parts es es' -> clauses (And es) (And es')
| cl_or es es' : alts es es' -> clauses (Or es) (Or es')
| cl_not e : (forall n, uses G e n -> G n = G' n) -> clauses (Not e) (Not e)
| cl_rep e e' mn mx : clauses e e' -> clauses (Repeat e mn mx) (Repeat e' mn mx)
| cl_rule n : clauses (RuleName n) (RuleName n)
| cl_part e e' m : M m -> clauses e e' -> clauses e (Or [e'; fails_with m])
with parts : list expr -> list expr -> Prop :=
| pa_nil : parts [] []
| pa_cons e e' es es' : clauses e e' -> parts es es' -> parts (e :: es) (e' :: es')
with alts : list expr -> list expr -> Prop :=
| al_nil : alts [] []
| al_end m : M m -> alts [] [fails_with m]
| al_cons e e' es es' : clauses e e' -> alts es es' -> alts (e :: es) (e' :: es').

Definition with_clauses : Prop :=
  forall n, match G n, G' n with Some e, Some e' => clauses e e' | None, None => True | _, _ => False end.

(** [placed b e e']: the same for rules without predicates, with the clauses in places where nothing else can be tried any more: after
    something that is not empty in a sequence.  [b] says that one is in such a place; it is no longer so in the body of a repetition and in
    an alternative that is not the last one. *)
Inductive placed : bool -> expr -> expr -> Prop :=
| pl_atom b a : placed b (Simple a) (Simple a)
| pl_and b es es' : in_order b es es' -> placed b (And es) (And es')
| pl_or b es es' : options b es es' -> placed b (Or es) (Or es')
| pl_rep b e e' mn mx : placed false e e' -> placed b (Repeat e mn mx) (Repeat e' mn mx)
| pl_rule b n : placed b (RuleName n) (RuleName n)
| pl_part e e' m : M m -> placed true e e' -> placed true e (Or [e'; fails_with m])
with in_order : bool -> list expr -> list expr -> Prop :=
| io_nil b : in_order b [] []
| io_first b e e' es es' : placed b e e' -> in_order b es es' -> in_order b (e :: es) (e' :: es')
| io_then b e e' es es' : placed b e e' -> ~ empty G e -> in_order true es es' -> in_order b (e :: es) (e' :: es')
with options : bool -> list expr -> list expr -> Prop :=
| op_nil b : options b [] []
| op_end m : M m -> options true [] [fails_with m]
| op_last b e e' : placed b e e' -> options b [e] [e']
| op_cons b e e' es es' : placed false e e' -> options b es es' -> options b (e :: es) (e' :: es').

Definition with_placed_clauses : Prop :=
  forall n, match G n, G' n with Some e, Some e' => placed false e e' | None, None => True | _, _ => False end.

End Clauses.
