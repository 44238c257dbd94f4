(** Rules that grow: alternatives, optional parts and rules are added. *)
From Verif Require Import Base ModelAst ModelParser SpecPeg SpecPos SpecApi SpecSwap.

(** * New alternatives *)

(** [e'] is [e] with alternatives added that are [new], anywhere in its choices. *)
Inductive grown (new : expr -> Prop) : expr -> expr -> Prop :=
| gr_simple a : grown new (Simple a) (Simple a)
| gr_rule n : grown new (RuleName n) (RuleName n)
| gr_and es es' : grown_parts new es es' -> grown new (And es) (And es')
| gr_or es es' : grown_choice new es es' -> grown new (Or es) (Or es')
| gr_not e e' : grown new e e' -> grown new (Not e) (Not e')
| gr_rep e e' mn mx : grown new e e' -> grown new (Repeat e mn mx) (Repeat e' mn mx)
with grown_parts (new : expr -> Prop) : list expr -> list expr -> Prop :=
| gp_nil : grown_parts new [] []
| gp_cons e e' es es' : grown new e e' -> grown_parts new es es' -> grown_parts new (e :: es) (e' :: es')
with grown_choice (new : expr -> Prop) : list expr -> list expr -> Prop :=
| gc_nil : grown_choice new [] []
| gc_keep e e' es es' : grown new e e' -> grown_choice new es es' -> grown_choice new (e :: es) (e' :: es')
| gc_new x es es' : new x -> grown_choice new es es' -> grown_choice new es (x :: es').

(** The rules have a main, and all the rules they use. *)
Definition complete (rs : rules) : Prop :=
  rules_get rs main <> None /\ forall n e m, rules_get rs n = Some e -> has_ref m e -> rules_get rs m <> None.

(** Each of the rules [rs] is also in [rs'], where it can have more alternatives. [rs'] can have more rules. *)
Definition grown_rules (new : expr -> Prop) (rs rs' : rules) : Prop :=
  forall n e, rules_get rs n = Some e -> exists e', rules_get rs' n = Some e' /\ grown new e e'.

(** [absent rs s e]: [e] has to start with something that is nowhere in [s]. *)
Inductive absent (rs : rules) (s : str) : expr -> Prop :=
| ab_lit l : (forall u v, s <> u ++ l ++ v) -> absent rs s (Simple (Literal l))
| ab_class cs rgs : (forall c, In c s -> ~ in_class cs rgs c) -> absent rs s (Simple (Match cs rgs))
| ab_and e es : absent rs s e -> absent rs s (And (e :: es))
| ab_no_choice : absent rs s (Or [])
| ab_or e es : absent rs s e -> absent rs s (Or es) -> absent rs s (Or (e :: es))
| ab_rep e mn mx : 0 < mn -> mx <> Some 0 -> absent rs s e -> absent rs s (Repeat e mn mx)
| ab_rule n e : rules_get rs n = Some e -> absent rs s e -> absent rs s (RuleName n).

(** Parsing [s] gives the same tree, or an error with both, where aborts are the same; or both hang. *)
Definition same_answer (s : str) (rs rs' : rules) : Prop :=
  (forall ast, (exists fuel, parse fuel s rs = Ok ast) <-> (exists fuel, parse fuel s rs' = Ok ast)) /\
  ((exists fuel er, parse fuel s rs = Err er) <-> (exists fuel er, parse fuel s rs' = Err er)) /\
  (forall msg k, aborts rs s msg k <-> aborts rs' s msg k).

(** * More is allowed *)

Definition more (mx mx' : option nat) : Prop := match mx, mx' with _, None => True | Some m, Some m' => m <= m' | None, Some _ => False end.

(** [e'] allows more than [e]: more alternatives, optional parts, more turns, more chars. *)
Inductive looser : expr -> expr -> Prop :=
| lo_simple a : looser (Simple a) (Simple a)
| lo_rule n : looser (RuleName n) (RuleName n)
| lo_class cs rgs cs' rgs' : (forall c, in_class cs rgs c -> in_class cs' rgs' c) -> looser (Simple (Match cs rgs)) (Simple (Match cs' rgs'))
| lo_and es es' : looser_parts es es' -> looser (And es) (And es')
| lo_or es es' : (forall e, In e es -> exists e', In e' es' /\ looser e e') -> looser (Or es) (Or es')
| lo_rep e e' mn mx mn' mx' : looser e e' -> mn' <= mn -> more mx mx' -> looser (Repeat e mn mx) (Repeat e' mn' mx')
| lo_alternative e e' es' : looser e e' -> In e' es' -> looser e (Or es')
| lo_optional e e' mx' : looser e e' -> mx' <> Some 0 -> looser e (Repeat e' 0 mx')
with looser_parts : list expr -> list expr -> Prop :=
| lp_nil : looser_parts [] []
| lp_cons e e' es es' : looser e e' -> looser_parts es es' -> looser_parts (e :: es) (e' :: es')
| lp_new e' mx' es es' : looser_parts es es' -> looser_parts es (Repeat e' 0 mx' :: es').

Definition looser_rules (rs rs' : rules) : Prop :=
  forall n e, rules_get rs n = Some e -> exists e', rules_get rs' n = Some e' /\ looser e e'.
