(** Well-formed rule sets: the usual static conditions that exclude non-termination. *)
From Coq Require Export Relations.Relation_Operators.
From Verif Require Import Base ModelAst ModelParser SpecPeg.

(** [sub] occurs in [e]. *)
Inductive occurs (sub : expr) : expr -> Prop :=
| oc_here : occurs sub sub
| oc_and e es : In e es -> occurs sub e -> occurs sub (And es)
| oc_or e es : In e es -> occurs sub e -> occurs sub (Or es)
| oc_not e : occurs sub e -> occurs sub (Not e)
| oc_rep e mn mx : occurs sub e -> occurs sub (Repeat e mn mx).

Section WellFormed.
Variable G : str -> option expr.

(** [e] may match without consuming anything (conservative: a predicate is always assumed to succeed). *)
Inductive may_be_empty : expr -> Prop :=
| me_lit : may_be_empty (Simple (Literal []))
| me_eof : may_be_empty (Simple AEOF)
| me_and_nil : may_be_empty (And [])
| me_and_cons e es : may_be_empty e -> may_be_empty (And es) -> may_be_empty (And (e :: es))
| me_or e es : In e es -> may_be_empty e -> may_be_empty (Or es)
| me_not e : may_be_empty (Not e)
| me_rep_zero e mx : may_be_empty (Repeat e 0 mx)
| me_rep e mn mx : may_be_empty e -> may_be_empty (Repeat e mn mx)
| me_rule n e : G n = Some e -> may_be_empty e -> may_be_empty (RuleName n).

(** [e] may call rule [n] before anything is consumed. *)
Inductive calls_first : expr -> str -> Prop :=
| cf_rule n : calls_first (RuleName n) n
| cf_and_here e es n : calls_first e n -> calls_first (And (e :: es)) n
| cf_and_next e es n : may_be_empty e -> calls_first (And es) n -> calls_first (And (e :: es)) n
| cf_or e es n : In e es -> calls_first e n -> calls_first (Or es) n
| cf_not e n : calls_first e n -> calls_first (Not e) n
| cf_rep e mn mx n : calls_first e n -> calls_first (Repeat e mn mx) n.

(** Defined rule [m] may call defined rule [n] before anything is consumed. *)
Definition rule_calls (m n : str) : Prop :=
  G n <> None /\ exists e, G m = Some e /\ calls_first e n.

(** No rule can call itself, directly or through others, before something is consumed. *)
Definition no_left_recursion : Prop := forall n, ~ clos_trans str rule_calls n n.

(** A repetition without an effective upper bound (0 as a maximum is no bound, see C13). *)
Definition unlimited (mx : option nat) : Prop := mx = None \/ mx = Some 0.

Definition no_empty_loops : Prop :=
  forall n e x mn mx, G n = Some e -> occurs (Repeat x mn mx) e -> unlimited mx -> ~ may_be_empty x.

Definition well_formed : Prop := no_left_recursion /\ no_empty_loops.

End WellFormed.

(** Size of an expression, counting the bounds of its bounded repetitions. *)
Fixpoint expr_size (e : expr) : nat :=
  match e with
  | Simple _ | RuleName _ => 1
  | And es | Or es => 1 + fold_right (fun x n => expr_size x + n) 0 es
  | Not e1 => 1 + expr_size e1
  | Repeat e1 _ mx => 1 + match mx with Some m => m | None => 0 end + expr_size e1
  end.

(** A constant that only depends on the rules: how deep parsing can get per char of text. *)
Definition depth_factor (rs : rules) : nat :=
  (length rs + 1) * (fold_right (fun p n => expr_size (snd p) + n) 0 rs + 1) + 2.
