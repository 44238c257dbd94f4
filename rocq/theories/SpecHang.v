(** When parsing does not return: what must be evaluated to evaluate an expression, and how large an expression is. *)
From Coq Require Export Relations.Relation_Operators.
From Verif Require Import Base ModelAst ModelParser SpecPeg.

(** An expression to be evaluated where the given text remains. *)
Definition task : Type := (expr * str)%type.

Section Needs.
Variable G : str -> option expr.

(** Evaluating the first task requires the result of the second one: the head of a sequence or choice, the rest of it once the
    head has matched or failed, the operand of a predicate or repetition, the remaining turns of a repetition once
    the operand has matched, the expression of a rule. *)
Inductive needs : task -> task -> Prop :=
| nd_and e es s : needs (And (e :: es), s) (e, s)
| nd_and_rest e es s ts s1 : peg G e s (PMatch ts s1) -> needs (And (e :: es), s) (And es, s1)
| nd_or e es s : needs (Or (e :: es), s) (e, s)
| nd_or_rest e es s : peg G e s PFail -> needs (Or (e :: es), s) (Or es, s)
| nd_not e s : needs (Not e, s) (e, s)
| nd_rep e mn mx s : mx <> Some 0 -> needs (Repeat e mn mx, s) (e, s)
| nd_rep_rest e mn mx s ts s1 : mx <> Some 0 -> peg G e s (PMatch ts s1) ->
    needs (Repeat e mn mx, s) (Repeat e (pred mn) (option_map pred mx), s1)
| nd_rule n e s : G n = Some e -> needs (RuleName n, s) (e, s).

(** The tasks that come up, sooner or later, when the first one is evaluated. *)
Definition comes_up (t t' : task) : Prop := clos_refl_trans task needs t t'.

(** A rule is needed again where it is already being matched: left recursion, through any number of rules and over
    any expressions that happen to match nothing. *)
Definition needs_itself (n s : str) : Prop := clos_trans task needs (RuleName n, s) (RuleName n, s).

(** The operand of an unbounded repetition, which has matched often enough, matches nothing. *)
Definition repeats_nothing (e : expr) (s : str) : Prop := exists ts, peg G e s (PMatch ts s).

End Needs.

(** Size of an expression, each element of a sequence or choice and each turn that the bounds of a repetition ask for or allow counting. *)
Fixpoint weight (e : expr) : nat :=
  match e with
  | Simple _ | RuleName _ => 1
  | And es | Or es => 1 + fold_right (fun x n => 1 + weight x + n) 0 es
  | Not e1 => 1 + weight e1
  | Repeat e1 mn mx => 1 + Nat.max mn (match mx with Some m => m | None => 0 end) + weight e1
  end.

(** Total size of the rules. *)
Definition rules_weight (rs : rules) : nat := 1 + fold_right (fun p n => weight (snd p) + n) 0 rs.
