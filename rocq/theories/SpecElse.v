(** Statements with an optional branch, as [if .. then .. else ..]. *)
From Verif Require Import Base ModelAst ModelParser SpecPeg SpecPos SpecApi SpecComments.

Definition nm_stmt : str := s_ "stmt".

Section Else.
(** The marks: [i] starts a statement with branches, [e] its second branch, and [x] is a plain statement. *)
Variables i e x : str.

(** [main = stmt;  stmt = i stmt (e stmt)? / x] *)
Definition optional_rules : rules := rules_macro
  [(main, ref_rule nm_stmt);
   (nm_stmt, Or [And [lit i; ref_rule nm_stmt; rep2 (And [lit e; ref_rule nm_stmt]) 0 1]; lit x])].

(** [main = stmt;  stmt = i stmt e stmt / i stmt / x] *)
Definition long_first_rules : rules := rules_macro
  [(main, ref_rule nm_stmt);
   (nm_stmt, Or [And [lit i; ref_rule nm_stmt; lit e; ref_rule nm_stmt]; And [lit i; ref_rule nm_stmt]; lit x])].

(** [main = stmt;  stmt = i stmt / i stmt e stmt / x] *)
Definition short_first_rules : rules := rules_macro
  [(main, ref_rule nm_stmt);
   (nm_stmt, Or [And [lit i; ref_rule nm_stmt]; And [lit i; ref_rule nm_stmt; lit e; ref_rule nm_stmt]; lit x])].

(** Neither [i] nor [x] is the start of the other, and [e] is some text. *)
Definition clear_marks : Prop := distinct_marks i x /\ e <> [].

(** Statements. *)
Inductive stm : Type :=
| Leaf
| If (a : stm)
| IfElse (a b : stm).

Fixpoint stm_text (t : stm) : str :=
  match t with
  | Leaf => x
  | If a => i ++ stm_text a
  | IfElse a b => i ++ stm_text a ++ e ++ stm_text b
  end.

Fixpoint stm_tree (t : stm) : node :=
  Rule nm_stmt
    match t with
    | Leaf => [Val x]
    | If a => [Val i; stm_tree a]
    | IfElse a b => [Val i; stm_tree a; Val e; stm_tree b]
    end.

(** A second branch could be added at the end of the statement. *)
Fixpoint takes_else (t : stm) : Prop :=
  match t with
  | Leaf => False
  | If _ => True
  | IfElse _ b => takes_else b
  end.

(** Each second branch belongs to the nearest [i] before it that can take it: what stands between them is complete. *)
Fixpoint nearest (t : stm) : Prop :=
  match t with
  | Leaf => True
  | If a => nearest a
  | IfElse a b => nearest a /\ ~ takes_else a /\ nearest b
  end.

(** Reading from left to right it is enough to remember the number [d] of [i]s that can still take a second branch: [awaits d s], a
    statement is to come; [after d s], one has just ended. *)
Inductive awaits : nat -> str -> Prop :=
| aw_i d s : awaits (S d) s -> awaits d (i ++ s)
| aw_x d s : after d s -> awaits d (x ++ s)
with after : nat -> str -> Prop :=
| af_end d : after d []
| af_e d s : awaits d s -> after (S d) (e ++ s).

End Else.
