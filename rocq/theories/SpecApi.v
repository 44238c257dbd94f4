(** Small specifications used to state the API-level properties. *)
From Verif Require Import Base ModelAst ModelParser SpecPeg SpecPos.

Definition main : str := s_ "main".

(** The text spelled by the leaves of a tree, left to right. *)
Fixpoint leaves (nd : node) : str :=
  match nd with
  | Val v => v
  | Rule _ ns => flat_map leaves ns
  | EOF => []
  end.

(** No [Node::EOF] anywhere in the tree. *)
Fixpoint eof_free (nd : node) : Prop :=
  match nd with
  | Val _ => True
  | Rule _ ns => fold_right (fun x P => eof_free x /\ P) True ns
  | EOF => False
  end.

(** [a] is one of the atoms of [e]. *)
Inductive has_atom (a : atom) : expr -> Prop :=
| ha_simple : has_atom a (Simple a)
| ha_and e es : In e es -> has_atom a e -> has_atom a (And es)
| ha_or e es : In e es -> has_atom a e -> has_atom a (Or es)
| ha_not e : has_atom a e -> has_atom a (Not e)
| ha_rep e mn mx : has_atom a e -> has_atom a (Repeat e mn mx).

(** [e] references rule [n]. *)
Inductive has_ref (n : str) : expr -> Prop :=
| hr_name : has_ref n (RuleName n)
| hr_and e es : In e es -> has_ref n e -> has_ref n (And es)
| hr_or e es : In e es -> has_ref n e -> has_ref n (Or es)
| hr_not e : has_ref n e -> has_ref n (Not e)
| hr_rep e mn mx : has_ref n e -> has_ref n (Repeat e mn mx).

(** Rule names reachable from [main] by following references. *)
Inductive reachable (rs : rules) : str -> Prop :=
| reach_main : reachable rs main
| reach_step n e m : reachable rs n -> rules_get rs n = Some e -> has_ref m e -> reachable rs m.

(** No rule uses the EOF atom. *)
Definition no_eof_atom (rs : rules) : Prop := forall n e, rules_get rs n = Some e -> ~ has_atom AEOF e.

(** What the PEG semantics says about parsing [text] with [main]. *)
Definition peg_main (rs : rules) (text : str) (r : presult) : Prop := peg (grammar_of rs) (RuleName main) text r.

(** An error without its trace of rules. *)
Definition erase_rules (er : perror) : perror :=
  PError (e_pos er) (e_descr er) (e_line_before er) (e_line_after er) [] (e_priority er).

(** The trace of rules of an error: empty without debugging; with debugging it starts with main, and only
    contains names reachable from main. *)
Definition trace_ok (rs : rules) (d : bool) (l : list str) : Prop :=
  if d then exists l', l = (s_ "r:" ++ main) :: l' /\ Forall (fun x => exists n, x = s_ "r:" ++ n /\ reachable rs n) l'
  else l = [].
