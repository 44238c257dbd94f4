(** Regular expressions, and rules made from them. *)
From Verif Require Import Base ModelAst ModelParser SpecPeg SpecPos SpecApi SpecPower.

Inductive regex : Type :=
| Empty                      (* no text *)
| Eps                        (* the empty text *)
| Chr (c : char)             (* the char c *)
| Any                        (* any one char *)
| Cat (r1 r2 : regex)
| Alt (r1 r2 : regex)
| Star (r : regex).

Inductive matches : regex -> str -> Prop :=
| m_eps : matches Eps []
| m_chr c : matches (Chr c) [c]
| m_any c : matches Any [c]
| m_cat r1 r2 u v : matches r1 u -> matches r2 v -> matches (Cat r1 r2) (u ++ v)
| m_left r1 r2 u : matches r1 u -> matches (Alt r1 r2) u
| m_right r1 r2 u : matches r2 u -> matches (Alt r1 r2) u
| m_stop r : matches (Star r) []
| m_more r u v : matches r u -> matches (Star r) v -> matches (Star r) (u ++ v).

(** The chars are ASCII. *)
Fixpoint ascii_regex (r : regex) : Prop :=
  match r with
  | Empty | Eps | Any => True
  | Chr c => ascii_char c
  | Cat r1 r2 | Alt r1 r2 => ascii_regex r1 /\ ascii_regex r2
  | Star r1 => ascii_regex r1
  end.

(** Is the empty text matched? *)
Fixpoint nullable (r : regex) : bool :=
  match r with
  | Empty | Chr _ | Any => false
  | Eps | Star _ => true
  | Cat r1 r2 => nullable r1 && nullable r2
  | Alt r1 r2 => nullable r1 || nullable r2
  end.

(** The same texts with no [Star] of something that can be empty; and the same texts but the empty one. *)
Fixpoint normal (r : regex) : regex * regex :=
  match r with
  | Empty => (Empty, Empty)
  | Eps => (Eps, Empty)
  | Chr c => (Chr c, Chr c)
  | Any => (Any, Any)
  | Cat r1 r2 =>
      (Cat (fst (normal r1)) (fst (normal r2)),
       let first := Cat (snd (normal r1)) (fst (normal r2)) in if nullable r1 then Alt first (snd (normal r2)) else first)
  | Alt r1 r2 => (Alt (fst (normal r1)) (fst (normal r2)), Alt (snd (normal r1)) (snd (normal r2)))
  | Star r1 => (Star (snd (normal r1)), Cat (snd (normal r1)) (Star (snd (normal r1))))
  end.

(** The expression for [r] followed by [k], the rules it uses, and the number of the next rule; the names of the rules are s, ss, sss, ..
    Everything that follows is part of each alternative: a choice is made for the whole rest of the text. *)
Fixpoint compile (r : regex) (k : expr) (n : nat) : expr * rules * nat :=
  match r with
  | Empty => (And [at_end; dot_], [], n)
  | Eps => (k, [], n)
  | Chr c => (And [lit [c]; k], [], n)
  | Any => (And [dot_; k], [], n)
  | Cat r1 r2 =>
      let '(e2, rs2, m) := compile r2 k n in
      let '(e1, rs1, m') := compile r1 e2 m in (e1, rs1 ++ rs2, m')
  | Alt r1 r2 =>
      let '(e1, rs1, m) := compile r1 k n in
      let '(e2, rs2, m') := compile r2 k m in (Or [e1; e2], rs1 ++ rs2, m')
  | Star r1 =>
      let '(e1, rs1, m) := compile r1 (ref_rule (st n)) (S n) in (ref_rule (st n), (st n, Or [e1; k]) :: rs1, m)
  end.

(** [main] is the expression followed by the end of the text. *)
Definition regex_rules (r : regex) : rules :=
  let '(e, rs, _) := compile (fst (normal r)) at_end 0 in (main, e) :: rs.

(** The regex symbol by symbol: sequence for sequence, choice for choice, repetition for repetition. *)
Fixpoint direct (r : regex) : expr :=
  match r with
  | Empty => And [at_end; dot_]
  | Eps => And []
  | Chr c => lit [c]
  | Any => dot_
  | Cat r1 r2 => And [direct r1; direct r2]
  | Alt r1 r2 => Or [direct r1; direct r2]
  | Star r1 => rep0 (direct r1) 0
  end.
