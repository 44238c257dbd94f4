(** Rules without recursion, and regular expressions, for an automaton. *)
From Verif Require Import Base ModelAst ModelParser SpecPeg SpecPos SpecApi SpecPower SpecRegex SpecSpeed.

(** The chars that lead from state [i] to state [j]. *)
Definition step_chars (M : automaton) (i j : nat) : str := map fst (filter (fun p => Nat.eqb (snd p) j) (steps_of M i)).

Definition never : expr := ematch [] [].

(** * Rules: the states one by one *)

(** From state [i] to state [j], with one char at least, where all the states between are below [k]. *)
Fixpoint passing (M : automaton) (k i j : nat) : expr :=
  match k with
  | 0 => ematch (step_chars M i j) []
  | S h => Or [passing M h i j; And [passing M h i h; rep0 (passing M h h h) 0; passing M h h j]]
  end.

(** From state [i] to the end of the text, where all the states after [i] are below [k]. *)
Fixpoint ending (M : automaton) (k i : nat) : expr :=
  match k with
  | 0 => if ends_at M i then at_end else never
  | S h => Or [ending M h i; And [passing M h i h; rep0 (passing M h h h) 0; ending M h h]]
  end.

(** One rule, that refers to none. *)
Definition flat_rules (M : automaton) : rules := rules_macro [(main, ending M (length M) 0)].

(** * The same as regular expressions *)

Definition any_of (cs : str) : regex := fold_right (fun c r => Alt (Chr c) r) Empty cs.

Fixpoint passing_regex (M : automaton) (k i j : nat) : regex :=
  match k with
  | 0 => any_of (step_chars M i j)
  | S h => Alt (passing_regex M h i j) (Cat (passing_regex M h i h) (Cat (Star (passing_regex M h h h)) (passing_regex M h h j)))
  end.

Fixpoint ending_regex (M : automaton) (k i : nat) : regex :=
  match k with
  | 0 => if ends_at M i then Eps else Empty
  | S h => Alt (ending_regex M h i) (Cat (passing_regex M h i h) (Cat (Star (passing_regex M h h h)) (ending_regex M h h)))
  end.

Definition automaton_regex (M : automaton) : regex := ending_regex M (length M) 0.
