(** Deterministic automata, and automata for regular expressions. *)
From Verif Require Import Base ModelAst ModelParser SpecPeg SpecPos SpecApi SpecPower SpecRegex.

(** A char leads to one state at most. *)
Definition deterministic (M : automaton) : Prop := forall a steps, In (a, steps) M -> NoDup (map fst steps).

(** The largest number of steps from one state. *)
Definition most_steps (M : automaton) : nat := fold_right (fun x n => Nat.max (length (snd x)) n) 0 M.

(** Where [x] is first found in the list. *)
Fixpoint position {A} (eq_dec : forall x y : A, {x = y} + {x <> y}) (x : A) (l : list A) : nat :=
  match l with [] => 0 | y :: r => if eq_dec x y then 0 else S (position eq_dec x r) end.

(** * From an automaton to a deterministic one: its states are the sets of states *)

(** A set of states: is state 0 in it, is state 1, .. *)
Definition states : Type := list bool.
Definition states_dec : forall v w : states, {v = w} + {v <> w} := list_eq_dec bool_dec.
Definition has (v : states) (q : nat) : bool := nth q v false.

Fixpoint all_sets (n : nat) : list states :=
  match n with 0 => [[]] | S k => map (cons false) (all_sets k) ++ map (cons true) (all_sets k) end.

(** The states such that .. *)
Definition such_that (M : automaton) (f : nat -> bool) : states := map f (seq 0 (length M)).
Definition start_set (M : automaton) : states := such_that M (Nat.eqb 0).

Definition steps_of (M : automaton) (q : nat) : list (char * nat) := match nth_error M q with Some x => snd x | None => [] end.
Definition ends_at (M : automaton) (q : nat) : bool := match nth_error M q with Some x => fst x | None => false end.

(** The states that [c] leads to from one of the states of [v]; can a text end in one of [v]? *)
Definition next_set (M : automaton) (v : states) (c : char) : states :=
  such_that M (fun q' => existsb (fun q => has v q && existsb (fun p => N.eqb (fst p) c && Nat.eqb (snd p) q') (steps_of M q)) (seq 0 (length M))).
Definition set_end (M : automaton) (v : states) : bool := existsb (fun q => has v q && ends_at M q) (seq 0 (length M)).

Definition chars_of (M : automaton) : list char := nodup N.eq_dec (flat_map (fun x => map fst (snd x)) M).
Definition sets (M : automaton) : list states := start_set M :: all_sets (length M).

Definition determinized (M : automaton) : automaton :=
  map (fun v => (set_end M v, map (fun c => (c, position states_dec (next_set M v c) (sets M))) (chars_of M))) (sets M).

(** * From a regular expression to an automaton: its states are what is left to match *)

Definition regex_dec : forall x y : regex, {x = y} + {x <> y}.
Proof. decide equality. apply N.eq_dec. Defined.

(** What can be left of [r] after [c] .. *)
Fixpoint after (c : char) (r : regex) : list regex :=
  match r with
  | Empty | Eps => []
  | Chr c' => if N.eqb c' c then [Eps] else []
  | Any => [Eps]
  | Cat r1 r2 => map (fun x => Cat x r2) (after c r1) ++ if nullable r1 then after c r2 else []
  | Alt r1 r2 => after c r1 ++ after c r2
  | Star r1 => map (fun x => Cat x (Star r1)) (after c r1)
  end.

(** .. and after any text that is not empty. *)
Fixpoint rests (r : regex) : list regex :=
  match r with
  | Empty | Eps => []
  | Chr _ | Any => [Eps]
  | Cat r1 r2 => map (fun x => Cat x r2) (rests r1) ++ rests r2
  | Alt r1 r2 => rests r1 ++ rests r2
  | Star r1 => map (fun x => Cat x (Star r1)) (rests r1)
  end.

Definition ascii_chars : list char := map N.of_nat (seq 0 128).

Definition regex_automaton (r : regex) : automaton :=
  map (fun x => (nullable x, flat_map (fun c => map (fun y => (c, position regex_dec y (r :: rests r))) (after c x)) ascii_chars)) (r :: rests r).

(** Rules for a regular expression where each char leads to one state. *)
Definition fast_rules (r : regex) : rules := automaton_rules (determinized (regex_automaton r)).

(** * What can take long *)

(** [(a|a)*], and [n] times a followed by b. *)
Definition twice_a : regex := Star (Alt (Chr 97%N) (Chr 97%N)).
Definition many_a_then_b (n : nat) : str := repeat 97%N n ++ s_ "b".
