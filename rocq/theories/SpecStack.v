(** Automata with a stack, and the rules made from them. *)
From Verif Require Import Base ModelAst ModelParser SpecPeg SpecPos SpecApi SpecLang SpecPower.

(** A move: in state [q], with [A] on top of the stack and [c] the next char, read [c], go to state [r] and put [w] in the place of [A]. *)
Definition move : Type := (nat * nat * char) * (nat * list nat).

(** States and stack symbols are numbers; a text can end in the states [finals]. *)
Record machine : Type := Machine { states : nat; symbols : nat; finals : list nat; moves : list move }.

(** All states and symbols exist, and there is one of each to start with. *)
Definition proper (M : machine) : Prop :=
  0 < states M /\ 0 < symbols M /\ Forall (fun q => q < states M) (finals M) /\
  forall q A c r w, In ((q, A, c), (r, w)) (moves M) -> r < states M /\ Forall (fun B => B < symbols M) w.

(** There is never more than one move. *)
Definition deterministic (M : machine) : Prop :=
  forall k x y, In (k, x) (moves M) -> In (k, y) (moves M) -> x = y.

(** From state [q] with stack [st], the machine reads all of the text and stops in a final state; or it stops with nothing on the stack. *)
Inductive reads (M : machine) : nat -> list nat -> str -> Prop :=
| reads_end q st : In q (finals M) -> reads M q st []
| reads_move q A st c r w s : In ((q, A, c), (r, w)) (moves M) -> reads M r (w ++ st) s -> reads M q (A :: st) (c :: s).

Inductive empties (M : machine) : nat -> list nat -> str -> Prop :=
| empties_end q : empties M q [] []
| empties_move q A st c r w s : In ((q, A, c), (r, w)) (moves M) -> empties M r (w ++ st) s -> empties M q (A :: st) (c :: s).

(** * The rules *)

(** The rule for "from state [q], what reads away [A] and leads to state [p]", for example [skks], and the rule for "from state [q], what leads to a final
    state at the end of the text, with [A] or what took its place still there", for example [skk]. *)
Definition pop_name (q A p : nat) : str := repeat 115%N (S q) ++ repeat 107%N (S A) ++ repeat 115%N (S p).
Definition stay_name (q A : nat) : str := repeat 115%N (S q) ++ repeat 107%N (S A).

(** The ways from state [r] to state [p] that read away all of [w]. *)
Fixpoint pops (n : nat) (r : nat) (w : list nat) (p : nat) : list (list expr) :=
  match w with
  | [] => if Nat.eqb r p then [[]] else []
  | B :: w' => flat_map (fun q => map (cons (ref_rule (pop_name r B q))) (pops n q w' p)) (seq 0 n)
  end.

(** The ways from state [r] that end the text before [w] is read away. *)
Fixpoint stays (n : nat) (r : nat) (w : list nat) : list (list expr) :=
  match w with
  | [] => []
  | B :: w' => [ref_rule (stay_name r B)] :: flat_map (fun q => map (cons (ref_rule (pop_name r B q))) (stays n q w')) (seq 0 n)
  end.

(** A char, then one of the ways, for each move. *)
Definition choices (M : machine) (q A : nat) (ways : nat -> list nat -> list (list expr)) : list expr :=
  flat_map (fun m => match m with ((q', A', c), (r, w)) =>
    if Nat.eqb q q' && Nat.eqb A A' then map (fun es => And (lit [c] :: es)) (ways r w) else [] end) (moves M).

Definition pop_expr (M : machine) (q A p : nat) : expr := Or (choices M q A (fun r w => pops (states M) r w p)).
Definition stay_expr (M : machine) (q A : nat) : expr :=
  Or (choices M q A (stays (states M)) ++ if existsb (Nat.eqb q) (finals M) then [at_end] else []).

Definition machine_defs (M : machine) : rules :=
  flat_map (fun q => flat_map (fun A =>
    (stay_name q A, stay_expr M q A) :: map (fun p => (pop_name q A p, pop_expr M q A p)) (seq 0 (states M))) (seq 0 (symbols M))) (seq 0 (states M)).

(** The machine starts in state 0 with the symbol 0 on the stack. *)
Definition machine_rules (M : machine) : rules :=
  (main, Or (ref_rule (stay_name 0 0) :: map (fun p => ref_rule (pop_name 0 0 p)) (finals M))) :: machine_defs M.
Definition emptying_rules (M : machine) : rules :=
  (main, Or (map (fun p => ref_rule (pop_name 0 0 p)) (seq 0 (states M)))) :: machine_defs M.
