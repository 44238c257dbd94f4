(** A calculator written with the crate, and what it should compute. *)
From Coq Require Import QArith.
From Verif Require Import Base ModelAst ModelParser ModelPeg SpecDocs.
Close Scope Q_scope.

(** What can go wrong: the grammar text, the text, a tree of an unexpected shape, or an operation (as a division by zero). *)
Inductive calc_error : Type :=
| InGrammar (e : ModelPeg.peg_error)
| InText (e : perror)
| InTree (e : ast_error)
| InArithmetic.

Section Eval.
(** Numbers of any kind: how they are read, and the four operations on them.  Both can fail. *)
Variable A : Type.
Variable read : str -> option A.
Variable op : char -> A -> A -> option A.

(** ** The meaning of a text: the usual grammar of sums of products, left recursive, with a value for each text *)

Definition apply (o : char) (a b : option A) : option A :=
  match a, b with Some x, Some y => op o x y | _, _ => None end.

Inductive number_ : str -> option A -> Prop :=
| N_whole : forall w, digits w -> number_ w (read w)
| N_point : forall w v, digits w -> digits v -> number_ (w ++ s_ "." ++ v) (read (w ++ s_ "." ++ v)).

Inductive factor : str -> option A -> Prop :=
| F_number : forall s v, number_ s v -> factor s v
| F_group : forall s v, sum_ s v -> factor (s_ "(" ++ s ++ s_ ")") v
with term_ : str -> option A -> Prop :=
| T_factor : forall s v, factor s v -> term_ s v
| T_times : forall s v i o j s' v', term_ s v -> is_mul o -> factor s' v' -> term_ (s ++ blanks i ++ [o] ++ blanks j ++ s') (apply o v v')
with sum_ : str -> option A -> Prop :=
| S_term : forall s v, term_ s v -> sum_ s v
| S_plus : forall s v i o j s' v', sum_ s v -> is_add o -> term_ s' v' -> sum_ (s ++ blanks i ++ [o] ++ blanks j ++ s') (apply o v v').

(** Blanks around it do not matter. *)
Definition denotes (s : str) (v : option A) : Prop := exists i t j, s = blanks i ++ t ++ blanks j /\ sum_ t v.

(** ** The program *)

Definition in_tree {X} (m : outcome ast_error X) : outcome calc_error X := map_err InTree m.
Definition arith (m : option A) : outcome calc_error A := match m with Some a => Ok a | None => Err InArithmetic end.

(** The value in front, if there is one. *)
Definition next_val (tokens : list fnode) : option str :=
  match fpeek_first_node tokens with
  | Ok nd => match fget_node_val nd with Ok v => Some v | _ => None end
  | _ => None
  end.

(** The operands of one level, from left to right: [operand] reads one, and an operator is a char of [ops]. *)
Fixpoint more (fuel : nat) (operand : list fnode -> outcome calc_error (A * list fnode)) (ops : list char) (acc : A) (tokens : list fnode)
  : outcome calc_error (A * list fnode) :=
  match fuel with
  | 0 => Fuel
  | S f =>
      match next_val tokens with
      | Some [o] =>
          if existsb (N.eqb o) ops then
            let? rest := in_tree (fconsume_this_value [o] tokens) in
            let? (b, rest') := operand rest in
            let? acc' := arith (op o acc b) in
            more f operand ops acc' rest'
          else Ok (acc, tokens)
      | _ => Ok (acc, tokens)
      end
  end.

(** A factor, given how to read a sum: a number, or a sum in parentheses. *)
Definition eval_factor (sum : list fnode -> outcome calc_error (A * list fnode)) (tokens : list fnode) : outcome calc_error (A * list fnode) :=
  let? rest := in_tree (fconsume_node_start_rule_name (s_ "fact_t") tokens) in
  let? (v, rest1) := in_tree (fconsume_val rest) in
  let? (a, rest2) :=
    (if str_eqb v (s_ "(")
     then let? (a, r) := sum rest1 in let? r' := in_tree (fconsume_this_value (s_ ")") r) in Ok (a, r')
     else let? a := arith (read v) in Ok (a, rest1)) in
  let? rest3 := in_tree (fconsume_node_end_rule_name (s_ "fact_t") rest2) in
  Ok (a, rest3).

Definition eval_term (fuel : nat) (factor : list fnode -> outcome calc_error (A * list fnode)) (tokens : list fnode) : outcome calc_error (A * list fnode) :=
  let? rest := in_tree (fconsume_node_start_rule_name (s_ "add_t") tokens) in
  let? (a, rest1) := factor rest in
  let? (b, rest2) := more fuel factor [42; 47]%N a rest1 in
  let? rest3 := in_tree (fconsume_node_end_rule_name (s_ "add_t") rest2) in
  Ok (b, rest3).

Fixpoint eval_sum (fuel : nat) (tokens : list fnode) : outcome calc_error (A * list fnode) :=
  match fuel with
  | 0 => Fuel
  | S f =>
      let term := eval_term f (eval_factor (eval_sum f)) in
      let? (a, rest) := term tokens in
      more f term [43; 45]%N a rest
  end.

Definition eval_main (fuel : nat) (tokens : list fnode) : outcome calc_error A :=
  let? rest := in_tree (fconsume_node_start_rule_name (s_ "main") tokens) in
  let? (a, rest1) := eval_sum fuel rest in
  let? rest2 := in_tree (fconsume_node_end_rule_name (s_ "main") rest1) in
  match fpeek_first_node rest2 with
  | Ok _ => Err (InTree (ast_mk_error (s_ "tokens left") None))
  | _ => Ok a
  end.

(** Read the grammar, parse, tidy up, flatten, compute. *)
Definition calculate (fuel : nat) (s : str) : outcome calc_error A :=
  let? rs := map_err InGrammar (rules_from_peg fuel calculator_text) in
  let? ast := map_err InText (parse fuel s rs) in
  eval_main fuel (flatten (tidy ast)).
End Eval.

(** ** Fractions as numbers *)

Definition digit_val (c : char) : Z := (Z.of_N c - 48)%Z.
(** Digits, with at most one point. *)
Fixpoint read_digits (acc : Z) (den : positive) (after_point : bool) (s : str) : Q :=
  match s with
  | [] => Qred (Qmake acc den)
  | c :: r =>
      if N.eqb c 46 then read_digits acc den true r
      else read_digits (10 * acc + digit_val c)%Z (if after_point then (10 * den)%positive else den) after_point r
  end.
Definition read_q (s : str) : option Q := Some (read_digits 0 1 false s).
Definition op_q (o : char) (a b : Q) : option Q :=
  if N.eqb o 43 then Some (Qred (a + b)) else if N.eqb o 45 then Some (Qred (a - b)) else if N.eqb o 42 then Some (Qred (a * b))
  else if Qeq_bool b 0 then None else Some (Qred (a / b)).
