(** What rules can say: finite automata, combinations of parsers, and three equal numbers. *)
From Verif Require Import Base ModelAst ModelParser SpecPeg SpecPos SpecApi SpecLang.

(** Nothing follows. *)
Definition at_end : expr := Not dot_.
Definition whole (e : expr) : expr := And [e; at_end].

(** * Finite automata *)

(** State [q] is the element at [q]: can a text end here, and the steps, each with a char and the next state. *)
Definition automaton : Type := list (bool * list (char * nat)).

(** All states exist, and there is one to start with. *)
Definition closed (M : automaton) : Prop := 0 < length M /\ forall a steps c q, In (a, steps) M -> In (c, q) steps -> q < length M.

(** From state [q], the text [s] leads to a state where it can end. *)
Inductive runs (M : automaton) : nat -> str -> Prop :=
| runs_end q steps : nth_error M q = Some (true, steps) -> runs M q []
| runs_step q a steps c q' s : nth_error M q = Some (a, steps) -> In (c, q') steps -> runs M q' s -> runs M q (c :: s).

(** The states after each char, when the first step that can work is taken. *)
Inductive first_run (M : automaton) : nat -> str -> list nat -> Prop :=
| first_end q steps : nth_error M q = Some (true, steps) -> first_run M q [] []
| first_step q a before c q' after s path : nth_error M q = Some (a, before ++ (c, q') :: after) ->
    (forall q'', In (c, q'') before -> ~ runs M q'' s) -> first_run M q' s path -> first_run M q (c :: s) (q' :: path).

(** The names of the states: s, ss, sss, .. *)
Definition st (q : nat) : str := repeat 115%N (S q).

(** [s = 'a' ss / 'b' sss / ..], and at last [!.] where a text can end. *)
Definition state_expr (x : bool * list (char * nat)) : expr :=
  Or (map (fun p => And [lit [fst p]; ref_rule (st (snd p))]) (snd x) ++ if fst x then [at_end] else []).

Fixpoint state_rules (k : nat) (M : automaton) : rules :=
  match M with [] => [] | x :: r => (st k, state_expr x) :: state_rules (S k) r end.

Definition automaton_rules (M : automaton) : rules := (main, ref_rule (st 0)) :: state_rules 0 M.

Fixpoint run_tree (q : nat) (s : str) (path : list nat) : node :=
  Rule (st q) match s, path with c :: s', q' :: path' => [Val [c]; run_tree q' s' path'] | _, _ => [] end.

(** * Combinations *)

(** The rules [rs] with [e] as main. *)
Definition with_main (rs : rules) (e : expr) : rules := rules_add rs main e.

Definition takes (rs : rules) (s : str) : Prop := exists fuel ast, parse fuel s rs = Ok ast.
Definition finishes (rs : rules) (s : str) : Prop := exists fuel, parse fuel s rs <> Fuel.

(** [b] where the whole text is also [a]: [!(!(a !.)) b]. *)
Definition both (a b : expr) : expr := And [Not (Not (whole a)); b].
(** [b] where the whole text is not [a]: [!(a !.) b]. *)
Definition but_not (a b : expr) : expr := And [Not (whole a); b].
(** [a] where the whole text is [a], and [b] otherwise: [!(!(a !.)) a / b]. *)
Definition either (a b : expr) : expr := Or [both a a; b].
(** All texts but [a]: [!(a !.) .*]. *)
Definition complement (a : expr) : expr := but_not a (rep0 dot_ 0).

(** No rule of [rs], except main itself, and none of the expressions [es] refers to main. *)
Definition main_unused (rs : rules) (es : list expr) : Prop :=
  (forall n e, n <> main -> rules_get rs n = Some e -> ~ has_ref main e) /\ Forall (fun e => ~ has_ref main e) es.

(** * Three equal numbers *)

Definition nm_xy : str := s_ "xy".
Definition nm_yz : str := s_ "yz".

(** [main = !(!(xy z)) x+ yz;  xy = x xy y / x y;  yz = y yz z / y z] *)
Definition three_rules (x y z : char) : rules :=
  [ (main, And [Not (Not (And [ref_rule nm_xy; lit [z]])); rep0 (lit [x]) 1; ref_rule nm_yz]);
    (nm_xy, Or [And [lit [x]; ref_rule nm_xy; lit [y]]; And [lit [x]; lit [y]]]);
    (nm_yz, Or [And [lit [y]; ref_rule nm_yz; lit [z]]; And [lit [y]; lit [z]]]) ].
