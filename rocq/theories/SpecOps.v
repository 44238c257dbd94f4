(** Formulas with operators.  A family of rule sets, one for each class of chars, pair of brackets and list of levels of operators. *)
From Verif Require Import Base ModelAst ModelParser SpecPeg SpecPos SpecApi SpecTable.

Definition nm_number : str := s_ "number".
Definition nm_group : str := s_ "group".
(** The names of the levels: l, ll, lll, .. *)
Definition lev (k : nat) : str := repeat 108%N (S k).

(** The rule of level [k] when [ops] are the operators of this level and of the tighter ones. *)
Definition level_expr (k : nat) (ops : list str) : expr :=
  match ops with
  | [] => Or [ref_rule nm_number; ref_rule nm_group]
  | o :: _ => And [ref_rule (lev (S k)); rep0 (And [ematch o []; ref_rule (lev (S k))]) 0]
  end.

Fixpoint level_rules (k : nat) (ops : list str) : rules :=
  (lev k, level_expr k ops) :: match ops with [] => [] | _ :: r => level_rules (S k) r end.

(** [main = l;  number = [..]+;  group = O l C;] for each level [l = ll ([operators] ll)*], at the end [lll = number / group];
    the first operators bind loosest. *)
Definition ops_rules (cs : str) (rg : list (char * char)) (O C : char) (ops : list str) : rules :=
  [(main, ref_rule (lev 0)); (nm_number, rep0 (ematch cs rg) 1); (nm_group, And [lit [O]; ref_rule (lev 0); lit [C]])] ++ level_rules 0 ops.

(** A number, a formula in brackets, or a chain of formulas with operators between them. *)
Inductive formula : Type :=
| Number (w : str)
| Group (f : formula)
| Chain (f : formula) (l : list (char * formula)).

Section Formulas.
Variable cs : str.
Variable rg : list (char * char).
Variables O C : char.
Variable all : list str.    (* the operators of all levels *)

(** [formula_of ops f]: the chains in [f] follow the levels [ops], from the loosest to the tightest, and all levels again in brackets. *)
Inductive formula_of : list str -> formula -> Prop :=
| fo_number w : w <> [] -> Forall (in_class cs rg) w -> formula_of [] (Number w)
| fo_group f : formula_of all f -> formula_of [] (Group f)
| fo_chain o r f l : formula_of r f -> Forall (fun p => In (fst p) o /\ formula_of r (snd p)) l -> formula_of (o :: r) (Chain f l).

Fixpoint formula_text (f : formula) : str :=
  match f with
  | Number w => w
  | Group f => O :: formula_text f ++ [C]
  | Chain f l => formula_text f ++ flat_map (fun p => fst p :: formula_text (snd p)) l
  end.

Fixpoint formula_tree (k : nat) (f : formula) : node :=
  Rule (lev k)
    match f with
    | Number w => [Rule nm_number (by_chars w)]
    | Group f => [Rule nm_group [Val [O]; formula_tree 0 f; Val [C]]]
    | Chain f l => formula_tree (S k) f :: flat_map (fun p => [Val [fst p]; formula_tree (S k) (snd p)]) l
    end.

End Formulas.

(** No operator belongs to two levels. *)
Fixpoint separate (ops : list str) : Prop :=
  match ops with
  | [] => True
  | o :: r => (forall c, In c o -> ~ In c (concat r)) /\ separate r
  end.
