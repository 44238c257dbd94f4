(** Texts that are made of fields with a separator between them. *)
From Verif Require Import Base ModelAst ModelParser SpecPeg SpecPower SpecTable.

(** [main = e ('c' e)*], with the rules [rs]. *)
Definition field_rules (rs : rules) (e : expr) (c : char) : rules := with_main rs (And [e; rep0 (And [lit [c]; e]) 0]).

(** [main = e ('c' e)* 'c'?], where one separator may stand at the end. *)
Definition trail_rules (rs : rules) (e : expr) (c : char) : rules := with_main rs (And [e; rep0 (And [lit [c]; e]) 0; rep2 (lit [c]) 0 1]).

(** Lists of nodes with a separator between them. *)
Fixpoint join_kids (sep : char) (l : list (list node)) : list node :=
  match l with
  | [] => []
  | [ks] => ks
  | ks :: r => ks ++ Val [sep] :: join_kids sep r
  end.
