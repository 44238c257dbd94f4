(** Notions used to state the properties about cost, and an example of rules that are expensive to run. *)
From Verif Require Import Base ModelAst ModelParser SpecApi.

(** Number of nodes of a tree. *)
Fixpoint node_count (nd : node) : nat :=
  match nd with
  | Rule _ ns => S (fold_right (fun x n => node_count x + n) 0 ns)
  | _ => 1
  end.

(** [main = '(' main ')' / '(' main / 'z'], and the text of [n] open parentheses before a [z]. *)
Definition nested_rules : rules :=
  rules_macro [(main, Or [And [lit (s_ "("); ref_rule main; lit (s_ ")")]; And [lit (s_ "("); ref_rule main]; lit (s_ "z")])].
Definition nested_text (n : nat) : str := repeat 40%N n ++ s_ "z".
