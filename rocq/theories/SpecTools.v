(** Sizes of trees, to say what the tools for trees cost. *)
From Verif Require Import Base ModelAst ModelParser SpecApi.

(** Levels of a tree. *)
Fixpoint height (nd : node) : nat :=
  match nd with
  | Rule _ ns => S (fold_right (fun x h => Nat.max (height x) h) 0 ns)
  | _ => 1
  end.

(** Nodes of a tree, and chars of the texts and names in it. *)
Fixpoint weight (nd : node) : nat :=
  match nd with
  | Val v => 1 + length v
  | Rule n ns => 1 + length n + fold_right (fun x w => weight x + w) 0 ns
  | EOF => 1
  end.

(** Nodes of a tree. *)
Fixpoint nodes (nd : node) : nat :=
  match nd with
  | Rule _ ns => S (fold_right (fun x k => nodes x + k) 0 ns)
  | _ => 1
  end.

(** Chars of the names in it. *)
Fixpoint name_chars (nd : node) : nat :=
  match nd with
  | Rule n ns => length n + fold_right (fun x k => name_chars x + k) 0 ns
  | _ => 0
  end.

(** [main = 'a' main / 'b'], and the text of [n] times [a] and a [b]. *)
Definition chain_rules : rules := rules_macro [(main, Or [And [lit (s_ "a"); ref_rule main]; lit (s_ "b")])].
Definition chain_text (n : nat) : str := repeat 97%N n ++ s_ "b".

(** [main = .*]. *)
Definition any_rules : rules := rules_macro [(main, rep0 dot_ 0)].
