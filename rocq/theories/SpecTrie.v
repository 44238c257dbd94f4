(** A choice of words written char by char, as a tree (a trie). *)
From Verif Require Import Base ModelParser SpecApi.

(** Does a word end here, and how do the words go on? *)
Inductive trie : Type := TNode (here : bool) (kids : list (char * trie)).

(** How the words go on after [c], changed by [f]. *)
Fixpoint put (c : char) (f : trie -> trie) (kids : list (char * trie)) : list (char * trie) :=
  match kids with
  | [] => [(c, f (TNode false []))]
  | (d, t) :: k => if N.eqb c d then (d, f t) :: k else (d, t) :: put c f k
  end.

Fixpoint insert (w : str) (t : trie) : trie :=
  match t with
  | TNode here kids =>
      match w with
      | [] => TNode true kids
      | c :: r => TNode here (put c (insert r) kids)
      end
  end.

Definition trie_of (ws : list str) : trie := fold_left (fun t w => insert w t) ws (TNode false []).

(** [c1 (..) / c2 (..) / .. / ''], the empty sequence only where a word ends. *)
Fixpoint trie_expr (t : trie) : expr :=
  match t with
  | TNode here kids => Or (map (fun p => And [lit [fst p]; trie_expr (snd p)]) kids ++ (if here then [And []] else []))
  end.

Definition words_expr (ws : list str) : expr := trie_expr (trie_of ws).
Definition words_rules (ws : list str) : rules := rules_macro [(main, words_expr ws)].
