(** How a rule set can come about: every way in which a program can build one with the API. *)
From Verif Require Import Base ModelAst ModelParser ModelPeg SpecAst SpecPegApi.
From Coq Require Import Permutation.

(** [history rs h]: [rs] is a rule set that a program can hold after some calls of the API, and [h] lists the
    definitions that went into it, the ones that win last.  A hash map may be iterated in any order, and this order
    may change at any time ([h_order]).  [SetOfRules::new] takes any finite map ([h_map]); the other ways are the
    macro, the reader of PEG texts, [add] and [merge]. *)
Inductive history : rules -> list (str * expr) -> Prop :=
| h_new : history rules_new []
| h_map m : unique_names m -> history m m
| h_macro l : history (rules_macro l) l
| h_text s rs : answers s (Ok rs) -> history rs rs
| h_add rs h n e : history rs h -> history (rules_add rs n e) (h ++ [(n, e)])
| h_merge a ha b hb : history a ha -> history b hb -> history (rules_merge a b) (hb ++ ha)
| h_order rs h rs' : history rs h -> Permutation rs rs' -> history rs' h.

(** Two lists of definitions say the same in the end. *)
Definition same_in_the_end (h h' : list (str * expr)) : Prop :=
  forall n r, last_binding h n r <-> last_binding h' n r.

(** Two rule sets agree on the names that both define. *)
Definition agree (a b : rules) : Prop :=
  forall n x y, In (n, x) a -> In (n, y) b -> x = y.
