(** C108: what a rule set means depends only on the definitions that went into it and on which of them win, not on the
    calls that built it.  "[history rs h]" reads "a program can hold [rs] after calls of the API that brought in the
    definitions [h], winners last" (SpecHistory); two rule sets are the same map when they are permutations of each
    other. *)
From Verif Require Import Base ModelAst ModelParser ModelPeg SpecAst SpecApi SpecPegApi SpecHistory ProofApi ProofHistory.
From Coq Require Import Permutation.

(** After any history a name has one rule at most: the definition that came last, and none if there was none. *)
Theorem C108_last_definition_wins : forall rs h, history rs h ->
  unique_names rs /\ forall n, last_binding h n (rules_get rs n).
Proof. exact history_laws. Qed.
Print Assumptions C108_last_definition_wins.

(** Any history can be replaced by one use of the macro. *)
Theorem C108_one_macro_will_do : forall rs h, history rs h ->
  Permutation rs (rules_macro h) /\
  forall fuel s debug, parse_with_debug fuel s rs debug = parse_with_debug fuel s (rules_macro h) debug.
Proof. exact one_macro. Qed.
Print Assumptions C108_one_macro_will_do.

(** Two histories give the same map exactly when they say the same in the end ... *)
Theorem C108_same_map : forall rs h rs' h', history rs h -> history rs' h' ->
  (same_in_the_end h h' <-> Permutation rs rs').
Proof. exact same_history. Qed.
Print Assumptions C108_same_map.

(** ... and then every text is answered alike. *)
Theorem C108_same_answers : forall rs h rs' h', history rs h -> history rs' h' -> same_in_the_end h h' ->
  forall fuel s debug, parse_with_debug fuel s rs debug = parse_with_debug fuel s rs' debug.
Proof. exact histories_parse_alike. Qed.
Print Assumptions C108_same_answers.

(** The rule sets a program can hold are exactly the finite maps, and the macro alone can build each of them. *)
Theorem C108_every_finite_map : forall rs,
  ((exists h, history rs h) <-> unique_names rs) /\
  (unique_names rs -> Permutation rs (rules_macro rs)).
Proof. intro rs. exact (conj (any_map rs) (macro_map rs)). Qed.
Print Assumptions C108_every_finite_map.

(** A definition that is overwritten later could have been left out. *)
Theorem C108_overwritten_definitions : forall before after n e, In n (map fst after) ->
  same_in_the_end (before ++ (n, e) :: after) (before ++ after).
Proof. exact overwritten. Qed.
Print Assumptions C108_overwritten_definitions.

(** Definitions of different names can be given in any order. *)
Theorem C108_order_of_definitions : forall h h', NoDup (map fst h) -> Permutation h h' -> same_in_the_end h h'.
Proof. exact distinct_order. Qed.
Print Assumptions C108_order_of_definitions.

(** [merge] is a monoid with the empty set, and idempotent. *)
Theorem C108_merge_laws : forall a b c ha hb hc, history a ha -> history b hb -> history c hc ->
  Permutation (rules_merge a (rules_merge b c)) (rules_merge (rules_merge a b) c) /\
  Permutation (rules_merge rules_new a) a /\
  Permutation (rules_merge a rules_new) a /\
  Permutation (rules_merge a a) a.
Proof.
  intros a b c ha hb hc Ha Hb Hc. apply history_laws in Ha, Hb, Hc.
  exact (conj (merge_assoc a b c (proj1 Ha) (proj1 Hb) (proj1 Hc))
        (conj (merge_new_l a (proj1 Ha)) (conj (merge_new_r a (proj1 Ha)) (merge_self a (proj1 Ha))))).
Qed.
Print Assumptions C108_merge_laws.

(** The order of a merge matters exactly when the two sets define a common name differently. *)
Theorem C108_merge_order_matters : forall a b ha hb, history a ha -> history b hb ->
  (Permutation (rules_merge a b) (rules_merge b a) <-> agree a b).
Proof.
  intros a b ha hb Ha Hb. exact (merge_comm a b (proj1 (history_laws a ha Ha)) (proj1 (history_laws b hb Hb))).
Qed.
Print Assumptions C108_merge_order_matters.

(** [add] overwrites, additions of different names commute, and adding is merging a single definition into what is
    there: the receiver of a merge wins. *)
Theorem C108_add_laws : forall a h, history a h ->
  (forall n e e', Permutation (rules_add (rules_add a n e) n e') (rules_add a n e')) /\
  (forall n m e e', n <> m -> Permutation (rules_add (rules_add a n e) m e') (rules_add (rules_add a m e') n e)) /\
  (forall n e, Permutation (rules_add a n e) (rules_merge (rules_macro [(n, e)]) a)) /\
  (forall b hb n e, history b hb -> Permutation (rules_merge (rules_add a n e) b) (rules_add (rules_merge a b) n e)).
Proof.
  intros a h H. pose proof (proj1 (history_laws a h H)) as U.
  split; [exact (add_again a U)|]. split; [exact (add_comm a U)|]. split; [exact (add_as_merge a U)|].
  intros b hb n e Hb. exact (merge_add a b U (proj1 (history_laws b hb Hb)) n e).
Qed.
Print Assumptions C108_add_laws.

(** A history with all the operations: a macro with a definition given twice, an addition that overwrites, a merge with
    a set that defines a name differently.  What is left binds [main] to "c", [x] to "2", [y] to "4". *)
Definition ex_history : rules :=
  rules_merge (rules_add (rules_macro [(main, lit (s_ "a")); (s_ "x", lit (s_ "1")); (main, lit (s_ "b")); (s_ "x", lit (s_ "2"))]) main (lit (s_ "c")))
              (rules_add (rules_add rules_new (s_ "x") (lit (s_ "3"))) (s_ "y") (lit (s_ "4"))).

Example C108_nonvacuous :
  (exists h, history ex_history h /\ length h = 7) /\
  Permutation ex_history (rules_macro [(s_ "y", lit (s_ "4")); (main, lit (s_ "c")); (s_ "x", lit (s_ "2"))]) /\
  ~ agree (rules_macro [(s_ "x", lit (s_ "2"))]) (rules_macro [(s_ "x", lit (s_ "3"))]) /\
  parse (2 + 4) (s_ "c") ex_history = Ok (Rule main [Val (s_ "c")]).
Proof.
  split; [|split; [|split]].
  - eexists. split; [apply h_merge; [apply h_add, h_macro|apply h_add, h_add, h_new]|reflexivity].
  - apply same_map.
    + apply (history_laws _ (([] ++ [(s_ "x", lit (s_ "3"))]) ++ [(s_ "y", lit (s_ "4"))] ++ [(main, lit (s_ "a")); (s_ "x", lit (s_ "1")); (main, lit (s_ "b")); (s_ "x", lit (s_ "2"))] ++ [(main, lit (s_ "c"))])).
      apply (h_merge _ _ _ (([] ++ [(s_ "x", lit (s_ "3"))]) ++ [(s_ "y", lit (s_ "4"))])); [apply h_add, h_macro|apply h_add, h_add, h_new].
    + apply (history_laws _ _ (h_macro _)).
    + intro n. vm_compute. reflexivity.
  - intro A. specialize (A (s_ "x") (lit (s_ "2")) (lit (s_ "3")) (or_introl eq_refl) (or_introl eq_refl)). discriminate.
  - vm_compute. reflexivity.
Qed.
