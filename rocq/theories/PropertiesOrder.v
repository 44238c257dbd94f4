(** Properties: the order of the literals in a choice. *)
From Coq Require Import Permutation.
From Verif Require Import Base ModelAst ModelParser SpecPeg SpecPos SpecApi SpecSwap SpecOrder Examples.
From Verif Require Import ProofParser ProofEngine ProofApi ProofOrder.

(** * C88 the order of literals *)

(** A choice of literals accepts the ones that do not start with an earlier one. *)
Theorem C88_what_a_choice_of_literals_accepts : forall ws s ast, ascii s ->
  (exists fuel, parse fuel s [(main, Or (map lit ws))] = Ok ast) <-> used ws s /\ ast = Rule main [Val s].
Proof. exact lits_parse. Qed.
Print Assumptions C88_what_a_choice_of_literals_accepts.

(** Wherever it stands, it matches the longest of them that the text goes on with, and fails if there is none. *)
Theorem C88_the_longest_used_literal_is_matched : forall G ws s p, peg G (Or (map lit ws)) s p <->
  (exists w r, used ws w /\ s = w ++ r /\ (forall u, used ws u -> starts u s -> length u <= length w) /\ p = PMatch [Val w] r) \/
  ((forall w, used ws w -> ~ starts w s) /\ p = PFail).
Proof. exact lits_longest. Qed.
Print Assumptions C88_the_longest_used_literal_is_matched.

(** Two choices of literals can replace each other, in any rules, exactly if they use the same literals. *)
Theorem C88_interchangeable_exactly_if_the_used_literals_are_the_same : forall ws ws', Forall ascii ws -> Forall ascii ws' ->
  (interchangeable (Or (map lit ws)) (Or (map lit ws')) <-> forall w, used ws w <-> used ws' w).
Proof. exact lits_interchange. Qed.
Print Assumptions C88_interchangeable_exactly_if_the_used_literals_are_the_same.

(** An alternative that begins with a literal that starts with an earlier alternative can be dropped, whatever the other alternatives are. *)
Theorem C88_shadowed_alternatives_can_be_dropped : forall es1 u es2 v a es3, starts u v ->
  interchangeable (Or (es1 ++ lit u :: es2 ++ lit v :: es3)) (Or (es1 ++ lit u :: es2 ++ es3)) /\
  interchangeable (Or (es1 ++ lit u :: es2 ++ And (lit v :: a) :: es3)) (Or (es1 ++ lit u :: es2 ++ es3)).
Proof.
  intros es1 u es2 v a es3 H. split; apply ProofSwap.law_interchangeable; intro G; [exact (shadowed_lit_equiv es1 u es2 v es3 G H)|exact (shadowed_equiv es1 u es2 v a es3 G H)].
Qed.
Print Assumptions C88_shadowed_alternatives_can_be_dropped.

(** The order does not matter exactly if no literal starts with another one. *)
Theorem C88_any_order_exactly_if_apart : forall ws, Forall ascii ws ->
  ((forall ws', Permutation ws ws' -> interchangeable (Or (map lit ws)) (Or (map lit ws'))) <-> apart ws).
Proof. exact orders_alike. Qed.
Print Assumptions C88_any_order_exactly_if_apart.

(** All literals are used exactly if none starts with an earlier one, but for repeated ones. If no later one is longer, this is so. *)
Theorem C88_orders_that_use_all : forall ws,
  ((forall w, In w ws -> used ws w) <-> (forall l u m v r, ws = l ++ u :: m ++ v :: r -> starts u v -> In v (l ++ [u]))) /\
  ((forall l u m v r, ws = l ++ u :: m ++ v :: r -> length v <= length u) -> forall w, In w ws -> used ws w).
Proof. intro ws. split; [exact (all_used ws)|exact (long_first ws)]. Qed.
Print Assumptions C88_orders_that_use_all.

(** With '<' before '<=', "<=" is not accepted. *)
Theorem C88_any_order_refuted : exists ws ws' s t er, Permutation ws ws' /\ In s ws /\
  parse 20 s [(main, Or (map lit ws))] = Ok t /\ parse 20 s [(main, Or (map lit ws'))] = Err er.
Proof.
  exists [s_ "<="; s_ "<"], [s_ "<"; s_ "<="], (s_ "<="). do 2 eexists. split; [apply perm_swap|]. split; [left; reflexivity|]. split; vm_compute; reflexivity.
Qed.
Print Assumptions C88_any_order_refuted.

(** Which literals are used can be computed: of [< <= << == = <<= !=] these are [< == = !=], and also of [!= == < = =!]. *)
Example C88_nonvacuous : let ws := [s_ "<"; s_ "<="; s_ "<<"; s_ "=="; s_ "="; s_ "<<="; s_ "!="] in
  (forall w, used ws w <-> In w [s_ "<"; s_ "=="; s_ "="; s_ "!="]) /\ Forall ascii ws /\
  (forall w, used ws w <-> used [s_ "!="; s_ "=="; s_ "<"; s_ "="; s_ "=!"] w) /\
  apart [s_ "=="; s_ "<="; s_ "!="] /\
  parse 20 (s_ "==") [(main, Or (map lit ws))] = Ok (Rule main [Val (s_ "==")]) /\ (exists er, parse 20 (s_ "<<=") [(main, Or (map lit ws))] = Err er).
Proof.
  cbv zeta. split; [intro w; rewrite <- used_list; vm_compute; tauto|]. split; [repeat constructor|].
  split; [intro w; rewrite <- !used_list; vm_compute; tauto|].
  split.
  { intros u w Iu Iw [r E]. repeat (destruct Iu as [<- | Iu]; [repeat (destruct Iw as [<- | Iw]; [try reflexivity; vm_compute in E; discriminate|]); destruct Iw|]). destruct Iu. }
  split; [vm_compute; reflexivity|]. vm_compute. eexists. reflexivity.
Qed.
