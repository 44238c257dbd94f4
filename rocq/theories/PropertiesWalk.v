(** What reading a grammar text costs after it is parsed: C87. *)
From Verif Require Import Base ModelAst ModelParser ModelPegRules ModelPeg ModelWalk SpecPos SpecSyntax ProofPegApi ProofReadLow ProofWalk ProofWalkLow.

(* ---- C87 --------------------------------------------------------------------------------- *)

(** The counted walk over the tokens returns what the walk returns, for any tokens and any way to combine tallies. *)
Theorem C87_the_counted_walk_is_the_walk : forall op fuel nodes,
  fst (w_rules_from_flat_ast op fuel nodes) = rules_from_flat_ast fuel nodes.
Proof. exact walk_same. Qed.
Print Assumptions C87_the_counted_walk_is_the_walk.

(** For any tokens, also those no grammar text has, at most ten calls for each token ... *)
Theorem C87_few_calls_per_token : forall fuel nodes,
  snd (w_rules_from_flat_ast Nat.add fuel nodes) <= 10 * length nodes + 2.
Proof. exact (walk_linear Nat.add add_up). Qed.
Print Assumptions C87_few_calls_per_token.

(** ... and so linearly many in the length of the text, valid or not ... *)
Theorem C87_calls_are_linear_in_the_text : exists c, forall fuel s, read_calls fuel s <= c * (length s + 1).
Proof. exact (read_linear Nat.add add_up). Qed.
Print Assumptions C87_calls_are_linear_in_the_text.

(** ... which also bounds how deeply they nest. *)
Theorem C87_nesting_is_linear_in_the_text : exists c, forall fuel s, read_nesting fuel s <= c * (length s + 1).
Proof. exact (read_linear Nat.max max_up). Qed.
Print Assumptions C87_nesting_is_linear_in_the_text.

(** The definitions of a grammar text are read by nested calls, one in the other ... *)
Theorem C87_nesting_grows_with_the_definitions : forall s l, ascii s -> grammar_text s l ->
  exists f0, forall fuel, f0 <= fuel -> length l + 2 < read_nesting fuel s.
Proof. exact nesting_low. Qed.
Print Assumptions C87_nesting_grows_with_the_definitions.

(** ... so that no fixed stack is enough for all grammar texts, however simple their rules. *)
Theorem C87_no_fixed_stack_is_enough : forall n, exists s, length s = 4 * n + 4 /\
  exists rs f0, forall fuel, f0 <= fuel -> rules_from_peg fuel s = Ok rs /\ n + 3 < read_nesting fuel s.
Proof.
  intro n. exists (lines n). split; [apply lines_length|].
  destruct (rules_from_peg_reads _ _ (lines_ascii n) (lines_grammar n)) as [f1 H1].
  destruct (nesting_low _ _ (lines_ascii n) (lines_grammar n)) as [f2 H2]. rewrite repeat_length in H2.
  eexists. exists (f1 + f2). intros fuel L. split; [apply H1; lia|]. specialize (H2 fuel ltac:(lia)). lia.
Qed.
Print Assumptions C87_no_fixed_stack_is_enough.

Example C87_nonvacuous : lines 1 = s_ "m=a" ++ [ch_nl] ++ s_ "m=a" ++ [ch_nl] /\
  rules_from_peg 300 (lines 1) = Ok [(s_ "m", ref_rule (s_ "a"))] /\
  (read_nesting 300 (lines 0), read_nesting 300 (lines 1), read_nesting 300 (lines 2), read_nesting 300 (lines 6)) = (14, 15, 16, 20) /\
  (read_calls 300 (lines 0), read_calls 300 (lines 1), read_calls 300 (lines 2)) = (19, 35, 51).
Proof. split; [reflexivity|]. split; [vm_compute; reflexivity|]. split; vm_compute; reflexivity. Qed.

(** A text that parses but gives no rules (an empty literal in single quotes) is walked up to the error; one that does not parse
    is not walked at all. *)
Example C87_nonvacuous_error :
  (exists e, rules_from_peg 300 (s_ "m=a b ''" ++ [ch_nl]) = Err e) /\ read_calls 300 (s_ "m=a b ''" ++ [ch_nl]) = 34 /\
  (exists e, rules_from_peg 300 (s_ "m=") = Err e) /\ read_calls 300 (s_ "m=") = 0.
Proof.
  split; [eexists; vm_compute; reflexivity|]. split; [vm_compute; reflexivity|].
  split; [eexists; vm_compute; reflexivity|vm_compute; reflexivity].
Qed.
