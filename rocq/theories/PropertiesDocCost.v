(** What the documented calculator grammar costs: C57. *)
From Verif Require Import Base ModelAst ModelParser ModelCost ModelPegRules ModelPeg SpecPeg SpecPos SpecApi SpecWf SpecLang SpecDocs.
From Verif Require Import ProofApi ProofDocs ProofCalc ProofCalcCost ProofCalcLean.

(* ---- C57 --------------------------------------------------------------------------------- *)

(** Accepted texts take linearly many calls ... *)
Theorem C57_expressions_are_linear : exists c, forall f rs s t fuel d, rules_from_peg f calculator_text = Ok rs ->
  parse_with_debug fuel s rs d = Ok t -> parse_calls fuel s rs d <= c * (length s + 1).
Proof.
  exists 200. intros f rs s t fuel d R P. apply (same_rules _ _ _ calculator_reads) in R. subst rs.
  assert (A : ascii s). { destruct (Forall_dec ascii_char ascii_char_dec s) as [A|A]; [exact A|]. exfalso. exact (parse_non_ascii fuel s calculator_read d t A P). }
  assert (H : peg_main calculator_read s (PMatch [t] [])) by (apply (parse_accepts_iff s calculator_read d calculator_sane A); eauto).
  apply calc_main_inv in H. destruct H as (i & e & j & O & E & _). subst s. apply calculator_linear; [exact O|congruence].
Qed.
Print Assumptions C57_expressions_are_linear.

(** ... but [n] parentheses that are never closed, before any expression, take exponentially many calls to reject: [expr] tries
    [portion_expr] twice. *)
Theorem C57_open_parentheses_are_exponential : forall n e f rs fuel d, ok_sum e -> rules_from_peg f calculator_text = Ok rs ->
  let s := times n (s_ "(") ++ show_sum e in
  parse_with_debug fuel s rs d <> Fuel -> 2 ^ n <= parse_calls fuel s rs d.
Proof. intros n e f rs fuel d O R s N. apply (same_rules _ _ _ calculator_reads) in R. subst rs. apply calculator_exponential; assumption. Qed.
Print Assumptions C57_open_parentheses_are_exponential.

(** The second alternative of [expr] is redundant: without it the same texts are accepted, with the same trees, and rejected. *)
Theorem C57_one_alternative_is_redundant : forall s, (forall t, accepts lean_text s t <-> accepts calculator_text s t) /\
  (ascii s -> (rejects lean_text s <-> rejects calculator_text s)).
Proof.
  intro s. split; [intro t; apply lean_accepts|]. intro A.
  rewrite (rejects_peg _ _ _ lean_reads s A lean_wf), (rejects_peg _ _ _ calculator_reads s A calculator_wf).
  split; intros H t T; apply (H t), lean_accepts, T.
Qed.
Print Assumptions C57_one_alternative_is_redundant.

(** And without it every text, accepted or not, takes linearly many calls. *)
Theorem C57_linear_without_it : exists c, forall f rs s fuel d, rules_from_peg f lean_text = Ok rs -> ascii s ->
  parse_with_debug fuel s rs d <> Fuel -> parse_calls fuel s rs d <= c * (length s + 1).
Proof. exists 201. intros f rs s fuel d R A N. apply (same_rules _ _ _ lean_reads) in R. subst rs. apply lean_linear; assumption. Qed.
Print Assumptions C57_linear_without_it.

(** "((((1" *)
Example C57_nonvacuous : let s := times 4 (s_ "(") ++ show_sum (Term (One (Num (s_ "1") None))) in
  ok_sum (Term (One (Num (s_ "1") None))) /\ s = s_ "((((1" /\
  (exists er, parse 100 s calculator_read = Err er) /\ (exists er, parse 100 s lean_read = Err er) /\
  parse_calls 100 s calculator_read false = 972 /\ parse_calls 100 s lean_read false = 97.
Proof.
  split; [repeat constructor; discriminate|]. split; [reflexivity|]. split; [eexists; vm_compute; reflexivity|]. split; [eexists; vm_compute; reflexivity|].
  split; vm_compute; reflexivity.
Qed.
