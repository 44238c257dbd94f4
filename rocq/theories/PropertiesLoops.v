(** Properties: rules without recursion. *)
From Verif Require Import Base ModelAst ModelParser ModelCost SpecPeg SpecPos SpecApi SpecWf SpecBnf SpecTools SpecLoops.
From Verif Require Import ProofAst ProofParser ProofApi ProofWf WfCheck ProofLoops.

(** * C93 rules without recursion *)

(** The time is a polynomial in the length of the text. *)
Theorem C93_no_recursion_is_polynomial : forall rs, no_recursion (grammar_of rs) -> no_empty_loops (grammar_of rs) ->
  exists c d, forall fuel s debug, parse_calls fuel s rs debug <= c * (length s + 1) ^ d.
Proof. intros rs NR NEL. destruct (main_loops rs NR) as [d D]. destruct (parse_within rs NEL d D) as [c C]. exists c, d. exact C. Qed.
Print Assumptions C93_no_recursion_is_polynomial.

(** The degree is how deep repetitions without an upper bound are nested: without any the number of steps is bounded whatever the
    text, without nesting it is linear. *)
Theorem C93_degree_is_the_nesting_of_loops : forall rs d, no_empty_loops (grammar_of rs) -> loops_within (grammar_of rs) d (RuleName main) ->
  exists c, forall fuel s debug, parse_calls fuel s rs debug <= c * (length s + 1) ^ d.
Proof. intros rs d NEL L. exact (parse_within rs NEL d L). Qed.
Print Assumptions C93_degree_is_the_nesting_of_loops.

(** Rules without recursion have such a nesting, and are well formed if no loop is empty. *)
Theorem C93_no_recursion_is_finite : forall rs, no_recursion (grammar_of rs) ->
  (exists d, loops_within (grammar_of rs) d (RuleName main)) /\ (no_empty_loops (grammar_of rs) -> well_formed (grammar_of rs)).
Proof.
  intros rs NR. split; [exact (main_loops rs NR)|]. intro NEL. split; [|exact NEL]. intros n C. apply (NR n).
  assert (X : forall a b, clos_trans str (rule_calls (grammar_of rs)) a b -> clos_trans str (refers (grammar_of rs)) a b).
  { intros a b T. induction T as [a b T|a b c _ IH1 _ IH2]; [apply t_step, refers_first, T|eapply t_trans; eassumption]. }
  exact (X n n C).
Qed.
Print Assumptions C93_no_recursion_is_finite.

(** A smaller degree is not enough: for each [d] there are rules with that nesting that need a constant part of [n ^ d] steps on
    every text of [n] chars. *)
Theorem C93_degree_is_needed : forall d, let rs := look_ahead_rules d in
  no_recursion (grammar_of rs) /\ no_empty_loops (grammar_of rs) /\ loops_within (grammar_of rs) d (RuleName main) /\
  exists c, forall fuel s debug, ascii s -> parse_with_debug fuel s rs debug <> Fuel -> length s ^ d <= c * parse_calls fuel s rs debug.
Proof.
  intros d rs. split; [apply ahead_no_recursion|]. split; [apply ahead_no_empty_loops|]. split; [apply ahead_within|].
  exists (2 * fact d). intros fuel s debug A N. apply ahead_calls; assumption.
Qed.
Print Assumptions C93_degree_is_needed.

(** A fixed stack is enough for all texts, even where a parse hangs, and for all trees: how deep the calls nest and how high the trees
    are depends on the rules only. *)
Theorem C93_a_fixed_stack_is_enough : forall rs, no_recursion (grammar_of rs) ->
  (exists c, forall fuel s debug, parse_nesting fuel s rs debug <= c) /\
  (sane_rules rs -> exists c, forall fuel s debug ast, parse_with_debug fuel s rs debug = Ok ast -> height ast <= c).
Proof.
  intros rs NR. destruct (main_loops rs NR) as [d D]. split; [exact (parse_nests rs d D)|]. intro SR. exact (parse_low rs d SR D).
Qed.
Print Assumptions C93_a_fixed_stack_is_enough.

(** [main = line*], [line = word* '\n'], [word = letter letter* ' '?], [letter = [a-z]]: three loops inside each other. *)
Definition words_rules : rules := rules_macro [
  (main, rep0 (ref_rule (s_ "line")) 0);
  (s_ "line", And [rep0 (ref_rule (s_ "word")) 0; lit [ch_nl]]);
  (s_ "word", And [rep0 (ref_rule (s_ "letter")) 1; rep2 (lit (s_ " ")) 0 1]);
  (s_ "letter", ematch [] [(97, 122)]%N)].

Example C93_nonvacuous : no_recursion (grammar_of words_rules) /\ no_empty_loops (grammar_of words_rules) /\
  loops_within (grammar_of words_rules) 3 (RuleName main) /\ ~ loops_within (grammar_of words_rules) 2 (RuleName main) /\
  (exists t, parse 30 (s_ "ab c" ++ [ch_nl]) words_rules = Ok t /\ height t = 5) /\
  map (fun n => parse_calls 60 (repeat 97%N n) (look_ahead_rules 3) false) [0; 1; 2; 4; 8] = [15; 43; 90; 261; 1051] /\
  ~ no_recursion (grammar_of chain_rules).
Proof.
  split; [apply (downward_ok [main; s_ "line"; s_ "word"; s_ "letter"]); vm_compute; reflexivity|]. split; [apply (wf_check_sound words_rules); vm_compute; reflexivity|].
  split; [repeat (eapply lw_rule; [reflexivity|]); apply lw_loop; [left; reflexivity|]; eapply lw_rule; [reflexivity|]; constructor; intros e [<-|[<-|[]]]; [|constructor];
    apply lw_loop; [left; reflexivity|]; eapply lw_rule; [reflexivity|]; constructor; intros e [<-|[<-|[]]];
    [apply lw_loop; [left; reflexivity|]; eapply lw_rule; [reflexivity|constructor]|apply lw_bounded; [intros [U|U]; discriminate|constructor]]|].
  split.
  { assert (R : forall d n e, grammar_of words_rules n = Some e -> loops_within (grammar_of words_rules) d (RuleName n) -> loops_within (grammar_of words_rules) d e).
    { intros d n e E L. inversion L as [| | | | | |d' n' e' E' L'|d' n' E']; subst; congruence. }
    assert (P : forall d e mn, loops_within (grammar_of words_rules) d (rep0 e mn) -> exists d', d = S d' /\ loops_within (grammar_of words_rules) d' e).
    { intros d e mn L. inversion L as [| | | |d' e' mn' mx' U L'|d' e' mn' mx' U L'| |]; subst; [destruct U; left; reflexivity|eauto]. }
    intro L. apply (R 2 main _ eq_refl), P in L. destruct L as (d1 & E1 & L). apply (R d1 (s_ "line") _ eq_refl) in L. inversion L as [|d es H| | | | | |]; subst.
    specialize (H _ (or_introl eq_refl)). apply P in H. destruct H as (d2 & E2 & H). apply (R d2 (s_ "word") _ eq_refl) in H. inversion H as [|d es H'| | | | | |]; subst.
    specialize (H' _ (or_introl eq_refl)). apply P in H'. destruct H' as (d3 & E3 & _). lia. }
  split; [eexists; split; [vm_compute; reflexivity|reflexivity]|]. split; [vm_compute; reflexivity|].
  intro NR. apply (NR main), t_step. split; [discriminate|]. eexists. split; [reflexivity|]. eapply oc_or; [left; reflexivity|]. eapply oc_and; [right; left; reflexivity|constructor].
Qed.
