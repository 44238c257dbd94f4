(** Properties: the list of rules in an error. *)
From Verif Require Import Base ModelAst ModelParser ModelPeg SpecPeg SpecPos SpecApi SpecTrail Examples.
From Verif Require Import PegTools ProofParser ProofEngine ProofApi ProofTrail.

(** * C80 the rules in an error *)

(** The list is the way to the error with what was finished beside it: the unfinished rules from main on, each named in the body of the one
    before, and after each of them the rules of the trees that were finished in it. *)
Theorem C80_the_rules_of_an_error : forall fuel s rs er, sane_rules rs -> ascii s -> parse_debug fuel s rs = Err er ->
  exists ts p, unfinished rs ((main, ts) :: p) /\ e_parsing_rules er = map shown_rule (entered ((main, ts) :: p)).
Proof. exact trail. Qed.
Print Assumptions C80_the_rules_of_an_error.

(** When text is left over, it lists the rules of the tree that was read. *)
Theorem C80_the_rules_of_leftovers : forall fuel s rs er, sane_rules rs -> ascii s -> parse_debug fuel s rs = Err er ->
  e_priority er = Normal -> e_descr er = s_ "not consumed full input" ->
  exists t rest, peg_main rs s (PMatch [t] rest) /\ rest <> [] /\ e_parsing_rules er = map shown_rule (rules_of t).
Proof. exact leftover_trail. Qed.
Print Assumptions C80_the_rules_of_leftovers.

Definition ab_rules : rules := [(main, And [ref_rule (s_ "a"); ref_rule (s_ "b"); lit (s_ "x")]); (s_ "a", lit (s_ "y")); (s_ "b", lit (s_ "z"))].

(** The documentation calls the list the path followed to the error.  It is not a path: a rule in it need not be named in the one before. *)
Theorem C80_the_rules_are_a_path_refuted : exists rs s er, sane_rules rs /\ ascii s /\ parse_debug 99 s rs = Err er /\
  e_parsing_rules er = map shown_rule [main; s_ "a"; s_ "b"] /\ exists e, rules_get rs (s_ "a") = Some e /\ ~ has_ref (s_ "b") e.
Proof.
  exists ab_rules, (s_ "yzq"). eexists. split; [apply sane_rules_all; repeat constructor|]. split; [repeat constructor|].
  split; [vm_compute; reflexivity|]. split; [vm_compute; reflexivity|]. eexists. split; [reflexivity|]. intro H. inversion H.
Qed.
Print Assumptions C80_the_rules_are_a_path_refuted.

(** And it does not tell which rules were finished: here rule [b] fails in the one text and matches in the other. *)
Theorem C80_the_rules_tell_what_failed_refuted : exists rs s s' er er', sane_rules rs /\ ascii s /\ ascii s' /\
  parse_debug 99 s rs = Err er /\ parse_debug 99 s' rs = Err er' /\ e_parsing_rules er = e_parsing_rules er' /\ e_priority er = e_priority er' /\
  (exists r, s = s_ "y" ++ r /\ peg (grammar_of rs) (RuleName (s_ "b")) r PFail) /\
  (exists r t rest, s' = s_ "y" ++ r /\ peg (grammar_of rs) (RuleName (s_ "b")) r (PMatch t rest)).
Proof.
  exists ab_rules, (s_ "yq"), (s_ "yzq"). eexists. eexists. split; [apply sane_rules_all; repeat constructor|]. split; [repeat constructor|]. split; [repeat constructor|].
  split; [vm_compute; reflexivity|]. split; [vm_compute; reflexivity|]. split; [reflexivity|]. split; [reflexivity|]. split.
  - exists (s_ "q"). split; [reflexivity|]. eapply mk_rule_fail; [reflexivity|]. apply peg_lit_fail. intros rest E. discriminate.
  - exists (s_ "zq"). eexists. eexists. split; [reflexivity|]. eapply mk_rule; [reflexivity|]. apply (mk_lit _ (s_ "z") _ (s_ "q")). reflexivity.
Qed.
Print Assumptions C80_the_rules_tell_what_failed_refuted.

Example C80_nonvacuous : sane_rules ab_rules /\
  (exists er, parse_debug 99 (s_ "yq") ab_rules = Err er /\ e_parsing_rules er = map shown_rule (entered [(main, [Rule (s_ "a") [Val (s_ "y")]]); (s_ "b", [])])) /\
  unfinished ab_rules [(main, [Rule (s_ "a") [Val (s_ "y")]]); (s_ "b", [])] /\
  (exists er, parse_debug 99 (s_ "yzxy") ab_rules = Err er /\ e_priority er = Normal /\ e_descr er = s_ "not consumed full input" /\
     e_parsing_rules er = [s_ "r:main"; s_ "r:a"; s_ "r:b"]).
Proof.
  split; [apply sane_rules_all; repeat constructor|]. split; [eexists; split; [vm_compute; reflexivity|vm_compute; reflexivity]|]. split.
  - eapply un_more; [reflexivity| | |eapply un_last; [reflexivity|constructor]].
    + constructor; [|constructor]. apply pa_rule; [eapply hr_and; [left; reflexivity|constructor]|]. eapply fo_rule; [reflexivity|repeat constructor].
    + eapply hr_and; [right; left; reflexivity|constructor].
  - eexists. split; [vm_compute; reflexivity|]. split; [reflexivity|]. split; vm_compute; reflexivity.
Qed.
