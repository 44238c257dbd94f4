(** Properties: regular expressions. *)
From Verif Require Import Base ModelAst ModelParser ModelPeg SpecPeg SpecPos SpecApi SpecSyntax SpecPegApi SpecText SpecDocs SpecPower SpecRegex Examples.
From Verif Require Import ProofParser ProofEngine ProofApi ProofRegex.

(** * C82 regular expressions *)

(** Whatever the regular expression, the rules made from it accept the texts it matches, and there is always an answer. *)
Theorem C82_regexes_are_rules : forall r s debug, ascii s -> exists bound, forall fuel, bound <= fuel ->
  (matches r s /\ exists ast, parse_with_debug fuel s (regex_rules r) debug = Ok ast) \/
  (~ matches r s /\ exists er, parse_with_debug fuel s (regex_rules r) debug = Err er /\ e_priority er = Normal).
Proof. exact regex_decides. Qed.
Print Assumptions C82_regexes_are_rules.

(** The same as a grammar text. *)
Theorem C82_regexes_are_grammars : forall r, ascii_regex r -> forall s, (exists t, accepts (saved (regex_rules r)) s t) <-> ascii s /\ matches r s.
Proof. exact regex_text. Qed.
Print Assumptions C82_regexes_are_grammars.

(** Symbol by symbol, nothing is accepted that the regular expression does not match .. *)
Theorem C82_direct_rules_are_sound : forall r s, takes [(main, direct r)] s -> matches r s.
Proof. exact direct_takes. Qed.
Print Assumptions C82_direct_rules_are_sound.

(** .. but it does match more: a choice is not taken back. *)
Definition a_or_ab_then_c : regex := Cat (Alt (Chr 97%N) (Cat (Chr 97%N) (Chr 98%N))) (Chr 99%N).

Theorem C82_direct_rules_complete_refuted : exists r s, ascii s /\ matches r s /\ exists er, parse 50 s [(main, direct r)] = Err er.
Proof.
  exists a_or_ab_then_c, (s_ "abc"). split; [repeat constructor|]. split; [|vm_compute; eexists; reflexivity].
  apply (m_cat _ _ (s_ "ab") (s_ "c")); [apply m_right; apply (m_cat _ _ (s_ "a") (s_ "b"))|]; constructor.
Qed.
Print Assumptions C82_direct_rules_complete_refuted.

(** .. and to repeat what can be empty never ends. *)
Theorem C82_direct_empty_repetition_hangs : forall r, matches r [] -> forall s debug, ascii s ->
  forall fuel, parse_with_debug fuel s [(main, direct (Star r))] debug = Fuel.
Proof. intros r M. apply direct_hangs, nullable_ok, M. Qed.
Print Assumptions C82_direct_empty_repetition_hangs.

(** [((a|b)*|.b)*abb] with a repetition of what can be empty: one text that is matched and one that is not; the rules, and [(a|ab)c]. *)
Definition ends_in_abb : regex :=
  Cat (Star (Alt (Star (Alt (Chr 97%N) (Chr 98%N))) (Cat Any (Chr 98%N)))) (Cat (Chr 97%N) (Cat (Chr 98%N) (Chr 98%N))).

Example C82_nonvacuous : ascii_regex ends_in_abb /\ (exists t, parse 200 (s_ "abzbaabb") (regex_rules ends_in_abb) = Ok t) /\
  (exists er, parse 200 (s_ "abzab") (regex_rules ends_in_abb) = Err er) /\ matches (Star (Alt (Chr 97%N) (Chr 98%N))) [] /\
  (exists t, parse 50 (s_ "ac") [(main, direct a_or_ab_then_c)] = Ok t) /\
  regex_rules a_or_ab_then_c =
    [(main, Or [And [lit (s_ "a"); And [lit (s_ "c"); at_end]]; And [lit (s_ "a"); And [lit (s_ "b"); And [lit (s_ "c"); at_end]]]])] /\
  regex_rules (Star (Chr 97%N)) = [(main, ref_rule (s_ "s")); (s_ "s", Or [And [lit (s_ "a"); ref_rule (s_ "s")]; at_end])].
Proof.
  split; [repeat split; reflexivity|]. split; [vm_compute; eexists; reflexivity|]. split; [vm_compute; eexists; reflexivity|]. split; [constructor|].
  split; [vm_compute; eexists; reflexivity|]. split; reflexivity.
Qed.
