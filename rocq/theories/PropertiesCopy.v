(** Properties: what parsing copies. *)
From Verif Require Import Base ModelAst ModelParser ModelCost ModelCopy SpecPeg SpecPos SpecApi SpecWf SpecBnf SpecCopy Examples.
From Verif Require Import ProofParser ProofEngine ProofApi ProofWf WfCheck ProofBnf ProofLinear ProofCopy ProofCopyApi.

(** * C90 what parsing copies *)

(** Whatever a parse returns, it has copied: the count misses nothing of the answer. *)
Theorem C90_answers_are_copied : forall rs fuel s debug,
  match parse_with_debug fuel s rs debug with
  | Ok ast => texts ast <= parse_copied fuel s rs debug
  | Err er => error_texts er <= parse_copied fuel s rs debug
  | _ => True
  end.
Proof. exact parse_paid. Qed.
Print Assumptions C90_answers_are_copied.

(** Without tracing, each call copies at most a few times the longest line of the text and what the rules say. *)
Theorem C90_copying_is_bounded_by_calls_and_lines : forall rs, exists c, forall fuel s l, ascii s -> lines_within l s ->
  parse_copied fuel s rs false <= c * (l + 1) * (parse_calls fuel s rs false + 1).
Proof. exact copied_bound. Qed.
Print Assumptions C90_copying_is_bounded_by_calls_and_lines.

(** So for the rules of C62 copying is linear in the text if lines are short, and never worse than quadratic. *)
Theorem C90_predictive_grammars_copy_little : forall rs,
  sane_rules rs -> well_formed (grammar_of rs) -> predictive_grammar (grammar_of rs) -> productive (grammar_of rs) ->
  exists c, forall fuel s, ascii s ->
    (forall l, lines_within l s -> parse_copied fuel s rs false <= c * (l + 1) * (length s + 1)) /\
    parse_copied fuel s rs false <= c * (length s + 1) * (length s + 1).
Proof.
  intros rs SR WF PG PR. destruct (copied_linear rs SR WF PG PR) as [c C]. exists c. intros fuel s A.
  split; [intros l L; exact (C fuel s l A L)|exact (C fuel s _ A (lines_within_length s))].
Qed.
Print Assumptions C90_predictive_grammars_copy_little.

(** It is quadratic on a text of one line, although the number of calls is linear: every alternative that is tried and fails
    copies the line. *)
Theorem C90_one_line_is_quadratic : forall n fuel, parse fuel (one_line_text n) one_line_rules <> Fuel ->
  n * n <= parse_copied fuel (one_line_text n) one_line_rules false.
Proof. exact one_line_copied. Qed.
Print Assumptions C90_one_line_is_quadratic.

(** With tracing short lines do not help: the trace grows and is copied again and again. *)
Theorem C90_tracing_is_quadratic : forall n fuel, parse_debug fuel (breaks_text n) breaks_rules <> Fuel ->
  lines_within 0 (breaks_text n) /\ n * n <= parse_copied fuel (breaks_text n) breaks_rules true.
Proof. intros n fuel E. split; [apply breaks_lines|exact (breaks_copied n fuel E)]. Qed.
Print Assumptions C90_tracing_is_quadratic.

(** The count is exact where each clone can be told from the others: on the empty text, after a repetition that has left its
    error [x] pending, each further repetition and each negation copies the state, that is the trace [t] and [x], and makes an
    error of its own; a choice copies the state when it starts and again for each alternative, the last one too. Building the
    node copies its name, and the end of the parse copies the pending error. *)
Theorem C90_every_clone_is_counted : forall n fuel er, 4 <= fuel -> parse_debug fuel [] [(main, lit (s_ "a"))] = Err er ->
  let t := length (s_ "r:main") in let x := error_texts er in
  parse_copied fuel [] (manys n) true = t + (t + x) + n * (t + x + x) + length main + x /\
  parse_copied fuel [] (nots n) true = t + (t + x) + n * (t + x + x) + length main + x /\
  parse_copied fuel [] (ors n) true = t + (t + x) + (t + x) + n * (t + x + x) + (t + x) + length main + x.
Proof. exact every_clone. Qed.
Print Assumptions C90_every_clone_is_counted.

(** Both examples have the properties C62 asks for, so that their calls are linear. *)
Example C90_nonvacuous : sane_rules one_line_rules /\ well_formed (grammar_of one_line_rules) /\
  predictive_grammar (grammar_of one_line_rules) /\ productive (grammar_of one_line_rules) /\
  sane_rules breaks_rules /\ well_formed (grammar_of breaks_rules) /\
  predictive_grammar (grammar_of breaks_rules) /\ productive (grammar_of breaks_rules) /\
  (exists t, parse 30 (one_line_text 20) one_line_rules = Ok t) /\ (exists t, parse_debug 30 (breaks_text 20) breaks_rules = Ok t) /\
  parse_copied 30 (one_line_text 20) one_line_rules false = 967 /\ parse_copied 30 (breaks_text 20) breaks_rules true = 1049 /\
  parse_copied 30 (breaks_text 20) breaks_rules false = 86 /\
  (exists er, parse_debug 4 [] [(main, lit (s_ "a"))] = Err er /\ error_texts er = 27).
Proof.
  split; [apply sane_rules_all; repeat constructor|]. split; [apply wf_check_sound; vm_compute; reflexivity|].
  split; [apply (predictive_check_ok [(main, Info true [(97, Some 98)]%N [] true)]); vm_compute; reflexivity|].
  split; [apply (productive_check_ok [main]); [apply sane_rules_all; repeat constructor|vm_compute; reflexivity]|].
  split; [apply sane_rules_all; repeat constructor|]. split; [apply wf_check_sound; vm_compute; reflexivity|].
  split; [apply (predictive_check_ok [(main, Info true [(10, Some 10)]%N [] true); (s_ "x", Info false [(10, Some 10)]%N [(10, Some 10)]%N true)]); vm_compute; reflexivity|].
  split; [apply (productive_check_ok [s_ "x"; main]); [apply sane_rules_all; repeat constructor|vm_compute; reflexivity]|].
  split; [eexists; vm_compute; reflexivity|]. split; [eexists; vm_compute; reflexivity|].
  split; [vm_compute; reflexivity|]. split; [vm_compute; reflexivity|]. split; [vm_compute; reflexivity|].
  eexists. split; vm_compute; reflexivity.
Qed.
