(** The complete behaviour of parse, for every rule set and every text: C44.  [parses G text debug o] (SpecPanic) says what
    the PEG semantics with reports prescribes, panics included; [norm_rules] replaces degenerate repetition bounds by the
    bounds they behave like (C13). *)
From Verif Require Import Base ModelAst ModelParser SpecPeg SpecPos SpecReport SpecPanic SpecApi.
From Verif Require Import ProofParser ProofEngine ProofApi ProofReport ProofPanic.

(* ---- C44 --------------------------------------------------------------------------------- *)

(** No hypothesis on the text or on the rules. *)
Theorem C44_parse_is_determined : forall s rs d o, o <> Fuel ->
  ((exists fuel, parse_with_debug fuel s rs d = o) <-> parses (grammar_of (norm_rules rs)) s d o).
Proof. exact parses_iff. Qed.
Print Assumptions C44_parse_is_determined.

(** With sane bounds the rules themselves are the grammar. *)
Theorem C44_parse_is_determined_sane : forall s rs d o, sane_rules rs -> o <> Fuel ->
  ((exists fuel, parse_with_debug fuel s rs d = o) <-> parses (grammar_of rs) s d o).
Proof. exact parses_iff_sane. Qed.
Print Assumptions C44_parse_is_determined_sane.

(** The semantics gives at most one answer. *)
Theorem C44_one_answer : forall G s d o1 o2, parses G s d o1 -> parses G s d o2 -> o1 = o2.
Proof. exact parses_det. Qed.
Print Assumptions C44_one_answer.

(** A panic is always a failure to cut the line excerpt of an error, at some place of the text. *)
Theorem C44_panic_is_a_cut : forall fuel s rs d, parse_with_debug fuel s rs d = Panic ->
  exists read rest, s = read ++ rest /\ uncuttable s rest.
Proof. exact panic_is_a_cut. Qed.
Print Assumptions C44_panic_is_a_cut.

(** On an ASCII text every excerpt can be cut, and it is the start of the line. *)
Theorem C44_ascii_cuts : forall read rest t, ascii (read ++ rest) ->
  (excerpt (read ++ rest) (pstart_line (place (read ++ rest) rest)) (pn (place (read ++ rest) rest)) t <-> t = tail_after is_nl read).
Proof. exact ascii_cuts. Qed.
Print Assumptions C44_ascii_cuts.

(** The three ways a text with an n-tilde (2 bytes) goes wrong.  A rule matching the whole text panics, ... *)
Example C44_example_panic : parse_with_debug 9 [241%N] [(s_ "main", Simple Dot)] false = Panic.
Proof. vm_compute. reflexivity. Qed.
(** ... a failing one panics too, even inside a choice that would have succeeded, ... *)
Example C44_example_choice : parse_with_debug 20 [241%N] [(s_ "main", Or [And [Simple Dot; Simple Dot]; Simple Dot])] false = Panic
  /\ trips (grammar_of [(s_ "main", Or [And [Simple Dot; Simple Dot]; Simple Dot])]) (uncuttable [241%N]) (RuleName (s_ "main")) [241%N].
Proof.
  split; [vm_compute; reflexivity|]. eapply tr_rule; [reflexivity|]. apply tr_or_head. eapply tr_and_tail; [apply ee_dot_ok|].
  apply tr_and_head. eapply tr_atom_fail; [apply ee_dot_fail|]. apply cut_none. vm_compute. reflexivity.
Qed.
(** ... and where the cut lands between two chars the excerpt is wrong. *)
Example C44_example_excerpt :
  parse_with_debug 9 ([241%N; 241%N]) [(s_ "main", Simple (Literal [241%N; 241%N]))] false =
  Err (PError (Pos 2 0 2 0) (s_ "not consumed full input") [241%N] [] [] Normal).
Proof. vm_compute. reflexivity. Qed.
