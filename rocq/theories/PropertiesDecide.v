(** Properties: questions about rules without recursion. *)
From Verif Require Import Base ModelAst ModelParser SpecPeg SpecPos SpecApi SpecWf SpecLoops SpecPower.
From Verif Require Import ProofAst ProofParser ProofApi ProofLoops ProofRegular ProofDecide Examples.

(** * C95 what a tool can tell about rules without recursion *)

(** Each of these theorems is a program: given the rules it answers, and shows a text where there is one. *)

(** Is a rule set of this kind? *)
Theorem C95_the_kind_can_be_told : forall rs, {sane_rules rs /\ no_recursion (grammar_of rs)} + {~ (sane_rules rs /\ no_recursion (grammar_of rs))}.
Proof. exact kind_dec. Qed.
Print Assumptions C95_the_kind_can_be_told.

(** Is any text accepted; are all? *)
Theorem C95_some_text_can_be_told : forall rs, sane_rules rs -> no_recursion (grammar_of rs) -> {s | takes rs s} + {forall s, ~ takes rs s}.
Proof. exact tell_some. Qed.
Print Assumptions C95_some_text_can_be_told.

Theorem C95_all_texts_can_be_told : forall rs, sane_rules rs -> no_recursion (grammar_of rs) -> {s | ascii s /\ ~ takes rs s} + {forall s, ascii s -> takes rs s}.
Proof. exact tell_all. Qed.
Print Assumptions C95_all_texts_can_be_told.

(** Does the parse hang on a text? *)
Theorem C95_hanging_can_be_told : forall rs, sane_rules rs -> no_recursion (grammar_of rs) -> {s | ascii s /\ ~ finishes rs s} + {forall s, ascii s -> finishes rs s}.
Proof. exact tell_hangs. Qed.
Print Assumptions C95_hanging_can_be_told.

(** Is the message of an error clause, or of a missing rule, ever given? *)
Theorem C95_messages_can_be_told : forall rs, sane_rules rs -> no_recursion (grammar_of rs) -> forall msg,
  {s | ascii s /\ exists fuel er, parse fuel s rs = Err er /\ e_priority er = Critical /\ e_descr er = msg} +
  {forall s, ascii s -> ~ exists fuel er, parse fuel s rs = Err er /\ e_priority er = Critical /\ e_descr er = msg}.
Proof. exact tell_message. Qed.
Print Assumptions C95_messages_can_be_told.

(** Do two rule sets accept the same texts; does one accept all that the other does; is there a text both accept? *)
Theorem C95_the_same_texts_can_be_told : forall rs rs', sane_rules rs -> no_recursion (grammar_of rs) -> sane_rules rs' -> no_recursion (grammar_of rs') ->
  {s | (takes rs s /\ ~ takes rs' s) \/ (takes rs' s /\ ~ takes rs s)} + {forall s, takes rs s <-> takes rs' s}.
Proof. exact tell_same. Qed.
Print Assumptions C95_the_same_texts_can_be_told.

Theorem C95_inclusion_can_be_told : forall rs rs', sane_rules rs -> no_recursion (grammar_of rs) -> sane_rules rs' -> no_recursion (grammar_of rs') ->
  {s | takes rs s /\ ~ takes rs' s} + {forall s, takes rs s -> takes rs' s}.
Proof. exact tell_included. Qed.
Print Assumptions C95_inclusion_can_be_told.

Theorem C95_common_texts_can_be_told : forall rs rs', sane_rules rs -> no_recursion (grammar_of rs) -> sane_rules rs' -> no_recursion (grammar_of rs') ->
  {s | takes rs s /\ takes rs' s} + {forall s, ~ (takes rs s /\ takes rs' s)}.
Proof. exact tell_common. Qed.
Print Assumptions C95_common_texts_can_be_told.

(** [main = word], [word = "if" / letter letter* ], [letter = [a-z]], and the same without the first alternative; or with an error clause instead. *)
Definition word_rules (alternatives : list expr) : rules := rules_macro [
  (main, ref_rule (s_ "word")); (s_ "word", Or alternatives); (s_ "letter", ematch [] [(97, 122)]%N)].
Definition some_letters : expr := rep0 (ref_rule (s_ "letter")) 1.

Example C95_nonvacuous : let rs := word_rules [lit (s_ "if"); some_letters] in let rs' := word_rules [some_letters] in
  sane_rules rs /\ no_recursion (grammar_of rs) /\ sane_rules rs' /\ no_recursion (grammar_of rs') /\
  takes rs (s_ "if") /\ takes rs' (s_ "if") /\ takes rs' (s_ "ifs") /\ ~ takes rs (s_ "ifs") /\
  (exists er, parse 40 (s_ "1") (word_rules [some_letters; error_ (s_ "letters")]) = Err er /\ e_priority er = Critical /\ e_descr er = s_ "letters").
Proof.
  assert (NT : forall rs s fuel er, parse fuel s rs = Err er -> ~ takes rs s).
  { intros rs s fuel er E (f & ast & P). destruct (Nat.le_ge_cases fuel f) as [L|L].
    - rewrite (ProofEngine.parse_mono fuel f s rs L) in P by congruence. congruence.
    - rewrite (ProofEngine.parse_mono f fuel s rs L) in E by congruence. congruence. }
  split; [apply sane_rules_all; repeat constructor|]. split; [apply (downward_ok [main; s_ "word"; s_ "letter"]); vm_compute; reflexivity|].
  split; [apply sane_rules_all; repeat constructor|]. split; [apply (downward_ok [main; s_ "word"; s_ "letter"]); vm_compute; reflexivity|].
  split; [exists 40; eexists; vm_compute; reflexivity|]. split; [exists 40; eexists; vm_compute; reflexivity|]. split; [exists 40; eexists; vm_compute; reflexivity|].
  split; [refine (NT _ _ 40 _ _); vm_compute; reflexivity|]. eexists. split; [vm_compute; reflexivity|]. split; reflexivity.
Qed.
