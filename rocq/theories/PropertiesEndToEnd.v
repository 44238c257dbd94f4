(** From a grammar text to what parse does with the rules read from it: C48. *)
From Verif Require Import Base ModelAst ModelParser ModelPegRules ModelPeg SpecPeg SpecPos SpecReport SpecPanic SpecApi SpecWf SpecSyntax SpecPegApi.
From Verif Require Import ProofApi ProofWf WfCheck ProofConsume ProofPegPrint ProofPegApi ProofEndToEnd PropertiesPeg.

(* ---- C48 --------------------------------------------------------------------------------- *)

(** What parse does with the rules read from a grammar text is what the semantics says about the bindings the text
    writes down: trees, errors and panics, on every text. *)
Theorem C48_the_text_determines_the_parser : forall g l f rs, grammar_text g l -> rules_from_peg f g = Ok rs ->
  forall s d o, o <> Fuel -> ((exists fuel, parse_with_debug fuel s rs d = o) <-> parses (bindings l) s d o).
Proof. exact text_behaviour. Qed.
Print Assumptions C48_the_text_determines_the_parser.

(** The language of a grammar text. *)
Theorem C48_language_of_a_grammar_text : forall g l s, ascii g -> grammar_text g l -> ascii s ->
  ((exists f rs t, rules_from_peg f g = Ok rs /\ parse f s rs = Ok t) <->
   exists e trees, bindings l main = Some e /\ peg (bindings l) e s (PMatch trees [])).
Proof. exact text_language. Qed.
Print Assumptions C48_language_of_a_grammar_text.

(** The tree, without any hypothesis on the rules: they come from a text. *)
Theorem C48_tree_of_a_grammar_text : forall g l f rs s f' t,
  grammar_text g l -> rules_from_peg f g = Ok rs -> parse f' s rs = Ok t ->
  leaves t = s /\ exists e kids, bindings l main = Some e /\ t = Rule main kids /\ peg (bindings l) e s (PMatch kids []).
Proof. exact text_tree. Qed.
Print Assumptions C48_tree_of_a_grammar_text.

(** Both steps end with an answer when the bindings are well formed. *)
Theorem C48_well_formed_texts_always_answer : forall g l s, ascii g -> grammar_text g l -> well_formed (bindings l) -> ascii s ->
  exists f rs, rules_from_peg f g = Ok rs /\ ((exists t, parse f s rs = Ok t) \/ exists er, parse f s rs = Err er).
Proof. exact text_total. Qed.
Print Assumptions C48_well_formed_texts_always_answer.

(** Printing a grammar, reading it and parsing with it: the semantics of the grammar that was printed. *)
Theorem C48_print_read_parse : forall l s, l <> [] -> Forall expressible_def l -> ascii s ->
  ((exists f rs t, rules_from_peg f (print_grammar l) = Ok rs /\ parse f s rs = Ok t) <->
   exists e trees, bindings l main = Some e /\ peg (bindings l) e s (PMatch trees [])).
Proof.
  intros l s N X A. destruct (print_grammar_text l N X) as [G Ag]. exact (text_language _ l s Ag G A).
Qed.
Print Assumptions C48_print_read_parse.

(** The demo grammar is well formed; "1+2" is in its language and "1+" is not. *)
Example C48_nonvacuous : grammar_text (print_grammar demo_defs) demo_defs /\ well_formed (bindings demo_defs) /\
  (exists rs t, rules_from_peg 1000 (print_grammar demo_defs) = Ok rs /\ parse 1000 (s_ "1+2") rs = Ok t /\ leaves t = s_ "1+2") /\
  (exists rs er, rules_from_peg 1000 (print_grammar demo_defs) = Ok rs /\ parse 1000 (s_ "1+") rs = Err er).
Proof.
  split; [apply print_grammar_text; [discriminate|exact demo_expressible]|]. split.
  - apply (wf_ext (rules_get (built demo_defs))); [intro n; apply (proj2 (built_env demo_defs))|].
    apply wf_check_sound; vm_compute; reflexivity.
  - split; do 2 eexists; (split; [vm_compute; reflexivity|]); [split|]; vm_compute; reflexivity.
Qed.
