(** Code generation: C33, C34.  "[rust_rules s l]" reads "the text [s], read with Rust's literal syntax as the content of
    [rules!{ .. }], lists the definitions [l]" (SpecRust); [entries] is a rule set in the order its hash map is iterated. *)
From Verif Require Import Base ModelAst ModelParser ModelPegRules ModelPeg ModelGcode ModelPeg2code ModelMain SpecPos SpecSyntax SpecApi SpecAst SpecPegApi SpecRust.
From Verif Require Import ProofParser ProofEngine ProofAst ProofPegMeaning ProofPegApi ProofGcode ProofGcodeExact ProofBootstrap.
From Coq Require Import Permutation.

(* ---- C33 --------------------------------------------------------------------------------- *)

(** Every rule set of codable expressions is read back, whatever the iteration order. *)
Theorem C33_generated_code_reads_back : forall m entries, unique_names m -> Permutation entries m ->
  Forall (fun p => raw_ok (fst p) /\ codable (snd p)) m ->
  exists l, rust_rules (rust_from_rules entries) l /\ forall n, rules_get (rules_macro l) n = rules_get m n.
Proof. exact reads_back. Qed.
Print Assumptions C33_generated_code_reads_back.

(** The reading of a text is unique, so the theorems here say what the code denotes, not only what it may denote. *)
Theorem C33_reading_is_unique : forall s l l', rust_rules s l -> rust_rules s l' -> l = l'.
Proof. exact rust_rules_unique. Qed.
Print Assumptions C33_reading_is_unique.

(** Codable rule sets are exactly the ones that are read back as they were. *)
Theorem C33_codable_is_exact : forall entries,
  rust_rules (rust_from_rules entries) entries <-> Forall (fun p => raw_ok (fst p) /\ codable (snd p)) entries.
Proof. intro entries. split; [exact (reads_back_only entries)|exact (codable_reads entries)]. Qed.
Print Assumptions C33_codable_is_exact.

(** A literal without backslash keeps its value through escaping. *)
Theorem C33_literal_value : forall s, ~ In ch_bslash s -> string_value (replace_esc s) = Some s.
Proof. exact string_value_plain. Qed.
Print Assumptions C33_literal_value.

(** For rules that come from a PEG text only the atoms matter: names are always fine. *)
Theorem C33_text_to_code : forall s rs entries, answers s (Ok rs) -> Permutation entries rs ->
  (forall n e a, rules_get rs n = Some e -> has_atom a e -> codable (Simple a)) ->
  exists l, rust_rules (rust_from_rules entries) l /\ forall n, rules_get (rules_macro l) n = rules_get rs n.
Proof.
  intros s rs entries [_ [f A]] P C. pose proof (A f (le_n f)) as H. apply reads_back; [|exact P|exact (text_rules_codable f s rs H C)].
  destruct (rules_from_peg_ok s f rs H) as (_ & l & _ & ->). apply built_env.
Qed.
Print Assumptions C33_text_to_code.

(** Without the restriction the property is false: a backslash in a literal, a class without ranges, the EOF atom and a
    quote as the bound of a range are all misread or not readable at all. *)
Definition misread (e : expr) : Prop :=
  forall l, rust_rules (rust_from_rules [(main, e)]) l -> rules_get (rules_macro l) main <> Some e.

Theorem C33_backslash_refuted : exists e, misread e /\ exists e' l, e' <> e /\ rust_rules (rust_from_rules [(main, e)]) l /\ rules_get (rules_macro l) main = Some e'.
Proof.
  exists (lit (s_ "\n")).
  assert (R : rust_rules (rust_from_rules [(main, lit (s_ "\n"))]) [(main, lit [ch_nl])]) by (apply code_reads; vm_compute; reflexivity).
  split.
  - intros l H. rewrite (rust_rules_unique _ _ _ H R). vm_compute. discriminate.
  - exists (lit [ch_nl]), [(main, lit [ch_nl])]. split; [vm_compute; discriminate|]. split; [exact R|vm_compute; reflexivity].
Qed.
Print Assumptions C33_backslash_refuted.

Lemma reading_head : forall e ts l, tokens (rust_from_rules [(main, e)]) = Some (TStr main :: TArrow :: ts) ->
  rust_rules (rust_from_rules [(main, e)]) l -> exists e' u v, evaluates u e' /\ ts = u ++ v.
Proof.
  intros e ts l T (ts' & tss & T' & -> & F). rewrite T in T'. injection T' as T'. destruct F as [|x p tss l E F]; [discriminate|].
  rewrite commas_flat in T'. destruct E as [n u e' E]. injection T' as _ T'. exists e', u, (flat_map (fun t => TComma :: t) tss). split; [exact E|exact T'].
Qed.

Theorem C33_unreadable_refuted :
  (forall l, ~ rust_rules (rust_from_rules [(main, Simple (Match (s_ "ab") []))]) l) /\
  (forall l, ~ rust_rules (rust_from_rules [(main, Simple AEOF)]) l) /\
  (forall l, ~ rust_rules (rust_from_rules [(main, Simple (Match [] [(ch_quote, 42%N)]))]) l).
Proof.
  repeat split; intros l H.
  - assert (T : tokens (rust_from_rules [(main, Simple (Match (s_ "ab") []))]) =
      Some (TStr main :: TArrow :: [TId (s_ "ematch"); TBang; TOpen; TId (s_ "chlist"); TStr (s_ "ab"); TClose])) by (vm_compute; reflexivity).
    destruct (reading_head _ _ l T H) as (e' & u & v & E & Q). destruct E; discriminate Q.
  - assert (T : tokens (rust_from_rules [(main, Simple AEOF)]) = Some (TStr main :: TArrow :: [TId (s_ "eof"); TBang; TOpen; TClose])) by (vm_compute; reflexivity).
    destruct (reading_head _ _ l T H) as (e' & u & v & E & Q). destruct E; discriminate Q.
  - destruct H as (ts & tss & T & _). vm_compute in T. discriminate T.
Qed.
Print Assumptions C33_unreadable_refuted.

(** Non-vacuity: two rules with a literal containing a quote and a newline, a class, a bounded repetition, a negation. *)
Example C33_nonvacuous : exists m, unique_names m /\ Forall (fun p => raw_ok (fst p) /\ codable (snd p)) m /\ length m = 2.
Proof.
  exists [(main, And [lit [97; ch_dquote; ch_nl]%N; Repeat (RuleName (s_ "d")) 1 (Some 3); Not (Simple Dot)]); (s_ "d", Simple (Match (s_ "_") [(48, 57)%N]))].
  assert (O : raw_ok main /\ raw_ok (s_ "d") /\ raw_ok (s_ "_")).
  { assert (X : forall s, existsb (N.eqb 35) s = false -> existsb (N.eqb ch_cr) s = false -> raw_ok s).
    { intros s H1 H2. split; [intro I; assert (existsb (N.eqb ch_cr) s = true) by (apply existsb_exists; exists ch_cr; split; [exact I|reflexivity]); congruence|].
      intros pre post ->. rewrite !existsb_app in H1. cbn in H1. rewrite orb_true_r in H1. discriminate. }
    repeat split; apply X; reflexivity. }
  destruct O as (A & B & C). split; [|split; [|reflexivity]].
  - unfold unique_names. constructor; [vm_compute; intuition discriminate|]. constructor; [intros []|constructor].
  - constructor; [|constructor; [|constructor]].
    + split; [exact A|]. cbn [snd codable lit]. split; [vm_compute; intuition discriminate|]. split; [exact B|]. split; exact I.
    + split; [exact B|]. split; [exact C|]. split; [discriminate|]. constructor; [|constructor]. split; vm_compute; intuition discriminate.
Qed.

(* ---- C34 --------------------------------------------------------------------------------- *)

(** The crate's grammar of grammars is accepted; the code generated from it, in any order, is the built-in rule set. *)
Theorem C34_bootstrap : exists rs, answers text_peg2code (Ok rs) /\
  forall entries, Permutation entries rs ->
    exists l, rust_rules (rust_from_rules entries) l /\ forall n, rules_get (rules_macro l) n = rules_get parse_peg n.
Proof.
  exists own_rules. split; [exact (answers_intro _ _ _ own_rules_read ltac:(discriminate))|exact bootstrap].
Qed.
Print Assumptions C34_bootstrap.

(** But the rules themselves are not the built-in ones: [esc_char] and [hex_char] differ, and nothing else does. *)
Theorem C34_rules_differ_exactly : forall rs, answers text_peg2code (Ok rs) ->
  forall n, rules_get rs n = rules_get parse_peg n <-> n <> s_ "esc_char" /\ n <> s_ "hex_char".
Proof. exact own_rules_differ. Qed.
Print Assumptions C34_rules_differ_exactly.

(** The program of the crate prints, whatever the iteration order of the hash map, code for the built-in rules. *)
Theorem C34_program_prints_the_built_in_rules : forall order, (forall rs, Permutation (order rs) rs) ->
  exists code l f0, (forall f, f0 <= f -> print_rules2parse_peg f order = Ok (code ++ [ch_nl])) /\
    rust_rules code l /\ forall n, rules_get (rules_macro l) n = rules_get parse_peg n.
Proof.
  intros order P. destruct (answers_intro _ _ _ own_rules_read ltac:(discriminate)) as [_ [f0 F]].
  destruct (bootstrap (order own_rules) (P own_rules)) as (l & R & E). exists (rust_from_rules (order own_rules)), l, f0.
  split; [|auto]. intros f L. unfold print_rules2parse_peg. rewrite (F f L). reflexivity.
Qed.
Print Assumptions C34_program_prints_the_built_in_rules.
