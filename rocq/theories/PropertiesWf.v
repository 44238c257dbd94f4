(** Termination: C14, C35. *)
From Verif Require Import Base ModelAst ModelParser ModelPegRules SpecPeg SpecPos SpecApi SpecWf Examples
  ProofParser ProofEngine ProofApi ProofWf WfCheck WfComplete.

(* ---- C14 --------------------------------------------------------------------------------- *)

Theorem C14_well_formed_rules_terminate : forall rs s d, well_formed (grammar_of rs) ->
  exists o, o <> Fuel /\ exists bound, forall fuel, bound <= fuel -> parse_with_debug fuel s rs d = o.
Proof.
  intros rs s d W. pose (b := depth_factor rs * (length s + 1)). exists (parse_with_debug b s rs d).
  assert (NF : parse_with_debug b s rs d <> Fuel) by (apply parse_bound; [exact W|reflexivity]).
  split; [exact NF|]. exists b. intros fuel L. pose proof (parse_with_debug_mono b fuel s rs d L) as M.
  destruct M as [M|M]; [contradiction|symmetry; exact M].
Qed.
Print Assumptions C14_well_formed_rules_terminate.

(** Hence every ASCII text has exactly one PEG result. *)
Theorem C14_well_formed_rules_decide_every_text : forall rs s, well_formed (grammar_of rs) -> sane_rules rs -> ascii s ->
  exists r, peg_main rs s r /\ forall r', peg_main rs s r' -> r' = r.
Proof.
  intros rs s W SR As. destruct (proj1 (parse_terminates_iff s rs false SR As)) as [r D].
  { exists (depth_factor rs * (length s + 1)). apply parse_bound; [exact W|reflexivity]. }
  exists r. split; [exact D|]. intros r' D'. exact (peg_det _ _ _ _ D' _ D).
Qed.
Print Assumptions C14_well_formed_rules_decide_every_text.

(** The static check decides well-formedness. *)
Theorem C14_static_check_is_exact : forall rs : rules, NoDup (map fst rs) ->
  (wf_check rs = true <-> well_formed (grammar_of rs)).
Proof. intros rs H. apply uniqueb_nodup in H. split; [exact (wf_check_sound rs H)|exact (wf_check_complete rs H)]. Qed.
Print Assumptions C14_static_check_is_exact.

(** The example rules and the built-in grammar of PEG texts are well formed; a left-recursive rule and a
    repetition of an optional match are not. *)
Example C14_nonvacuous :
  well_formed (grammar_of ex_rules) /\ well_formed (grammar_of parse_peg) /\
  ~ well_formed (grammar_of (rules_macro [(main, Or [And [ref_rule main; lit (s_ "a")]; lit (s_ "b")])])) /\
  ~ well_formed (grammar_of (rules_macro [(main, rep0 (rep2 (lit (s_ "a")) 0 1) 0)])).
Proof.
  assert (NO : forall rs, uniqueb rs = true -> wf_check rs = false -> ~ well_formed (grammar_of rs)).
  { intros rs U C W. apply (wf_check_complete rs U) in W. congruence. }
  split; [apply wf_check_sound; vm_compute; reflexivity|]. split; [apply wf_check_sound; vm_compute; reflexivity|].
  split; apply NO; vm_compute; reflexivity.
Qed.

(* ---- C35 --------------------------------------------------------------------------------- *)

(** In the model every nested call of the parser and every turn of a repetition uses one unit of fuel, so the
    fuel that suffices bounds the depth of calls and the length of each repetition. *)
Theorem C35_depth_is_linear_in_the_text : forall rs, well_formed (grammar_of rs) ->
  exists c, forall s d fuel, c * (length s + 1) <= fuel -> parse_with_debug fuel s rs d <> Fuel.
Proof. intros rs W. exists (depth_factor rs). intros s d fuel H. exact (parse_bound rs s d fuel W H). Qed.
Print Assumptions C35_depth_is_linear_in_the_text.

Theorem C35_depth_factor : forall rs s d fuel, well_formed (grammar_of rs) ->
  ((length rs + 1) * (fold_right (fun p n => expr_size (snd p) + n) 0 rs + 1) + 2) * (length s + 1) <= fuel ->
  parse_with_debug fuel s rs d <> Fuel.
Proof. intros rs s d fuel W H. exact (parse_bound rs s d fuel W H). Qed.
Print Assumptions C35_depth_factor.

Example C35_nonvacuous : well_formed (grammar_of ex_rules) /\
  parse_with_debug (depth_factor ex_rules * (length ex_text + 1)) ex_text ex_rules false = Ok ex_tree.
Proof. split; [apply wf_check_sound; vm_compute; reflexivity|vm_compute; reflexivity]. Qed.
