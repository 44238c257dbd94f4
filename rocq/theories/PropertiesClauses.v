(** Properties: adding error clauses to rules. *)
From Verif Require Import Base ModelAst ModelParser ModelPegRules ModelPeg SpecPeg SpecPos SpecApi SpecReport SpecWf SpecBnf SpecClauses Examples.
From Verif Require Import ProofParser ProofEngine ProofApi ProofWf WfCheck ProofBnf ProofLinear ProofClauses.

(** * C78 error clauses *)

(** Every answer of the rules with the clauses is the answer of the rules without them (the same tree, or the same error with all its
    fields), or it is a critical error with one of the messages. *)
Theorem C78_only_the_messages_are_new : forall rs rs' M s debug o,
  sane_rules rs -> with_clauses (grammar_of rs) (grammar_of rs') M -> ascii s -> o <> Fuel ->
  (exists fuel, parse_with_debug fuel s rs' debug = o) ->
  (exists fuel, parse_with_debug fuel s rs debug = o) \/ (exists er, o = Err er /\ e_priority er = Critical /\ M (e_descr er)).
Proof. exact only_clauses_differ. Qed.

(** And every answer of the rules without the clauses is still given, or there is one of the messages instead. *)
Theorem C78_answers_stay_or_are_replaced_by_messages : forall rs rs' M s debug o,
  sane_rules rs -> with_clauses (grammar_of rs) (grammar_of rs') M -> ascii s -> o <> Fuel ->
  (exists fuel, parse_with_debug fuel s rs debug = o) ->
  (exists fuel, parse_with_debug fuel s rs' debug = o) \/
  (exists fuel er, parse_with_debug fuel s rs' debug = Err er /\ e_priority er = Critical /\ M (e_descr er)).
Proof. exact clauses_or_the_same. Qed.

(** Clauses after something not empty, in rules for which the next char tells what to do: the texts accepted are the same, with the same trees. *)
Theorem C78_placed_clauses_change_no_tree : forall rs rs' M s debug t,
  sane_rules rs -> well_formed (grammar_of rs) -> predictive_grammar (grammar_of rs) -> productive (grammar_of rs) ->
  with_placed_clauses (grammar_of rs) (grammar_of rs') M -> ascii s ->
  (exists fuel, parse_with_debug fuel s rs' debug = Ok t) <-> (exists fuel, parse_with_debug fuel s rs debug = Ok t).
Proof. exact placed_accepts. Qed.

(** And so are the texts rejected. *)
Theorem C78_placed_clauses_reject_the_same_texts : forall rs rs' M s debug,
  sane_rules rs -> well_formed (grammar_of rs) -> predictive_grammar (grammar_of rs) -> productive (grammar_of rs) ->
  with_placed_clauses (grammar_of rs) (grammar_of rs') M -> ascii s ->
  (exists fuel er, parse_with_debug fuel s rs' debug = Err er) <-> (exists fuel er, parse_with_debug fuel s rs debug = Err er).
Proof. exact placed_rejects. Qed.

(** If every part of the rules generates something, the critical errors are those of the clauses, and what is before the place of a message
    can be continued to a text that the rules generate. *)
Theorem C78_messages_follow_good_text : forall rs rs' M fuel s debug er,
  sane_rules rs -> productive (grammar_of rs) -> grammar_of rs main <> None ->
  with_clauses (grammar_of rs) (grammar_of rs') M -> ascii s -> parse_with_debug fuel s rs' debug = Err er -> e_priority er = Critical ->
  M (e_descr er) /\ exists w ast, derives (grammar_of rs) (RuleName main) w [ast] /\ firstn (pn (e_pos er)) w = firstn (pn (e_pos er)) s.
Proof. exact messages_stand. Qed.

(** Clauses in other places can make texts rejected: in [main = a / 'y'], [a = 'x' / error("m")], the text [y] is. *)
Theorem C78_clauses_anywhere_refuted : exists rs rs' M s fuel t er,
  sane_rules rs /\ well_formed (grammar_of rs) /\ predictive_grammar (grammar_of rs) /\ productive (grammar_of rs) /\
  with_clauses (grammar_of rs) (grammar_of rs') M /\ ascii s /\ parse fuel s rs = Ok t /\ parse fuel s rs' = Err er.
Proof.
  exists (rules_macro [(main, Or [ref_rule (s_ "a"); lit (s_ "y")]); (s_ "a", Or [lit (s_ "x")])]),
         (rules_macro [(main, Or [ref_rule (s_ "a"); lit (s_ "y")]); (s_ "a", Or [lit (s_ "x"); error_ (s_ "m")])]), (eq (s_ "m")), (s_ "y"), 20.
  eexists _, _.
  assert (S : sane_rules (rules_macro [(main, Or [ref_rule (s_ "a"); lit (s_ "y")]); (s_ "a", Or [lit (s_ "x")])])).
  { apply sane_rules_all. repeat constructor. }
  split; [exact S|]. split; [apply wf_check_sound; vm_compute; reflexivity|].
  split; [apply (predictive_check_ok [(main, Info false [(120, Some 121)]%N [] true); (s_ "a", Info false [(120, Some 120)]%N [] true)]); vm_compute; reflexivity|].
  split; [apply (productive_check_ok [main; s_ "a"]); [exact S|vm_compute; reflexivity]|].
  split; [|split; [repeat constructor|split; vm_compute; reflexivity]].
  apply clauses_rules. vm_compute. repeat (apply Forall2_cons; [split; [reflexivity|]|]); [..|apply Forall2_nil].
  - apply cl_or. repeat constructor.
  - apply cl_or. repeat constructor.
Qed.

(** Inside a predicate they can make texts accepted. *)
Theorem C78_clauses_in_predicates_refuted : exists s fuel t er,
  ascii s /\
  parse fuel s (rules_macro [(main, And [Not (Or [lit (s_ "a"); lit (s_ "b")]); dot_])]) = Err er /\
  parse fuel s (rules_macro [(main, And [Not (Or [Or [lit (s_ "a"); error_ (s_ "m")]; lit (s_ "b")]); dot_])]) = Ok t.
Proof. exists (s_ "b"), 20. eexists _, _. split; [repeat constructor|]. split; vm_compute; reflexivity. Qed.

(** Lists of numbers and lists. *)
Definition list_grammar : str := s_ "main = list
list = '[' (item (',' item)*)? ']'
item = list / [0-9]+
".

(** The same with two clauses. *)
Definition list_grammar_with_clauses : str := s_ "main = list
list = '[' (item (',' (item / error(""expected an item after the comma"")))*)? (']' / error(""unclosed [""))
item = list / [0-9]+
".

Definition list_messages : list str := [s_ "expected an item after the comma"; s_ "unclosed ["].

(** The brackets are chars 91 and 93, the comma 44 and the digits 48 to 57. *)
Definition list_tables : list (str * info) :=
  [ (main, Info false [(91, Some 91)]%N [] true);
    (s_ "list", Info false [(91, Some 91)]%N [(44, Some 44); (93, Some 93)]%N true);
    (s_ "item", Info false [(91, Some 91); (48, Some 57)]%N [(44, Some 44); (93, Some 93)]%N false) ].

Example C78_nonvacuous : exists rs rs', rules_from_peg 400 list_grammar = Ok rs /\ rules_from_peg 400 list_grammar_with_clauses = Ok rs' /\
  sane_rules rs /\ well_formed (grammar_of rs) /\ predictive_grammar (grammar_of rs) /\ productive (grammar_of rs) /\
  with_placed_clauses (grammar_of rs) (grammar_of rs') (fun m => In m list_messages) /\
  with_clauses (grammar_of rs) (grammar_of rs') (fun m => In m list_messages) /\
  (exists t, parse 99 (s_ "[1,[2,3],[],45]") rs = Ok t /\ parse 99 (s_ "[1,[2,3],[],45]") rs' = Ok t) /\
  (exists er er', parse 99 (s_ "[1,[2,],45]") rs = Err er /\ parse 99 (s_ "[1,[2,],45]") rs' = Err er' /\
     e_descr er' = s_ "expected an item after the comma" /\ pn (e_pos er') = 6 /\ pn (e_pos er) = 3) /\
  (exists er', parse 99 (s_ "[1,[2,3],45") rs' = Err er' /\ e_descr er' = s_ "unclosed [" /\ pn (e_pos er') = 11) /\
  (exists er, parse 99 (s_ "x") rs = Err er /\ parse 99 (s_ "x") rs' = Err er).
Proof.
  eexists _, _. split; [vm_compute; reflexivity|]. split; [vm_compute; reflexivity|].
  match goal with |- sane_rules ?r /\ _ => set (rs := r) end.
  match goal with |- context [with_placed_clauses (grammar_of rs) (grammar_of ?r)] => set (rs' := r) end.
  assert (S : sane_rules rs) by (apply sane_rules_all; subst rs; cbn; repeat (lia || constructor)).
  split; [exact S|]. split; [apply wf_check_sound; vm_compute; reflexivity|].
  split; [apply (predictive_check_ok list_tables); vm_compute; reflexivity|].
  split; [apply (productive_check_ok [main; s_ "item"; s_ "list"]); [exact S|vm_compute; reflexivity]|].
  assert (W : with_placed_clauses (grammar_of rs) (grammar_of rs') (fun m => In m list_messages)).
  { apply placed_rules. subst rs'. unfold rs at 2. repeat (apply Forall2_cons; [split; [reflexivity|cbn [snd]]|]); [..|apply Forall2_nil].
    - repeat constructor.
    - apply pl_and. apply io_then; [constructor|intros [ts D]; inversion D|]. apply io_first.
      + apply pl_rep, pl_and. apply io_first; [constructor|]. apply io_first; [|constructor]. apply pl_rep, pl_and.
        apply io_then; [constructor|intros [ts D]; inversion D|]. apply io_first; [|constructor]. apply pl_part; [left; reflexivity|constructor].
      + apply io_first; [|constructor]. apply pl_part; [right; left; reflexivity|constructor].
    - constructor. }
  split; [exact W|]. split; [apply placed_with_clauses; exact W|].
  split; [eexists; split; vm_compute; reflexivity|].
  split; [eexists _, _; split; [vm_compute; reflexivity|]; split; [vm_compute; reflexivity|]; split; [|split]; vm_compute; reflexivity|].
  split; [eexists; split; [vm_compute; reflexivity|]; split; vm_compute; reflexivity|].
  eexists; split; vm_compute; reflexivity.
Qed.

Print Assumptions C78_only_the_messages_are_new.
Print Assumptions C78_answers_stay_or_are_replaced_by_messages.
Print Assumptions C78_placed_clauses_change_no_tree.
Print Assumptions C78_placed_clauses_reject_the_same_texts.
Print Assumptions C78_messages_follow_good_text.
Print Assumptions C78_clauses_anywhere_refuted.
Print Assumptions C78_clauses_in_predicates_refuted.
