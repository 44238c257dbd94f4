(** C92: which children the nodes of a tree can have. *)
From Verif Require Import Base ModelAst ModelParser SpecPeg SpecPos SpecApi SpecAst SpecWf SpecBnf SpecShape Examples.
From Verif Require Import ProofParser ProofEngine ProofApi ProofWf WfCheck ProofBnf ProofLinear ProofIdioms ProofShape PropertiesBnf.

(** In the tree of a text, at any depth, the children of a node are as its rule says. *)
Theorem C92_children_follow_the_rules : forall rs fuel s debug ast, sane_rules rs -> parse_with_debug fuel s rs debug = Ok ast -> fits (rule_shapes rs) ast.
Proof. exact parse_fits. Qed.
Print Assumptions C92_children_follow_the_rules.

(** What the tools make of the children of the nodes of any tree. *)
Theorem C92_prune_leaves_out : forall W names nd, fits W nd -> fits (without names W) (prune names nd).
Proof. exact prune_fits. Qed.
Print Assumptions C92_prune_leaves_out.

Theorem C92_compact_merges : forall W nd, fits W nd -> fits (merged W) (compact nd).
Proof. exact compact_fits. Qed.
Print Assumptions C92_compact_merges.

Theorem C92_pass_through_opens : forall W names nd, fits W nd -> fits (opened names W) (pass_through_except names nd).
Proof. exact pass_fits. Qed.
Print Assumptions C92_pass_through_opens.

(** So what a chain of tools gives can be told from the rules: here the chain of the documentation. *)
Theorem C92_children_after_a_chain : forall rs fuel s debug ast drop keep, sane_rules rs -> parse_with_debug fuel s rs debug = Ok ast ->
  fits (opened keep (without drop (merged (rule_shapes rs)))) (pass_through_except keep (prune drop (compact ast))).
Proof. intros rs fuel s debug ast drop keep SR P. apply pass_fits, prune_fits, compact_fits. exact (parse_fits _ _ _ _ _ SR P). Qed.
Print Assumptions C92_children_after_a_chain.

(** No more can be told: if the next char always tells what to do, all children that a rule says occur in the tree of some text. *)
Theorem C92_all_children_occur : forall rs n w,
  sane_rules rs -> well_formed (grammar_of rs) -> predictive_grammar (grammar_of rs) -> productive_in_ascii (grammar_of rs) ->
  reachable rs n -> rule_shapes rs n w ->
  exists s fuel ast kids, ascii s /\ parse fuel s rs = Ok ast /\ (ast = Rule n kids \/ below (Rule n kids) ast) /\ map item_of kids = w.
Proof. exact shapes_occur. Qed.
Print Assumptions C92_all_children_occur.

(** Otherwise an alternative can be hidden by an earlier one: [main = 'a' / 'a' b;  b = 'b']. *)
Definition hiding_rules : rules := [(main, Or [lit (s_ "a"); And [lit (s_ "a"); ref_rule (s_ "b")]]); (s_ "b", lit (s_ "b"))].

Theorem C92_all_children_occur_refuted : exists rs w, sane_rules rs /\ well_formed (grammar_of rs) /\ productive_in_ascii (grammar_of rs) /\
  rule_shapes rs main w /\ forall s fuel ast kids, parse fuel s rs = Ok ast -> ast = Rule main kids -> map item_of kids <> w.
Proof.
  exists hiding_rules, [Leaf; Sub (s_ "b")]. assert (SR : sane_rules hiding_rules) by (apply sane_rules_all; repeat constructor).
  split; [exact SR|]. split; [apply wf_check_sound; vm_compute; reflexivity|]. split.
  { apply productive_ascii_check; [apply (productive_check_ok [s_ "b"; main]); [exact SR|vm_compute; reflexivity]|vm_compute; reflexivity]. }
  split.
  { exists (Or [lit (s_ "a"); And [lit (s_ "a"); ref_rule (s_ "b")]]). split; [reflexivity|]. eapply k_or; [right; left; reflexivity|].
    apply (k_and_cons _ _ [Leaf] [Sub (s_ "b")]); [apply k_atom; discriminate|]. apply (k_and_cons _ _ [Sub (s_ "b")] []); constructor. }
  intros s fuel ast kids P ->. pose proof (parse_sound fuel s hiding_rules false SR) as H. unfold parse in P. rewrite P in H.
  destruct H as [_ H]. unfold peg_main in H. set (G := grammar_of hiding_rules) in *.
  destruct (ProofIdioms.starts_dec (s_ "a") s) as [[r ->]|NS].
  - assert (D : peg G (RuleName main) (s_ "a" ++ r) (PMatch [Rule main [Val (s_ "a")]] r)).
    { refine (peg_rule G main _ _ (PMatch [Val (s_ "a")] r) eq_refl _). apply peg_or_first; [apply peg_lit_ok|discriminate]. }
    pose proof (peg_det _ _ _ _ D _ H) as E. injection E as <- _. discriminate.
  - assert (D : peg G (RuleName main) s PFail).
    { refine (peg_rule G main _ _ PFail eq_refl _). apply peg_or_next; [apply peg_lit_fail; exact NS|]. apply peg_or_next; [|constructor].
      apply peg_and_stop; [apply peg_lit_fail; exact NS|exact Logic.I]. }
    pose proof (peg_det _ _ _ _ D _ H). discriminate.
Qed.
Print Assumptions C92_all_children_occur_refuted.

(** Lists and numbers (the rules of C61): an item holds a list or, after compact, one piece of text; and both occur. *)
Lemma item_children : forall w, merged (rule_shapes bnf_rules) (s_ "item") w -> w = [Sub (s_ "list")] \/ w = [Leaf].
Proof.
  intros w (u & (e & E & K) & ->). replace (rules_get bnf_rules (s_ "item")) with (Some (Or [ref_rule (s_ "list"); Repeat (ematch [] [(48%N, 57%N)]) 1 None])) in E by reflexivity.
  apply (f_equal (fun o => match o with Some x => x | None => e end)) in E. subst e. inversion K as [| | |e es w' IN K'| | | |]; subst. destruct IN as [<-|[<-|[]]].
  - inversion K'; subst. left. reflexivity.
  - right. assert (X : forall mn u', kinds (Repeat (ematch [] [(48%N, 57%N)]) mn None) u' -> exists k, u' = repeat Leaf k /\ mn <= k).
    { intros mn u' K1. remember (Repeat (ematch [] [(48%N, 57%N)]) mn None) as e1 eqn:Q. revert mn Q. induction K1 as [| | | | | |e1 mn' mx w1 v1 N K1 _ K2 IH|]; intros mn Q; try discriminate.
      - injection Q as _ <- _. exists 0. split; [reflexivity|lia].
      - injection Q as -> -> ->. cbn [option_map] in IH. inversion K1; subst. destruct (IH (pred mn) eq_refl) as (k & -> & L). exists (S k). split; [reflexivity|lia]. }
    destruct (X 1 u K') as (k & -> & L). destruct k as [|k]; [lia|]. pose proof (merge_run k [] ltac:(discriminate)) as M. rewrite app_nil_r in M. exact M.
Qed.

Example C92_nonvacuous : sane_rules bnf_rules /\ well_formed (grammar_of bnf_rules) /\ predictive_grammar (grammar_of bnf_rules) /\ productive_in_ascii (grammar_of bnf_rules) /\
  reachable bnf_rules (s_ "item") /\ rule_shapes bnf_rules (s_ "item") [Leaf; Leaf; Leaf] /\ rule_shapes bnf_rules (s_ "list") [Leaf; Sub (s_ "item"); Leaf; Sub (s_ "item"); Leaf] /\
  (exists ast, parse 60 (s_ "[123,[]]") bnf_rules = Ok ast /\
     compact ast = Rule main [Rule (s_ "list") [Val (s_ "["); Rule (s_ "item") [Val (s_ "123")]; Val (s_ ","); Rule (s_ "item") [Rule (s_ "list") [Val (s_ "[]")]]; Val (s_ "]")]]) /\
  (forall fuel s ast kids, parse fuel s bnf_rules = Ok ast -> below (Rule (s_ "item") kids) (compact ast) ->
     (exists l, kids = [Rule (s_ "list") l]) \/ (exists v, kids = [Val v])).
Proof.
  assert (SR : sane_rules bnf_rules) by (apply sane_rules_all; repeat constructor). split; [exact SR|].
  split; [apply wf_check_sound; vm_compute; reflexivity|]. split; [apply (predictive_check_ok bnf_tables); vm_compute; reflexivity|]. split.
  { apply productive_ascii_check; [apply (productive_check_ok [main; s_ "list"; s_ "item"]); [exact SR|vm_compute; reflexivity]|vm_compute; reflexivity]. }
  split.
  { assert (L : reachable bnf_rules (s_ "list")).
    { eapply reach_step; [apply reach_main|reflexivity|]. eapply hr_and; [left; reflexivity|apply hr_name]. }
    eapply reach_step; [exact L|reflexivity|]. eapply hr_and; [right; left; reflexivity|]. apply hr_rep. eapply hr_and; [left; reflexivity|]. apply hr_name. }
  assert (LF : forall n l, kinds (Simple (Literal l)) [Leaf] /\ kinds (ref_rule n) [Sub n]) by (intros n l; split; constructor; discriminate).
  split.
  { eexists. split; [reflexivity|]. eapply k_or; [right; left; reflexivity|].
    do 3 (eapply (k_rep_more _ _ _ [Leaf]); [discriminate|constructor; discriminate|cbn [pred option_map]]). constructor. }
  split.
  { eexists. split; [reflexivity|]. apply (k_and_cons _ _ [Leaf] [Sub _; Leaf; Sub _; Leaf]); [apply (LF [])|]. apply (k_and_cons _ _ [Sub _; Leaf; Sub _] [Leaf]).
    - apply (k_rep_more _ _ _ [Sub _; Leaf; Sub _] []); [discriminate| |constructor]. apply (k_and_cons _ _ [Sub _] [Leaf; Sub _]); [apply (LF _ [])|].
      apply (k_and_cons _ _ [Leaf; Sub _] []); [|constructor]. apply (k_rep_more _ _ _ [Leaf; Sub _] []); [discriminate| |constructor].
      apply (k_and_cons _ _ [Leaf] [Sub _]); [apply (LF [])|]. apply (k_and_cons _ _ [Sub _] []); [apply (LF _ [])|constructor].
    - apply (k_and_cons _ _ [Leaf] []); [apply (LF [])|constructor]. }
  split; [eexists; split; vm_compute; reflexivity|].
  intros fuel s ast kids P B. pose proof (compact_fits _ _ (parse_fits bnf_rules fuel s false ast SR P) (s_ "item") kids (or_intror B)) as F.
  destruct (item_children _ F) as [E|E]; destruct kids as [|[v|n l|] [|y kids]]; try discriminate; cbn [map item_of] in E.
  - injection E as ->. left. exists l. reflexivity.
  - right. exists v. reflexivity.
Qed.
