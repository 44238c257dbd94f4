(** Properties: what the tools for trees cost. *)
From Verif Require Import Base ModelAst ModelParser ModelTools SpecPeg SpecPos SpecApi SpecWf SpecTable SpecTools.
From Verif Require Import ProofAst ProofParser ProofApi ProofWf WfCheck ProofTools ProofToolsApi.

(** * C89 cost of the tools *)

(** The copies that count return what the tools return. *)
Theorem C89_counting_changes_nothing : forall names nd,
  fst (t_prune names nd) = prune names nd /\ fst (t_pass_through_except names nd) = pass_through_except names nd /\
  fst (t_compact nd) = compact nd /\ fst (t_flatten nd) = flatten nd.
Proof. intros names nd. repeat split; [apply t_prune_same|apply t_pass_same|apply t_compact_same|apply t_flatten_same]. Qed.
Print Assumptions C89_counting_changes_nothing.

(** Work on a tree: linear for prune and flatten. *)
Theorem C89_work_on_a_tree : forall names nd,
  work (snd (t_prune names nd)) <= 2 * weight nd /\ work (snd (t_flatten nd)) <= 3 * weight nd /\
  work (snd (t_pass_through_except names nd)) <= 2 * weight nd * height nd /\ work (snd (t_compact nd)) <= 4 * (weight nd * weight nd).
Proof. intros names nd. pose proof (prune_work names nd). split; [lia|]. split; [apply flatten_work|]. split; [apply pass_work|apply compact_work]. Qed.
Print Assumptions C89_work_on_a_tree.

(** For these two the work is known exactly. Each node that prune keeps is visited, copied and, but for the root, moved. *)
Theorem C89_exact_work : forall names nd,
  work (snd (t_prune names nd)) + 1 = weight (prune names nd) + nodes (prune names nd) /\
  work (snd (t_flatten nd)) = weight nd + name_chars nd + length (flatten nd).
Proof. intros names nd. split; [apply prune_exact|apply flatten_exact]. Qed.
Print Assumptions C89_exact_work.

(** The calls nest as deeply as the tree: compact makes none for leaves, prune none for what it removes. *)
Theorem C89_nesting_is_the_height : forall names nd,
  nest (snd (t_prune names nd)) = height (prune names nd) /\ nest (snd (t_flatten nd)) = height nd /\
  nest (snd (t_pass_through_except names nd)) = height nd /\
  nest (snd (t_compact nd)) <= height nd <= nest (snd (t_compact nd)) + 1.
Proof. intros names nd. split; [apply prune_nest|]. split; [apply flatten_nest|]. split; [apply pass_nest|apply compact_nest]. Qed.
Print Assumptions C89_nesting_is_the_height.

(** On the tree of a text. *)
Theorem C89_work_on_parsed_texts : forall rs, well_formed (grammar_of rs) -> exists c, forall fuel s debug ast names, parse_with_debug fuel s rs debug = Ok ast ->
  let n := length s + 1 in
  work (snd (t_prune names ast)) <= c * n /\ work (snd (t_flatten ast)) <= c * n /\
  work (snd (t_pass_through_except names ast)) <= c * (n * n) /\ work (snd (t_compact ast)) <= c * (n * n) /\
  nest (snd (t_prune names ast)) <= c * n /\ nest (snd (t_flatten ast)) <= c * n /\
  nest (snd (t_pass_through_except names ast)) <= c * n /\ nest (snd (t_compact ast)) <= c * n.
Proof. exact tools_bound. Qed.
Print Assumptions C89_work_on_parsed_texts.

(** Compacting a text that is read char by char copies quadratically many chars. *)
Theorem C89_compact_is_quadratic : forall s debug, ascii s -> exists fuel ast, parse_with_debug fuel s any_rules debug = Ok ast /\
  length s * length s <= work (snd (t_compact ast)) /\
  (s <> [] -> 2 * work (snd (t_compact ast)) = 3 * length s * length s + 3 * length s + 8).
Proof. intros s d A. destruct (any_parse s d A) as [fuel P]. exists fuel. eexists. split; [exact P|]. split; [apply compact_any|apply compact_any_exact]. Qed.
Print Assumptions C89_compact_is_quadratic.

(** Passing through nested rules moves the nodes again at each level. *)
Theorem C89_passing_through_is_quadratic : forall n debug names, ~ In main names -> exists fuel ast, length (chain_text n) = n + 1 /\
  parse_with_debug fuel (chain_text n) chain_rules debug = Ok ast /\ 2 * work (snd (t_pass_through_except names ast)) = n * n + 9 * n + 16.
Proof.
  intros n d names N. destruct (chain_parse n d) as [fuel P]. exists fuel. eexists. split; [apply chain_length|]. split; [exact P|].
  apply chain_exact. apply name_in_false. exact N.
Qed.
Print Assumptions C89_passing_through_is_quadratic.

(** No fixed stack is enough for the tools. *)
Theorem C89_no_fixed_stack_is_enough : forall n debug names, ~ In main names -> exists fuel ast, length (chain_text n) = n + 1 /\
  parse_with_debug fuel (chain_text n) chain_rules debug = Ok ast /\
  n < nest (snd (t_prune names ast)) /\ n < nest (snd (t_flatten ast)) /\ n < nest (snd (t_pass_through_except names ast)) /\ n < nest (snd (t_compact ast)).
Proof.
  intros n d names N. destruct (chain_parse n d) as [fuel P]. exists fuel. eexists. split; [apply chain_length|]. split; [exact P|].
  rewrite prune_nest, pass_nest. unfold t_flatten. rewrite flatten_nest. pose proof (compact_nest (chain_tree n)) as C.
  rewrite (chain_prune names n) by (apply name_in_false; exact N). rewrite chain_height in *. lia.
Qed.
Print Assumptions C89_no_fixed_stack_is_enough.

Example C89_nonvacuous : well_formed (grammar_of chain_rules) /\ well_formed (grammar_of any_rules) /\ ~ In main [s_ "a"] /\
  parse 50 (s_ "aaab") chain_rules = Ok (Rule main [Val (s_ "a"); Rule main [Val (s_ "a"); Rule main [Val (s_ "a"); Rule main [Val (s_ "b")]]]]) /\
  (let t := Rule (s_ "x") [Val (s_ "ab"); Val (s_ "c"); Rule (s_ "y") [Val (s_ "d")]; EOF] in
   weight t = 12 /\ height t = 3 /\ t_prune [s_ "y"] t = (Rule (s_ "x") [Val (s_ "ab"); Val (s_ "c"); EOF], (11, 2)) /\
   t_pass_through_except [] t = (Rule (s_ "x") [Val (s_ "ab"); Val (s_ "c"); Val (s_ "d"); EOF], (16, 3)) /\
   t_compact t = (Rule (s_ "x") [Val (s_ "abc"); Rule (s_ "y") [Val (s_ "d")]; EOF], (23, 2)) /\
   snd (t_flatten t) = (21, 3)).
Proof.
  split; [apply wf_check_sound; vm_compute; reflexivity|]. split; [apply wf_check_sound; vm_compute; reflexivity|].
  split; [intros [E|[]]; discriminate|]. split; [vm_compute; reflexivity|]. cbv zeta. repeat split; vm_compute; reflexivity.
Qed.
