(** Properties of rule sets and AST tools (C19, C22-C26).  Statements only use the model and the Spec files. *)
From Coq Require Import Permutation.
From Verif Require Import Base ModelAst ModelParser SpecPeg SpecPos SpecApi SpecAst Examples ProofParser ProofApi ProofAst.

(* ---- C19 --------------------------------------------------------------------------------- *)

Theorem C19_add : forall m name e,
  rules_get (rules_add m name e) name = Some e /\
  (forall n, n <> name -> rules_get (rules_add m name e) n = rules_get m n) /\
  (unique_names m -> unique_names (rules_add m name e)).
Proof. exact add_laws. Qed.
Print Assumptions C19_add.

Theorem C19_merge : forall a b, unique_names a -> unique_names b ->
  (forall n, rules_get (rules_merge a b) n =
             match rules_get a n with Some e => Some e | None => rules_get b n end) /\
  unique_names (rules_merge a b).
Proof. exact merge_laws. Qed.
Print Assumptions C19_merge.

(** The iteration order of the hash maps is irrelevant to merge and lookup. *)
Theorem C19_merge_order_irrelevant : forall a b a' b' n, unique_names a -> unique_names b ->
  Permutation a a' -> Permutation b b' -> rules_get (rules_merge a b) n = rules_get (rules_merge a' b') n.
Proof. exact merge_order. Qed.
Print Assumptions C19_merge_order_irrelevant.

Theorem C19_rules_macro : forall l,
  (forall n, last_binding l n (rules_get (rules_macro l) n)) /\ unique_names (rules_macro l).
Proof. exact macro_laws. Qed.
Print Assumptions C19_rules_macro.

Definition ex_m1 : rules := rules_macro [(s_ "a", lit (s_ "1")); (s_ "b", lit (s_ "2")); (s_ "a", lit (s_ "3"))].
Definition ex_m2 : rules := rules_macro [(s_ "a", lit (s_ "4")); (s_ "c", lit (s_ "5"))].

Example C19_nonvacuous : unique_names ex_m1 /\ unique_names ex_m2 /\
  rules_get ex_m1 (s_ "a") = Some (lit (s_ "3")) /\
  rules_get (rules_merge ex_m1 ex_m2) (s_ "a") = Some (lit (s_ "3")) /\
  rules_get (rules_merge ex_m1 ex_m2) (s_ "c") = Some (lit (s_ "5")).
Proof. split; [apply macro_laws|]. split; [apply macro_laws|]. vm_compute. auto. Qed.

(* ---- C22 --------------------------------------------------------------------------------- *)

Theorem C22_compact_merges_maximal_runs : forall n l l', compact (Rule n l) = Rule n l' <-> compacted l l'.
Proof. exact compact_spec. Qed.
Print Assumptions C22_compact_merges_maximal_runs.

Theorem C22_compact_on_leaves : (forall v, compact (Val v) = Val v) /\ compact EOF = EOF.
Proof. exact compact_leaf. Qed.
Print Assumptions C22_compact_on_leaves.

Theorem C22_compact_no_adjacent_vals : forall nd, ~ adjacent_vals (compact nd).
Proof. exact compact_no_adjacent. Qed.
Print Assumptions C22_compact_no_adjacent_vals.

Theorem C22_compact_preserves_text : forall nd, leaves (compact nd) = leaves nd.
Proof. exact compact_leaves. Qed.
Print Assumptions C22_compact_preserves_text.

Theorem C22_compact_idempotent : forall nd, compact (compact nd) = compact nd.
Proof. exact compact_idem. Qed.
Print Assumptions C22_compact_idempotent.

Definition ex_ast : node := Rule (s_ "r")
  [Val (s_ "a"); Val (s_ "b"); Rule (s_ "x") [Val (s_ "c"); EOF; Val (s_ "d"); Rule (s_ "y") [Val (s_ "e")]]; Val []; Val (s_ "f")].

Example C22_nonvacuous : adjacent_vals ex_ast /\ compact ex_ast = Rule (s_ "r")
  [Val (s_ "ab"); Rule (s_ "x") [Val (s_ "c"); EOF; Val (s_ "d"); Rule (s_ "y") [Val (s_ "e")]]; Val (s_ "f")].
Proof. split; [apply (av_here _ [])|reflexivity]. Qed.

(* ---- C23 --------------------------------------------------------------------------------- *)

Theorem C23_prune_removes_exactly_the_named_subtrees : forall names n l l',
  prune names (Rule n l) = Rule n l' <-> pruned names l l'.
Proof. exact prune_spec. Qed.
Print Assumptions C23_prune_removes_exactly_the_named_subtrees.

Theorem C23_prune_on_leaves : forall names, (forall v, prune names (Val v) = Val v) /\ prune names EOF = EOF.
Proof. exact prune_leaf. Qed.
Print Assumptions C23_prune_on_leaves.

Theorem C23_prune_leaves_no_named_node : forall names nd x, below x (prune names nd) -> ~ has_name names x.
Proof. exact prune_no_names. Qed.
Print Assumptions C23_prune_leaves_no_named_node.

(** On flattened trees: one pass that skips from each listed begin token to its matching end token. *)
Theorem C23_prune_on_token_streams : forall names n l,
  flatten (prune names (Rule n l)) = FBegin n :: skip names 0 (flat_map flatten l) ++ [FEnd n].
Proof. exact prune_flatten. Qed.
Print Assumptions C23_prune_on_token_streams.

Theorem C23_prune_idempotent : forall names nd, prune names (prune names nd) = prune names nd.
Proof. exact prune_idem. Qed.
Print Assumptions C23_prune_idempotent.

Theorem C23_prune_composes : forall a b nd, prune b (prune a nd) = prune (a ++ b) nd.
Proof. exact prune_app. Qed.
Print Assumptions C23_prune_composes.

Theorem C23_prune_only_depends_on_the_set_of_names : forall a b, (forall n, In n a <-> In n b) ->
  forall nd, prune a nd = prune b nd.
Proof. exact prune_ext. Qed.
Print Assumptions C23_prune_only_depends_on_the_set_of_names.

Example C23_nonvacuous : prune [s_ "y"; s_ "r"] ex_ast =
  Rule (s_ "r") [Val (s_ "a"); Val (s_ "b"); Rule (s_ "x") [Val (s_ "c"); EOF; Val (s_ "d")]; Val []; Val (s_ "f")].
Proof. reflexivity. Qed.

(* ---- C24 --------------------------------------------------------------------------------- *)

Theorem C24_pass_through_splices_unlisted_rules : forall names n l l',
  pass_through_except names (Rule n l) = Rule n l' <-> spliced names l l'.
Proof. exact pass_through_spec. Qed.
Print Assumptions C24_pass_through_splices_unlisted_rules.

Theorem C24_pass_through_on_leaves : forall names,
  (forall v, pass_through_except names (Val v) = Val v) /\ pass_through_except names EOF = EOF.
Proof. exact pass_through_leaf. Qed.
Print Assumptions C24_pass_through_on_leaves.

Theorem C24_pass_through_keeps_only_listed_rules : forall names nd n k,
  below (Rule n k) (pass_through_except names nd) -> In n names.
Proof. exact pass_through_names. Qed.
Print Assumptions C24_pass_through_keeps_only_listed_rules.

Theorem C24_pass_through_keeps_every_leaf : forall names nd, frontier (pass_through_except names nd) = frontier nd.
Proof. exact pass_through_frontier. Qed.
Print Assumptions C24_pass_through_keeps_every_leaf.

Theorem C24_pass_through_filters_tokens : forall names n l,
  flatten (pass_through_except names (Rule n l)) = FBegin n :: filter (listed names) (flat_map flatten l) ++ [FEnd n].
Proof. exact pass_through_flatten. Qed.
Print Assumptions C24_pass_through_filters_tokens.

Theorem C24_pass_through_idempotent : forall names nd,
  pass_through_except names (pass_through_except names nd) = pass_through_except names nd.
Proof. exact pass_through_idem. Qed.
Print Assumptions C24_pass_through_idempotent.

Example C24_nonvacuous : pass_through_except [s_ "y"] ex_ast =
  Rule (s_ "r") [Val (s_ "a"); Val (s_ "b"); Val (s_ "c"); EOF; Val (s_ "d"); Rule (s_ "y") [Val (s_ "e")]; Val []; Val (s_ "f")].
Proof. reflexivity. Qed.

(* ---- C25 --------------------------------------------------------------------------------- *)

Theorem C25_flatten_balanced : forall nd, balanced (flatten nd).
Proof. intro nd. exact (reads_balanced _ _ (flatten_reads nd)). Qed.
Print Assumptions C25_flatten_balanced.

(** The token list reads as the tree without its EOF nodes, and as nothing else. *)
Theorem C25_flatten_reads_back : forall nd f, reads (flatten nd) f <-> f = drop_eof nd.
Proof.
  intros nd f. split; [intro H; exact (reads_det _ _ _ H (flatten_reads nd))|intros ->; apply flatten_reads].
Qed.
Print Assumptions C25_flatten_reads_back.

(** Conversely every well-bracketed token list is the flattening of a list of trees. *)
Theorem C25_balanced_lists_are_flattenings : forall t, balanced t -> exists f, reads t f /\ flat_map flatten f = t.
Proof.
  intros t H. destruct (balanced_reads t H) as [f R]. exists f. split; [exact R|exact (reads_flat t f R)].
Qed.
Print Assumptions C25_balanced_lists_are_flattenings.

Theorem C25_flatten_equal_iff_trees_equal : forall a b, flatten a = flatten b <-> drop_eof a = drop_eof b.
Proof. exact flatten_lossless. Qed.
Print Assumptions C25_flatten_equal_iff_trees_equal.

Theorem C25_flatten_injective_on_parse_results : forall fuel1 s1 rs1 a fuel2 s2 rs2 b,
  parse fuel1 s1 rs1 = Ok a -> parse fuel2 s2 rs2 = Ok b -> flatten a = flatten b -> a = b.
Proof.
  intros fuel1 s1 rs1 a fuel2 s2 rs2 b Ha Hb. apply flatten_inj; [exact (parse_eof_free fuel1 s1 rs1 false a Ha)|exact (parse_eof_free fuel2 s2 rs2 false b Hb)].
Qed.
Print Assumptions C25_flatten_injective_on_parse_results.

Theorem C25_flatten_keeps_text : forall nd, flat_map ftext (flatten nd) = leaves nd.
Proof. exact flatten_text. Qed.
Print Assumptions C25_flatten_keeps_text.

(** With EOF nodes flatten is not injective. *)
Theorem C25_flatten_with_eof_refuted : exists a b, a <> b /\ flatten a = flatten b.
Proof. exists (Rule (s_ "r") [EOF]), (Rule (s_ "r") []). split; [discriminate|reflexivity]. Qed.
Print Assumptions C25_flatten_with_eof_refuted.

Example C25_nonvacuous : parse 20 ex_text ex_rules = Ok ex_tree /\ length (flatten ex_tree) = 13 /\ balanced (flatten ex_tree).
Proof. split; [exact ex_parse|]. split; [reflexivity|apply C25_flatten_balanced]. Qed.

(* ---- C26 --------------------------------------------------------------------------------- *)

Theorem C26_split_first_nodes : forall l, decides (split_first_nodes l) (fun r => l = fst r :: snd r).
Proof. exact h_split. Qed.
Print Assumptions C26_split_first_nodes.

Theorem C26_consume_val : forall l, decides (consume_val l) (fun r => l = Val (fst r) :: snd r).
Proof. exact h_val. Qed.
Print Assumptions C26_consume_val.

Theorem C26_consume_this_value : forall v l, decides (consume_this_value v l) (fun r => l = Val v :: r).
Proof. exact h_this. Qed.
Print Assumptions C26_consume_this_value.

Theorem C26_peek_first_node : forall l, decides (peek_first_node l) (fun x => exists r, l = x :: r).
Proof. exact h_peek. Qed.
Print Assumptions C26_peek_first_node.

Theorem C26_get_node_val : forall nd, decides (get_node_val nd) (fun v => nd = Val v).
Proof. exact h_node_val. Qed.
Print Assumptions C26_get_node_val.

Theorem C26_get_nodename_and_nodes : forall nd, decides (get_nodename_and_nodes nd) (fun r => nd = Rule (fst r) (snd r)).
Proof. exact h_name_nodes. Qed.
Print Assumptions C26_get_nodename_and_nodes.

Theorem C26_get_nodes_unique_val : forall l, decides (get_nodes_unique_val l) (fun v => l = [Val v]).
Proof. exact h_unique. Qed.
Print Assumptions C26_get_nodes_unique_val.

Theorem C26_consume_node_get_subnodes : forall name l,
  decides (consume_node_get_subnodes_for_rule_name_is name l) (fun r => l = Rule name (snd r) :: fst r).
Proof. exact h_sub. Qed.
Print Assumptions C26_consume_node_get_subnodes.

Theorem C26_check_empty_nodes : forall l, decides (check_empty_nodes l) (fun _ => l = []).
Proof. exact h_empty. Qed.
Print Assumptions C26_check_empty_nodes.

Theorem C26_flat_split_first_nodes : forall l, decides (fsplit_first_nodes l) (fun r => l = fst r :: snd r).
Proof. exact h_fsplit. Qed.
Print Assumptions C26_flat_split_first_nodes.

Theorem C26_flat_consume_start : forall name l,
  decides (fconsume_node_start_rule_name name l) (fun r => l = FBegin name :: r).
Proof. exact h_fstart. Qed.
Print Assumptions C26_flat_consume_start.

Theorem C26_flat_consume_end : forall name l,
  decides (fconsume_node_end_rule_name name l) (fun r => l = FEnd name :: r).
Proof. exact h_fend. Qed.
Print Assumptions C26_flat_consume_end.

Theorem C26_flat_peek_first_node : forall l, decides (fpeek_first_node l) (fun x => exists r, l = x :: r).
Proof. exact h_fpeek. Qed.
Print Assumptions C26_flat_peek_first_node.

Theorem C26_flat_get_node_val : forall nd, decides (fget_node_val nd) (fun v => nd = FVal v).
Proof. exact h_fnode_val. Qed.
Print Assumptions C26_flat_get_node_val.

Theorem C26_flat_consume_this_value : forall v l, decides (fconsume_this_value v l) (fun r => l = FVal v :: r).
Proof. exact h_fthis. Qed.
Print Assumptions C26_flat_consume_this_value.

Theorem C26_flat_get_nodename : forall nd, decides (fget_nodename nd) (fun n => nd = FBegin n \/ nd = FEnd n).
Proof. exact h_fname. Qed.
Print Assumptions C26_flat_get_nodename.

Theorem C26_flat_consume_val : forall l, decides (fconsume_val l) (fun r => l = FVal (fst r) :: snd r).
Proof. exact h_fval. Qed.
Print Assumptions C26_flat_consume_val.

(** A wrong rule name is reported with the expected and the received name. *)
Theorem C26_wrong_name_is_reported : forall name n, n <> name ->
  (forall k l, consume_node_get_subnodes_for_rule_name_is name (Rule n k :: l) =
     Err (AstError (s_ "expected " ++ name ++ s_ " node, received " ++ n) None)) /\
  (forall l, fconsume_node_start_rule_name name (FBegin n :: l) =
     Err (AstError (s_ "expected " ++ name ++ s_ " node, received " ++ n) None)) /\
  (forall l, fconsume_node_end_rule_name name (FEnd n :: l) =
     Err (AstError (s_ "expected " ++ name ++ s_ " node, received " ++ n) None)).
Proof.
  intros name n H. split; [|split]; intros; [apply h_sub_error|apply h_fstart_error|apply h_fend_error]; exact H.
Qed.
Print Assumptions C26_wrong_name_is_reported.

(** The error of a call, if it has one. *)
Definition error_of {A} (m : outcome ast_error A) : option ast_error := match m with Err er => Some er | _ => None end.

(** What the other errors say; with the theorems above these are all the errors of the helpers.  None has a context. *)
Theorem C26_empty_slices_are_reported :
  let no_node := Some (AstError (s_ "trying get first element from nodes on empty slice") None) in
  let no_peek := Some (AstError (s_ "exptected node on peek_first_node") None) in
  error_of (split_first_nodes []) = no_node /\ error_of (consume_val []) = no_node /\ (forall v, error_of (consume_this_value v []) = no_node) /\
  (forall name, error_of (consume_node_get_subnodes_for_rule_name_is name []) = no_node) /\ error_of (peek_first_node []) = no_peek /\
  error_of (fsplit_first_nodes []) = no_node /\ error_of (fconsume_val []) = no_node /\ (forall v, error_of (fconsume_this_value v []) = no_node) /\
  (forall name, error_of (fconsume_node_start_rule_name name []) = no_node) /\ (forall name, error_of (fconsume_node_end_rule_name name []) = no_node) /\
  error_of (fpeek_first_node []) = no_peek.
Proof. repeat split. Qed.
Print Assumptions C26_empty_slices_are_reported.

Theorem C26_wrong_kinds_are_reported : forall nd l, (forall v, nd <> Val v) ->
  error_of (get_node_val nd) = Some (AstError (s_ "expected node::Val") None) /\
  error_of (get_nodes_unique_val [nd]) = Some (AstError (s_ "expected node::Val") None) /\
  error_of (consume_val (nd :: l)) = Some (AstError (s_ "expected Val node") None) /\
  forall v, error_of (consume_this_value v (nd :: l)) = Some (AstError (s_ "expected node::Val") None).
Proof. intros [v|n k|] l H; [destruct (H v eq_refl)|repeat split..]. Qed.
Print Assumptions C26_wrong_kinds_are_reported.

Theorem C26_wrong_kinds_of_rules_are_reported : forall nd l, (forall n k, nd <> Rule n k) ->
  error_of (get_nodename_and_nodes nd) = Some (AstError (s_ "expected node::Rule") None) /\
  forall name, error_of (consume_node_get_subnodes_for_rule_name_is name (nd :: l)) =
    Some (AstError (s_ "expected " ++ name ++ s_ " Node::Rule, received " ++ debug_node nd) None).
Proof. intros [v|n k|] l H; [|destruct (H n k eq_refl)|]; repeat split. Qed.
Print Assumptions C26_wrong_kinds_of_rules_are_reported.

Theorem C26_wrong_counts_are_reported : forall l : list node,
  (length l <> 1 -> error_of (get_nodes_unique_val l) = Some (AstError (s_ "expected only one value in nodes") None)) /\
  (l <> [] -> error_of (check_empty_nodes l) = Some (AstError (s_ "not consumed full nodes") None)).
Proof. intros [|a [|b l]]; split; intro H; try reflexivity; try (destruct (H eq_refl)). Qed.
Print Assumptions C26_wrong_counts_are_reported.

(** Another value is reported as if there were no node: the message does not tell the two apart. *)
Theorem C26_other_values_are_reported_as_missing : forall v w, w <> v ->
  (forall l, error_of (consume_this_value v (Val w :: l)) = error_of (consume_this_value v [])) /\
  (forall l, error_of (fconsume_this_value v (FVal w :: l)) = error_of (fconsume_this_value v [])).
Proof.
  intros v w N. split; intro l; unfold consume_this_value, fconsume_this_value; cbn [split_first_nodes fsplit_first_nodes get_node_val fget_node_val bind];
    (destruct (str_eqb w v) eqn:E; [apply str_eqb_eq in E; contradiction|reflexivity]).
Qed.
Print Assumptions C26_other_values_are_reported_as_missing.

Theorem C26_wrong_kinds_of_tokens_are_reported : forall nd l,
  ((forall v, nd <> FVal v) -> error_of (fget_node_val nd) = Some (AstError (s_ "expected node::Val") None) /\
     error_of (fconsume_val (nd :: l)) = Some (AstError (s_ "expected Val node") None) /\
     forall v, error_of (fconsume_this_value v (nd :: l)) = Some (AstError (s_ "expected node::Val") None)) /\
  ((forall n, nd <> FBegin n /\ nd <> FEnd n) -> error_of (fget_nodename nd) = Some (AstError (s_ "expected node::Rule") None)) /\
  ((forall n, nd <> FBegin n) -> forall name, error_of (fconsume_node_start_rule_name name (nd :: l)) =
     Some (AstError (s_ "expected begin rule for " ++ name) None)) /\
  ((forall n, nd <> FEnd n) -> forall name, error_of (fconsume_node_end_rule_name name (nd :: l)) =
     Some (AstError (s_ "expected end rule for " ++ name) None)).
Proof.
  intros [v|n|n|] l; (split; [intro H|split; [intro H|split; intro H]]); try (repeat split; fail).
  - destruct (H v eq_refl).
  - destruct (proj1 (H n) eq_refl).
  - destruct (H n eq_refl).
  - destruct (proj2 (H n) eq_refl).
  - destruct (H n eq_refl).
Qed.
Print Assumptions C26_wrong_kinds_of_tokens_are_reported.

Example C26_nonvacuous :
  fconsume_node_start_rule_name (s_ "main") (flatten ex_tree) = Ok (tl (flatten ex_tree)) /\
  (exists er, fconsume_node_end_rule_name (s_ "main") (flatten ex_tree) = Err er).
Proof. split; [reflexivity|]. eexists. reflexivity. Qed.
