(** Properties: programs that walk over a tree. *)
From Verif Require Import Base ModelAst ModelParser SpecApi SpecAst SpecVisit.
From Verif Require Import ProofParser ProofApi ProofAst ProofVisit.

(** * C111 programs that walk over a tree with the consuming helpers *)

(** Whatever it does with texts and rules, the program that walks over the tokens of a tree gives what a recursion over the tree
    gives: children first, from left to right, with the first failure as its failure. *)
Theorem C111_walks_are_recursions : forall B on_val on_rule tree fuel, length (flatten tree) < fuel ->
  visit_all B on_val on_rule fuel (flatten tree) = fold_node B on_val on_rule tree.
Proof.
  intros B on_val on_rule tree fuel L. rewrite <- folds_drop. exact (visit_all_reads _ _ _ _ _ _ (flatten_reads tree) L).
Qed.
Print Assumptions C111_walks_are_recursions.

(** It ends well on well-bracketed tokens only: no mistake in them goes unnoticed, and there is always an answer. *)
Theorem C111_wrong_tokens_are_noticed : forall B on_val on_rule tokens fuel, length tokens < fuel ->
  (forall v, exists b, on_val v = Ok b) -> (forall n kids, exists b, on_rule n kids = Ok b) ->
  ((exists bs, visit_all B on_val on_rule fuel tokens = Ok bs) <-> balanced tokens) /\
  ((exists er, visit_all B on_val on_rule fuel tokens = Err er) <-> ~ balanced tokens).
Proof. exact visit_total. Qed.
Print Assumptions C111_wrong_tokens_are_noticed.

(** Programs that can fail do not accept wrong tokens either. *)
Theorem C111_no_result_for_wrong_tokens : forall B on_val on_rule tokens fuel bs,
  visit_all B on_val on_rule fuel tokens = Ok bs -> balanced tokens.
Proof. intros B on_val on_rule tokens fuel bs H. destruct (visit_all_ok _ _ _ _ _ _ H) as (forest & R & _). exact (reads_balanced _ _ R). Qed.
Print Assumptions C111_no_result_for_wrong_tokens.

(** The program that walks over slices of nodes gives the same, for trees without [EOF] nodes, as those of parse. *)
Theorem C111_walks_over_slices : forall B on_val on_rule nodes fuel, Forall eof_free nodes -> list_sum (map tree_size nodes) < fuel ->
  visit_nodes B on_val on_rule fuel nodes = folds B on_val on_rule nodes.
Proof. intros B on_val on_rule nodes fuel. exact (visit_nodes_folds B on_val on_rule fuel nodes). Qed.
Print Assumptions C111_walks_over_slices.

(** So both ways of walking agree on every result of parse. *)
Theorem C111_both_ways_agree : forall B on_val on_rule fuel s rs debug tree f f', parse_with_debug fuel s rs debug = Ok tree ->
  length (flatten tree) < f -> tree_size tree < f' ->
  visit_all B on_val on_rule f (flatten tree) = visit_nodes B on_val on_rule f' [tree].
Proof.
  intros B on_val on_rule fuel s rs debug tree f f' P L L'. pose proof (parse_eof_free _ _ _ _ _ P) as K. rewrite (C111_walks_are_recursions B on_val on_rule tree f L).
  rewrite (visit_nodes_folds B on_val on_rule f' [tree]); [|constructor; [exact K|constructor]|cbn; lia].
  cbn [folds]. destruct (fold_node B on_val on_rule tree) as [b|e| |]; try reflexivity. cbn [bind]. rewrite app_nil_r. reflexivity.
Qed.
Print Assumptions C111_both_ways_agree.

(** Nothing is lost on the way: a program can build the tree again. *)
Theorem C111_the_tree_can_be_built_again : forall fuel s rs debug tree f, parse_with_debug fuel s rs debug = Ok tree -> length (flatten tree) < f ->
  visit_all node (fun v => Ok (Val v)) (fun n kids => Ok (Rule n kids)) f (flatten tree) = Ok [tree].
Proof.
  intros fuel s rs debug tree f P L. pose proof (parse_eof_free _ _ _ _ _ P) as K. rewrite C111_walks_are_recursions by exact L. rewrite <- folds_drop, (drop_eof_free tree K).
  apply rebuild. constructor; [exact K|constructor].
Qed.
Print Assumptions C111_the_tree_can_be_built_again.

(** A walk over slices stops at an [EOF] node with an error, a walk over tokens does not see it. *)
Theorem C111_slices_with_eof_refuted : exists tree e,
  visit_all node (fun v => Ok (Val v)) (fun n kids => Ok (Rule n kids)) 9 (flatten tree) = Ok [Rule (s_ "a") []] /\
  visit_nodes node (fun v => Ok (Val v)) (fun n kids => Ok (Rule n kids)) 9 [tree] = Err e.
Proof. exists (Rule (s_ "a") [EOF]). eexists. split; vm_compute; reflexivity. Qed.
Print Assumptions C111_slices_with_eof_refuted.

(** A program that adds: texts are numbers in unary, [sum] adds them, another rule is a failure. *)
Definition add_val (v : str) : outcome ast_error nat := Ok (length v).
Definition add_rule (n : str) (kids : list nat) : outcome ast_error nat :=
  if str_eqb n (s_ "sum") then Ok (list_sum kids) else Err (ast_mk_error (s_ "not a sum: " ++ n) None).

Example C111_nonvacuous :
  let tree := Rule (s_ "sum") [Val (s_ "ii"); Rule (s_ "sum") [Val (s_ "i"); Val (s_ "iii")]; Val (s_ "i")] in
  let wrong := Rule (s_ "sum") [Rule (s_ "product") [Val (s_ "i")]; Rule (s_ "quotient") []] in
  visit_all nat add_val add_rule 10 (flatten tree) = Ok [7] /\
  visit_nodes nat add_val add_rule 10 [tree] = Ok [7] /\
  visit_all nat add_val add_rule 10 (flatten wrong) = Err (ast_mk_error (s_ "not a sum: product") None) /\
  (exists er, visit_all nat add_val add_rule 10 [FBegin (s_ "sum"); FVal (s_ "i"); FEnd (s_ "product")] = Err er) /\
  exists er, visit_all nat add_val add_rule 10 [FVal (s_ "i"); FEnd (s_ "sum")] = Err er.
Proof. cbv zeta. repeat split; try (eexists; vm_compute; reflexivity); vm_compute; reflexivity. Qed.
