(** What is printed determines what was printed: C51. *)
From Verif Require Import Base ModelAst ModelParser ModelPegRules ModelPeg ModelDebug ModelPretty SpecPos SpecApi SpecPegApi SpecDocs.
From Verif Require Import ProofParser ProofDebug ProofPretty PropertiesPeg.

(* ---- C51 --------------------------------------------------------------------------------- *)

(** Two parser errors with the same [{:?}] output are equal in every field. *)
Theorem C51_parser_errors : forall e e', debug_perror e = debug_perror e' -> e = e'.
Proof. exact (free_inj _ _ perror_free). Qed.
Print Assumptions C51_parser_errors.

Theorem C51_ast_errors : forall e e', debug_ast_error e = debug_ast_error e' -> e = e'.
Proof. exact (free_inj _ _ ast_error_free). Qed.
Print Assumptions C51_ast_errors.

(** So for trees, ... *)
Theorem C51_trees : forall t t', debug_node t = debug_node t' -> t = t'.
Proof. exact (free_inj _ _ node_free). Qed.
Print Assumptions C51_trees.

(** ... tokens, ... *)
Theorem C51_tokens : forall t t', debug_vec debug_token t = debug_vec debug_token t' -> t = t'.
Proof.
  apply free_inj. intros l. apply vec_free; [|apply all_free; exact token_free].
  intros x r r' H. destruct x; cbn [debug_token] in H; rewrite <- ?app_assoc in H; lits H; cbn [app] in H; discriminate.
Qed.
Print Assumptions C51_tokens.

(** ... expressions, and rule sets listed in a certain order. *)
Theorem C51_expressions : forall e e', debug_expr e = debug_expr e' -> e = e'.
Proof. exact (free_inj _ _ expr_free). Qed.
Print Assumptions C51_expressions.

Theorem C51_rules : forall l l', debug_rules l = debug_rules l' -> l = l'.
Proof. exact (free_inj _ _ rules_free). Qed.
Print Assumptions C51_rules.

(** The message of a syntax error in a grammar text tells everything about it: no other error of [rules_from_peg], on
    whatever text, is displayed the same way. *)
Theorem C51_syntax_errors : forall f s f' s' e e', rules_from_peg f s = Err (EParser e) -> rules_from_peg f' s' = Err e' ->
  display_error (EParser e) = display_error e' -> e' = EParser e.
Proof.
  intros f s f' s' e e' _ H' D. destruct (C42_errors_are_located f' s' e' H') as [(er & _ & _ & -> & _)|(ast & _ & _ & X)].
  - unfold display_error in D. cbn [display_peg_error] in D. apply app_inv_head in D. apply perror_free in D. destruct D as [-> _]. reflexivity.
  - exfalso. destruct e' as [d [b|]|p|a]; cbn in X; try discriminate. injection X as ->. unfold display_error in D.
    cbn [display_peg_error] in D. lits D. cbn [app] in D. discriminate.
Qed.
Print Assumptions C51_syntax_errors.

(** For errors put together by hand this is false: a description may contain the separator. *)
Theorem C51_chains_refuted : exists e e', e <> e' /\ display_error e = display_error e'.
Proof.
  exists (EPeg (s_ "a > b") None), (EPeg (s_ "a") (Some (EPeg (s_ "b") None))). split; [discriminate|vm_compute; reflexivity].
Qed.
Print Assumptions C51_chains_refuted.

(** The pretty output ([{:#?}]) tells the same things: the [{:?}] output is the same fields on one line ... *)
Theorem C51_both_outputs_show_the_same : (forall x, compact_of (show_node x) = debug_node x) /\ (forall x, compact_of (show_token x) = debug_token x) /\
  (forall e, compact_of (show_expr e) = debug_expr e) /\ (forall l, compact_of (show_rules l) = debug_rules l) /\
  (forall e, compact_of (show_perror e) = debug_perror e) /\ (forall e, compact_of (show_ast_error e) = debug_ast_error e).
Proof.
  split; [exact compact_node|]. split; [exact compact_token|]. split; [exact compact_expr|]. split; [exact compact_rules|].
  split; [exact compact_perror|exact compact_ast_error].
Qed.
Print Assumptions C51_both_outputs_show_the_same.

(** ... and it determines what was printed, with and without the trailing commas of later versions of Rust. *)
Theorem C51_pretty_trees : forall comma t t', pretty comma 0 (show_node t) = pretty comma 0 (show_node t') -> t = t'.
Proof. intros comma. exact (pretty_determines _ _ _ named_node compact_node C51_trees comma 0). Qed.
Print Assumptions C51_pretty_trees.

Theorem C51_pretty_rules : forall comma l l', pretty comma 0 (show_rules l) = pretty comma 0 (show_rules l') -> l = l'.
Proof. intros comma. exact (pretty_determines _ _ _ named_rules compact_rules C51_rules comma 0). Qed.
Print Assumptions C51_pretty_rules.

Theorem C51_pretty_errors : forall comma e e', pretty comma 0 (show_perror e) = pretty comma 0 (show_perror e') -> e = e'.
Proof. intros comma. exact (pretty_determines _ _ _ named_perror compact_perror C51_parser_errors comma 0). Qed.
Print Assumptions C51_pretty_errors.

(** The lines with line breaks between them. *)
Definition join_lines (l : list str) : str := match l with [] => [] | x :: r => x ++ flat_map (fun y => ch_nl :: y) r end.

(** The tree that README.md shows, line by line, is what the program before it there prints. *)
Definition readme_tree : list str :=
  [s_ "Rule(";
   s_ "    (";
   s_ "        ""main"",";
   s_ "        [";
   s_ "            Rule(";
   s_ "                (";
   s_ "                    ""letter"",";
   s_ "                    [";
   s_ "                        Val(";
   s_ "                            ""a""";
   s_ "                        )";
   s_ "                    ]";
   s_ "                )";
   s_ "            ),";
   s_ "            Rule(";
   s_ "                (";
   s_ "                    ""letter_or_num"",";
   s_ "                    [";
   s_ "                        Rule(";
   s_ "                            (";
   s_ "                                ""number"",";
   s_ "                                [";
   s_ "                                    Val(";
   s_ "                                        ""2""";
   s_ "                                    )";
   s_ "                                ]";
   s_ "                            )";
   s_ "                        )";
   s_ "                    ]";
   s_ "                )";
   s_ "            ),";
   s_ "            Rule(";
   s_ "                (";
   s_ "                    ""letter_or_num"",";
   s_ "                    [";
   s_ "                        Rule(";
   s_ "                            (";
   s_ "                                ""letter"",";
   s_ "                                [";
   s_ "                                    Val(";
   s_ "                                        ""Z""";
   s_ "                                    )";
   s_ "                                ]";
   s_ "                            )";
   s_ "                        )";
   s_ "                    ]";
   s_ "                )";
   s_ "            )";
   s_ "        ]";
   s_ "    )";
   s_ ")"].

Example C51_readme_tree : exists rs t, rules_from_peg 400 basic_text = Ok rs /\ parse 100 (s_ "a2Z") rs = Ok t /\
  pretty false 0 (show_node t) = join_lines readme_tree.
Proof. do 2 eexists. split; [vm_compute; reflexivity|]. split; vm_compute; reflexivity. Qed.

Example C51_nonvacuous : exists er, rules_from_peg 300 (s_ "main = (" ++ nl) = Err (EParser er) /\
  display_error (EParser er) =
    s_ "Parser(Error { pos: Possition { n: 9, row: 1, col: 0, start_line: 9 }, descr: ""expected literal: <!>"", line_before: """", line_after: """", parsing_rules: [], priority: Normal })".
Proof. eexists. split; [vm_compute; reflexivity|vm_compute; reflexivity]. Qed.
