(** Properties: reading tables. *)
From Verif Require Import Base ModelAst ModelParser ModelPeg SpecPeg SpecPos SpecApi SpecReport SpecStuck SpecTable.
From Verif Require Import ProofParser ProofEngine ProofApi ProofReport ProofTable.

(** * C65 tables of fields are read exactly *)

(** The text of a table is accepted, and the tree is that of the table ... *)
Theorem C65_tables_are_accepted : forall cs rg F R, ~ in_class cs rg F -> ~ in_class cs rg R -> F <> R ->
  forall rows debug, is_table cs rg rows -> ascii (table_text F R rows) ->
  exists fuel, parse_with_debug fuel (table_text F R rows) (table_rules cs rg F R) debug = Ok (table_tree by_chars F R rows).
Proof. exact accepts. Qed.

(** ... and nothing else is accepted. *)
Theorem C65_only_tables_are_accepted : forall cs rg F R, ~ in_class cs rg F -> ~ in_class cs rg R -> F <> R ->
  forall fuel s debug ast, ascii s -> parse_with_debug fuel s (table_rules cs rg F R) debug = Ok ast ->
  exists rows, is_table cs rg rows /\ s = table_text F R rows /\ ast = table_tree by_chars F R rows.
Proof. exact only_tables. Qed.

(** A char that cannot be in a table is reported just after it, as a missing row separator; the trace lists the rows and fields before it. *)
Theorem C65_strange_chars_are_reported : forall cs rg F R, ~ in_class cs rg F -> ~ in_class cs rg R -> F <> R ->
  forall rows x rest debug, is_table cs rg rows -> ~ table_char cs rg F R x -> ascii (table_text F R rows ++ x :: rest) ->
  exists fuel, parse_with_debug fuel (table_text F R rows ++ x :: rest) (table_rules cs rg F R) debug =
    Err (error_at (table_text F R rows ++ x :: rest) debug Normal (Report (lit_msg [R]) rest (names (table_tree by_chars F R rows)))).
Proof. exact rejects. Qed.

(** There is no other text. *)
Theorem C65_every_text_starts_with_a_table : forall cs rg F R s, exists rows rest, is_table cs rg rows /\ s = table_text F R rows ++ rest /\
  match rest with [] => True | x :: _ => ~ table_char cs rg F R x end.
Proof.
  intros cs rg F R s. destruct (span cs rg F R s) as [FS|(g & x & rest & -> & FG & NX)].
  - destruct (table_of cs rg F R s FS) as (rows & T & ->). exists rows, []. rewrite app_nil_r. auto.
  - destruct (table_of cs rg F R g FG) as (rows & T & ->). exists rows, (x :: rest). auto.
Qed.

(** A text is the text of one table only. *)
Theorem C65_a_text_is_one_table : forall cs rg F R, ~ in_class cs rg F -> ~ in_class cs rg R -> F <> R ->
  forall rows rows', is_table cs rg rows -> is_table cs rg rows' -> table_text F R rows = table_text F R rows' -> rows = rows'.
Proof. exact one_table. Qed.

(** [compact] gives each field in one piece, except empty fields, which have no value; it tells which table it was. *)
Theorem C65_compact_gives_the_fields : forall F R rows, compact (table_tree by_chars F R rows) = table_tree in_one F R rows /\
  forall rows', table_tree in_one F R rows' = table_tree in_one F R rows -> rows' = rows.
Proof. intros F R rows. split; [apply table_compact|]. intros rows'. apply table_tree_inj. exact in_one_inj. Qed.

(** A field takes the separators that are chars of the class. *)
Theorem C65_separator_in_the_class_refuted : exists cs rg F R rows, F <> R /\ ~ in_class cs rg R /\ is_table cs rg rows /\ ascii (table_text F R rows) /\
  exists fuel ast, parse fuel (table_text F R rows) (table_rules cs rg F R) = Ok ast /\ ast <> table_tree by_chars F R rows.
Proof.
  exists (s_ "ab,"), [], 44%N, 10%N, [[s_ "a"; s_ "b"]]. split; [discriminate|].
  split; [intros [H|(lo & hi & [] & _)]; cbn in H; intuition discriminate|].
  split; [split; [discriminate|]; repeat constructor; cbn; auto; discriminate|]. split; [repeat constructor|].
  exists 20. eexists. split; [vm_compute; reflexivity|]. vm_compute. discriminate.
Qed.

(** Two rows of a CSV file, read with rules written as a grammar text. *)
Definition csv_grammar : str := s_ "main = row (""\n"" row)*
row = field (',' field)*
field = [ a-z0-9]*
".

Definition csv_rules : rules := table_rules (s_ " ") [(97, 122); (48, 57)]%N 44%N ch_nl.

Example C65_nonvacuous :
  (exists rs, rules_from_peg 400 csv_grammar = Ok rs /\ forall n, In n [main; nm_row; nm_field; s_ "other"] -> rules_get rs n = rules_get csv_rules n) /\
  ~ in_class (s_ " ") [(97, 122); (48, 57)]%N 44%N /\ ~ in_class (s_ " ") [(97, 122); (48, 57)]%N ch_nl /\ 44%N <> ch_nl /\
  is_table (s_ " ") [(97, 122); (48, 57)]%N [[s_ "one"; s_ "1"]; [[]; s_ "2 3"]] /\
  table_text 44%N ch_nl [[s_ "one"; s_ "1"]; [[]; s_ "2 3"]] = s_ "one,1
,2 3" /\
  (exists t, parse 99 (s_ "one,1
,2 3") csv_rules = Ok t /\ compact t = Rule main
     [Rule nm_row [Rule nm_field [Val (s_ "one")]; Val (s_ ","); Rule nm_field [Val (s_ "1")]]; Val [ch_nl];
      Rule nm_row [Rule nm_field []; Val (s_ ","); Rule nm_field [Val (s_ "2 3")]]]) /\
  (exists er, parse 99 (s_ "one,1
,2?3") csv_rules = Err er /\ e_pos er = Pos 9 1 3 6).
Proof.
  split; [eexists; split; [vm_compute; reflexivity|]; intros n [<-|[<-|[<-|[<-|[]]]]]; vm_compute; reflexivity|].
  assert (X : forall c, match_char (s_ " ") [(97, 122); (48, 57)]%N c = false -> ~ in_class (s_ " ") [(97, 122); (48, 57)]%N c)
    by (intros c H C; apply match_char_iff in C; congruence).
  split; [apply X; reflexivity|]. split; [apply X; reflexivity|]. split; [discriminate|].
  split; [split; [discriminate|]; repeat first [discriminate|apply match_char_iff; reflexivity|constructor]|].
  split; [reflexivity|]. split; [eexists; split; vm_compute; reflexivity|]. eexists; split; vm_compute; reflexivity.
Qed.

Print Assumptions C65_tables_are_accepted.
Print Assumptions C65_only_tables_are_accepted.
Print Assumptions C65_strange_chars_are_reported.
Print Assumptions C65_every_text_starts_with_a_table.
Print Assumptions C65_a_text_is_one_table.
Print Assumptions C65_compact_gives_the_fields.
Print Assumptions C65_separator_in_the_class_refuted.
