(** Properties: CSV files. *)
From Verif Require Import Base ModelAst ModelParser ModelPeg ModelCost SpecPeg SpecPos SpecApi SpecWf SpecTable SpecCsv.
From Verif Require Import ProofParser ProofEngine ProofApi ProofCsv ProofCsvCost ProofCsvError Examples.

(** * C110 a five-line grammar reads CSV files *)

(** The grammar text gives the rules, here with the usual chars: double quote, comma and new line. *)
Theorem C110_grammar_text : rules_from_peg 400 csv_grammar = Ok (csv_rules 34 44 10)%N.
Proof. exact csv_reads. Qed.
Print Assumptions C110_grammar_text.

(** Accepted are exactly the texts of tables, with the tree of the table. *)
Theorem C110_accepted_texts : forall Q F R, Q <> F -> Q <> R -> F <> R -> forall s debug, ascii s -> forall ast,
  (exists fuel, parse_with_debug fuel s (csv_rules Q F R) debug = Ok ast) <->
  exists rows, csv_ok Q F R rows /\ s = csv_text Q F R rows /\ ast = csv_tree Q F R rows.
Proof. exact csv_accepts. Qed.
Print Assumptions C110_accepted_texts.

(** All other texts are rejected with a plain error. *)
Theorem C110_other_texts_are_rejected : forall Q F R, Q <> F -> Q <> R -> F <> R -> forall s debug, ascii s ->
  (forall rows, csv_ok Q F R rows -> s <> csv_text Q F R rows) ->
  exists fuel er, parse_with_debug fuel s (csv_rules Q F R) debug = Err er /\ e_priority er = Normal.
Proof.
  intros Q F R QF QR FR s debug A N. destruct (csv_decides Q F R QF QR FR s debug A) as [(fuel & ast & P)|X]; [|exact X]. exfalso.
  destruct (proj1 (csv_accepts Q F R QF QR FR s debug A ast) (ex_intro _ fuel P)) as (rows & K & E & _). exact (N rows K E).
Qed.
Print Assumptions C110_other_texts_are_rejected.

(** A text is the text of one table only, and a tree the tree of one table only. *)
Theorem C110_one_reading : forall Q F R, Q <> F -> Q <> R -> F <> R -> forall rows rows',
  (csv_ok Q F R rows -> csv_ok Q F R rows' -> csv_text Q F R rows = csv_text Q F R rows' -> rows = rows') /\
  (csv_tree Q F R rows = csv_tree Q F R rows' -> rows = rows').
Proof. intros Q F R QF QR FR rows rows'. split; [exact (csv_text_inj Q F R QF QR FR rows rows')|exact (csv_tree_inj Q F R rows rows')]. Qed.
Print Assumptions C110_one_reading.

(** Every table of strings, with any chars in them, can be written so that it comes back: with quotes around all fields or only where they are needed. *)
Theorem C110_every_table_comes_back : forall Q F R, Q <> F -> Q <> R -> F <> R -> forall table, table <> [] -> Forall (fun row => row <> []) table ->
  forall style, style = Quoted \/ style = write Q F R ->
  let rows := map (map style) table in
  contents rows = table /\
  (ascii (csv_text Q F R rows) -> forall debug, exists fuel, parse_with_debug fuel (csv_text Q F R rows) (csv_rules Q F R) debug = Ok (csv_tree Q F R rows)).
Proof.
  intros Q F R QF QR FR table NE K style ST rows. destruct (written_tables Q F R table NE K) as (K1 & C1 & K2 & C2).
  assert (X : csv_ok Q F R rows /\ contents rows = table) by (destruct ST as [->| ->]; split; assumption). destruct X as [KR CR].
  split; [exact CR|]. intros A debug. apply (csv_accepts Q F R QF QR FR _ debug A). exists rows. split; [exact KR|]. split; reflexivity.
Qed.
Print Assumptions C110_every_table_comes_back.

(** Fields are quoted only where they have to be. *)
Theorem C110_quotes_where_needed : forall Q F R w,
  (write Q F R w = Bare w <-> cell_ok Q F R (Bare w)) /\ (write Q F R w = Quoted w <-> exists x, In x w /\ (x = Q \/ x = F \/ x = R)).
Proof. exact write_where_needed. Qed.
Print Assumptions C110_quotes_where_needed.

(** All texts, right or wrong, take linear time. *)
Theorem C110_linear : forall Q F R, Q <> F -> Q <> R -> F <> R -> forall s fuel debug, ascii s ->
  parse_with_debug fuel s (csv_rules Q F R) debug <> Fuel ->
  parse_calls fuel s (csv_rules Q F R) debug <= 47 * length s + 67.
Proof. exact csv_calls. Qed.
Print Assumptions C110_linear.

(** The error stands just behind the first mistake, which follows the text of a table: a quote in a field without quotes, a quote
    that is never closed, or a char behind the closing quote that is no separator.  It says which char was expected there. *)
Theorem C110_errors_show_the_mistake : forall Q F R, Q <> F -> Q <> R -> F <> R -> forall fuel s debug er, ascii s ->
  parse_with_debug fuel s (csv_rules Q F R) debug = Err er ->
  exists rows cs c x r, csv_ok Q F R (rows ++ [cs ++ [c]]) /\ mistake Q F R c x r /\
    let pre := csv_text Q F R (rows ++ [cs ++ [c]]) ++ [x] in
    s = pre ++ r /\ e_pos er = pos_of pre /\ e_descr er = s_ "expected literal: <" ++ [R] ++ s_ ">" /\
    e_line_before er = tail_after is_nl pre /\ e_line_after er = until_eol r /\ e_priority er = Normal.
Proof. exact csv_error_fields. Qed.
Print Assumptions C110_errors_show_the_mistake.

(** What is called a mistake is one: no such text is the text of a table.  And a text has one mistake only in this sense. *)
Theorem C110_mistakes : forall Q F R, Q <> F -> Q <> R -> F <> R ->
  forall rows cs c x r, csv_ok Q F R (rows ++ [cs ++ [c]]) -> mistake Q F R c x r ->
  let s := csv_text Q F R (rows ++ [cs ++ [c]]) ++ x :: r in
  (forall rows', csv_ok Q F R rows' -> s <> csv_text Q F R rows') /\
  (forall rows' cs' c' x' r', csv_ok Q F R (rows' ++ [cs' ++ [c']]) -> mistake Q F R c' x' r' ->
     s = csv_text Q F R (rows' ++ [cs' ++ [c']]) ++ x' :: r' -> rows ++ [cs ++ [c]] = rows' ++ [cs' ++ [c']] /\ x = x' /\ r = r').
Proof.
  intros Q F R QF QR FR rows cs c x r K M s. split; [exact (mistakes_are_wrong Q F R QF QR FR rows cs c x r K M)|].
  intros rows' cs' c' x' r' K' M' E. exact (mistakes_are_unique Q F R QF QR FR rows cs c x r rows' cs' c' x' r' K M K' M' E).
Qed.
Print Assumptions C110_mistakes.

(** Three rows: with quotes in a field, a new line in a field, and an empty field; a quote without an end is an error. *)
Example C110_nonvacuous :
  let Q := 34%N in let F := 44%N in let R := 10%N in
  let table := [[s_ "id"; s_ "say"]; [s_ "1"; s_ "he said ""no"""]; [s_ "two" ++ [ch_nl] ++ s_ "lines"; []]] in
  let s := s_ "id,say" ++ [ch_nl] ++ s_ "1,""he said """"no""""""" ++ [ch_nl] ++ s_ """two" ++ [ch_nl] ++ s_ "lines""," in
  let rows := map (map (write Q F R)) table in
  csv_text Q F R rows = s /\ csv_ok Q F R rows /\ ascii s /\ contents rows = table /\
  parse 100 s (csv_rules Q F R) = Ok (csv_tree Q F R rows) /\
  (exists er, parse 100 (s_ "a,""b") (csv_rules Q F R) = Err er /\ e_priority er = Normal /\ e_pos er = Pos 3 0 3 0) /\
  mistake Q F R (Bare []) Q (s_ "b") /\ mistake Q F R (Bare (s_ "a")) Q (s_ "b""") /\ mistake Q F R (Quoted (s_ "a")) 98%N (s_ "c").
Proof.
  cbv zeta. split; [vm_compute; reflexivity|]. split; [apply written_tables; [discriminate|repeat constructor; discriminate]|].
  split; [apply Forall_forall; intros c I; vm_compute in I; repeat (destruct I as [<-|I]; [reflexivity|]); destruct I|]. split; [vm_compute; reflexivity|].
  split; [vm_compute; reflexivity|]. split; [eexists; split; [vm_compute; reflexivity|split; reflexivity]|].
  split; [split; [reflexivity|right; exists (s_ "b"); reflexivity]|]. split; [split; [reflexivity|left; discriminate]|]. repeat split; discriminate.
Qed.
