(** Records of fixed width: C120. *)
From Verif Require Import Base ModelAst ModelParser ModelPegRules ModelPeg SpecPeg SpecPos SpecApi SpecPegApi SpecDocs SpecReport SpecTable SpecRecords.
From Verif Require Import ProofParser ProofRecords.

(* ---- C120 -------------------------------------------------------------------------------- *)

(** Texts made of records are accepted, and the tree has the records in order, char by char. *)
Theorem C120_records_are_accepted : forall fs, fs <> [] -> forall l debug, Forall (is_record fs) l -> ascii (concat l) ->
  exists fuel, parse_with_debug fuel (concat l) (record_rules fs) debug = Ok (records_tree l).
Proof. exact accepts_records. Qed.
Print Assumptions C120_records_are_accepted.

(** Nothing else is accepted. *)
Theorem C120_only_records_are_accepted : forall fs, fs <> [] -> forall fuel s debug ast, ascii s -> parse_with_debug fuel s (record_rules fs) debug = Ok ast ->
  exists l, Forall (is_record fs) l /\ s = concat l /\ ast = records_tree l.
Proof. exact only_records. Qed.
Print Assumptions C120_only_records_are_accepted.

(** A text is one list of records only, ... *)
Theorem C120_a_text_is_one_list : forall fs, fs <> [] -> forall l l', Forall (is_record fs) l -> Forall (is_record fs) l' -> concat l = concat l' -> l = l'.
Proof. exact one_list. Qed.
Print Assumptions C120_a_text_is_one_list.

(** ... and [compact] gives each record in one piece. *)
Theorem C120_compact_gives_the_records : forall fs, fs <> [] -> forall l, Forall (is_record fs) l ->
  compact (records_tree l) = Rule main (map (fun w => Rule nm_record [Val w]) l).
Proof. exact records_compact. Qed.
Print Assumptions C120_compact_gives_the_records.

(** Every other text gives an error that names the class of the first column that is not filled, after one entry of the rule for each record
    read and one for the record that does not fit. *)
Theorem C120_the_first_wrong_column_is_named : forall fs l gs f w rest s debug, stops_at fs l gs f w rest s -> w ++ rest <> [] -> ascii s ->
  exists fuel, parse_with_debug fuel s (record_rules fs) debug =
    Err (error_at s debug Normal (Report (class_msg (fst f) (snd f)) (tl rest) (main :: repeat nm_record (S (length l))))).
Proof. exact rejects_records. Qed.
Print Assumptions C120_the_first_wrong_column_is_named.

(** There is no other text. *)
Theorem C120_every_text_stops_somewhere : forall fs, fs <> [] -> forall s, exists l gs f w rest, stops_at fs l gs f w rest s.
Proof. exact every_text. Qed.
Print Assumptions C120_every_text_stops_somewhere.

(** The place of an error tells the record and the column: [length l] records are right, and [length gs] columns of the next one. *)
Theorem C120_the_place_tells_record_and_column : forall fs, fs <> [] -> forall fuel s debug er, ascii s -> parse_with_debug fuel s (record_rules fs) debug = Err er ->
  exists l gs f w rest, stops_at fs l gs f w rest s /\ e_descr er = class_msg (fst f) (snd f) /\
    (rest <> [] -> pn (e_pos er) = length l * length fs + length gs + 1) /\ (rest = [] -> pn (e_pos er) = length s) /\ length gs < length fs.
Proof.
  intros fs NE fuel s debug er A H. destruct (record_errors fs NE fuel s debug er A H) as (l & gs & f & w & rest & ST & N & ->).
  exists l, gs, f, w, rest. split; [exact ST|]. split; [reflexivity|].
  rewrite (place_of_stop fs l gs f w rest s debug _ _ ST). split; [|split].
  - intros R. destruct rest; [contradiction|]. reflexivity.
  - intros ->. destruct ST as (FL & _ & W & _ & ->). rewrite app_nil_r, app_length, (widths fs l FL), (record_length _ _ W), Nat.add_0_r. reflexivity.
  - destruct ST as (_ & (hs & ->) & _). rewrite app_length. cbn. lia.
Qed.
Print Assumptions C120_the_place_tells_record_and_column.

(** If every char of the text can stand in every column, the text is accepted iff its length is a multiple of the width. *)
Theorem C120_only_the_length_matters : forall fs s debug, fs <> [] -> ascii s -> Forall (fun f => forall c, In c s -> fits f c) fs ->
  ((exists fuel ast, parse_with_debug fuel s (record_rules fs) debug = Ok ast) <-> exists k, length s = k * length fs).
Proof.
  intros fs s debug NE A F. rewrite <- (any_records fs NE s F). split.
  - intros (fuel & ast & H). destruct (only_records fs NE fuel s debug ast A H) as (l & FL & E & _). eauto.
  - intros (l & FL & ->). destruct (accepts_records fs NE l debug FL A) as (fuel & H). eauto.
Qed.
Print Assumptions C120_only_the_length_matters.

(** Without columns the parse never ends. *)
Theorem C120_no_columns_refuted : forall fuel s debug, ascii s -> parse_with_debug fuel s (record_rules []) debug = Fuel.
Proof. exact no_columns. Qed.
Print Assumptions C120_no_columns_refuted.

(** A letter and two digits, from a grammar text; the third record has a wrong char in its second column. *)
Definition record_columns : list column := [([], [(97, 122)]); ([], [(48, 57)]); ([], [(48, 57)])]%N.
Definition record_grammar : str := s_ "main = record*" ++ nl ++ s_ "record = [a-z] [0-9] [0-9]" ++ nl.

Example C120_nonvacuous : exists rs er, rules_from_peg 400 record_grammar = Ok rs /\
  parse 60 (s_ "a12b34") rs = Ok (records_tree [s_ "a12"; s_ "b34"]) /\ parse 60 (s_ "a12b34") (record_rules record_columns) = parse 60 (s_ "a12b34") rs /\
  parse 60 (s_ "a12b34cx5") rs = Err er /\ pn (e_pos er) = 2 * 3 + 1 + 1 /\
  stops_at record_columns [s_ "a12"; s_ "b34"] [([], [(97, 122)])]%N ([], [(48, 57)])%N (s_ "c") (s_ "x5") (s_ "a12b34cx5").
Proof.
  do 2 eexists. split; [vm_compute; reflexivity|]. split; [vm_compute; reflexivity|]. split; [vm_compute; reflexivity|].
  split; [vm_compute; reflexivity|]. split; [vm_compute; reflexivity|].
  assert (D : forall lo hi c, (lo <= c)%N -> (c <= hi)%N -> fits ([], [(lo, hi)]) c) by (intros lo hi c H1 H2; apply match_char_iff; cbn; apply N.leb_le in H1, H2; rewrite H1, H2; reflexivity).
  assert (R : forall fs w, length fs = length w -> (forall f c, In (f, c) (combine fs w) -> match_char (fst f) (snd f) c = true) -> is_record fs w).
  { induction fs as [|f fs IH]; intros [|c w] L H; try discriminate L; constructor.
    - apply match_char_iff. apply H. left. reflexivity.
    - apply IH; [injection L; auto|]. intros g x X. apply H. right. exact X. }
  split; [constructor; [|constructor; [|constructor]]; (apply R; [reflexivity|]; intros f c H; cbn in H; intuition (subst; congruence || idtac));
    match goal with H : (_, _) = (_, _) |- _ => injection H as <- <-; reflexivity end|].
  split; [eexists; reflexivity|]. split; [constructor; [apply D; vm_compute; discriminate|constructor]|].
  split; [|reflexivity]. intros F. apply match_char_iff in F. vm_compute in F. discriminate.
Qed.
