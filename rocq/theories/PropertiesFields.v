(** Properties: texts that are made of fields with a separator between them. *)
From Verif Require Import Base ModelAst ModelParser ModelCost SpecPeg SpecPos SpecApi SpecPower SpecLines SpecTable SpecFields.
From Verif Require Import ProofParser ProofEngine ProofPower ProofLines ProofFields ProofFields2 Examples.

(** * C118 fields between separators can be checked one by one *)

(** [main = field ('c' field)*], where [field] does not ask for [c], accepts the texts whose fields, taken out and parsed one by one, are
    accepted; and the tree has what the fields give, in order, with the separators between. *)
Theorem C118_fields_one_by_one : forall rs e c, sane_rules rs -> sane e -> main_unused rs [e] -> stranger (grammar_of rs) c e ->
  forall s debug ast, ascii s ->
  ((exists fuel, parse_with_debug fuel s (field_rules rs e c) debug = Ok ast) <->
   exists fields kss, fields <> [] /\ s = join c fields /\ Forall2 (reads rs e) fields kss /\ ast = Rule main (join_kids c kss)).
Proof.
  intros rs e c SR SE MU ST s debug ast A. refine (iff_trans (fields_accepted rs e c SR SE MU ST [] (or_introl eq_refl) s debug ast A) _). split.
  - intros (fs & kss & Z & F & [(E & X) | (X & _)]); [|discriminate]. exists fs, kss. repeat split; assumption.
  - intros (fs & kss & Z & E & F & X). exists fs, kss. split; [exact Z|]. split; [exact F|]. left. split; assumption.
Qed.
Print Assumptions C118_fields_one_by_one.

(** With [main = field ('c' field)* 'c'?], one separator may follow the last field. It is seen as such only if [field] rejects the empty
    text; otherwise it is followed by an empty field, as without the option. *)
Theorem C118_a_separator_at_the_end : forall rs e c, sane_rules rs -> sane e -> main_unused rs [e] -> stranger (grammar_of rs) c e ->
  forall s debug ast, ascii s ->
  ((exists fuel, parse_with_debug fuel s (trail_rules rs e c) debug = Ok ast) <->
   (exists fuel, parse_with_debug fuel s (field_rules rs e c) debug = Ok ast) \/
   quiet rs e [] /\ ~ takes (with_main rs e) [] /\
   exists s' ks, s = s' ++ [c] /\ (exists fuel, parse fuel s' (field_rules rs e c) = Ok (Rule main ks)) /\ ast = Rule main (ks ++ [Val [c]])).
Proof.
  intros rs e c SR SE MU ST s debug ast A. rewrite (C118_fields_one_by_one rs e c SR SE MU ST s debug ast A).
  refine (iff_trans (fields_accepted rs e c SR SE MU ST [_] (or_intror eq_refl) s debug ast A) _). split.
  - intros (fs & kss & Z & F & [(E & X) | (_ & Q & NT & E & X)]); [left; exists fs, kss; repeat split; assumption|right].
    split; [exact Q|]. split; [exact NT|]. exists (join c fs), (join_kids c kss). split; [exact E|]. split; [|exact X]. rewrite E in A. apply Forall_app in A. destruct A as [A _].
    apply (C118_fields_one_by_one rs e c SR SE MU ST (join c fs) false _ A). exists fs, kss. repeat split; assumption.
  - intros [(fs & kss & Z & E & F & X) | (Q & NT & s' & ks & E & P & X)]; [exists fs, kss; split; [exact Z|]; split; [exact F|]; left; split; assumption|].
    rewrite E in A. apply Forall_app in A. destruct A as [A _]. apply (C118_fields_one_by_one rs e c SR SE MU ST s' false _ A) in P.
    destruct P as (fs & kss & Z & Y & F & W). injection W as ->. exists fs, kss. split; [exact Z|]. split; [exact F|]. right. rewrite <- Y. repeat split; assumption.
Qed.
Print Assumptions C118_a_separator_at_the_end.

(** Both ways at once: with [main = (field ('f' field)* 'r')*], where [field] asks neither for [f] nor for [r], a text is accepted iff it is made of
    rows of fields, each of which is accepted when parsed alone. *)
Theorem C118_rows_of_fields : forall rs e f r, sane_rules rs -> sane e -> main_unused rs [e] -> stranger (grammar_of rs) f e -> stranger (grammar_of rs) r e -> f <> r ->
  let row := And [e; rep0 (And [lit [f]; e]) 0] in quiet rs row [] ->
  forall s debug ast, ascii s ->
  ((exists fuel, parse_with_debug fuel s (line_rules rs row r) debug = Ok ast) <->
   exists rows ksss, s = ended r (map (join f) rows) /\ Forall2 (fun fields kss => fields <> [] /\ Forall2 (reads rs e) fields kss) rows ksss /\
     ast = Rule main (flat_map (fun kss => join_kids f kss ++ [Val [r]]) ksss)).
Proof.
  intros rs e f r SR SE MU SF SRr D row Q s debug ast A. destruct (row_fits rs e f r SE MU SRr D) as (S1 & M1 & T1).
  rewrite (accepted rs row r SR S1 M1 T1 s debug ast A). split.
  - intros (_ & ls & kss & -> & F & ->). destruct (rows_of rs e f r SR SE MU SF ls kss A F) as (rows & ksss & -> & -> & H). exists rows, ksss.
    split; [reflexivity|]. split; [exact H|]. unfold kids. rewrite flat_map_concat_map, map_map, <- flat_map_concat_map. reflexivity.
  - intros (rows & ksss & -> & F & ->). split; [exact Q|]. exists (map (join f) rows), (map (join_kids f) ksss). split; [reflexivity|].
    split; [exact (of_rows rs e f r SR SE MU SF rows ksss A F)|]. unfold kids. rewrite (flat_map_concat_map _ (map _ _)), map_map, <- flat_map_concat_map. reflexivity.
Qed.
Print Assumptions C118_rows_of_fields.

(** Whether the parse ever returns is settled by the first field that is not accepted: it returns iff it does on that field alone. What
    follows that field plays no part. With the separator at the end it is the same. *)
Theorem C118_one_field_decides_the_end : forall rs e c, sane_rules rs -> sane e -> main_unused rs [e] -> stranger (grammar_of rs) c e ->
  forall fields l tail, ascii (ended c fields ++ l ++ tail) -> Forall (takes (with_main rs e)) fields -> ~ In c l -> ~ takes (with_main rs e) l ->
  tail = [] \/ (exists t, tail = c :: t) ->
  (finishes (field_rules rs e c) (ended c fields ++ l ++ tail) <-> finishes (with_main rs e) l) /\
  (finishes (trail_rules rs e c) (ended c fields ++ l ++ tail) <-> finishes (with_main rs e) l).
Proof.
  intros rs e c SR SE MU ST fields l tail A F N B T. split.
  - exact (fields_stop rs e c SR SE MU ST [] (or_introl eq_refl) fields l tail A F T N B).
  - exact (fields_stop rs e c SR SE MU ST [_] (or_intror eq_refl) fields l tail A F T N B).
Qed.
Print Assumptions C118_one_field_decides_the_end.

(** The same for messages: the first field that is not accepted gives its message, as far into that field as alone. *)
Theorem C118_messages_of_one_field : forall rs e c, sane_rules rs -> sane e -> main_unused rs [e] -> stranger (grammar_of rs) c e ->
  forall fields l tail m k, ascii (ended c fields ++ l ++ tail) -> Forall (takes (with_main rs e)) fields -> ~ In c l -> ~ takes (with_main rs e) l ->
  tail = [] \/ (exists t, tail = c :: t) ->
  (complains (field_rules rs e c) (ended c fields ++ l ++ tail) m (length (ended c fields) + k) <-> complains (with_main rs e) l m k) /\
  (complains (trail_rules rs e c) (ended c fields ++ l ++ tail) m (length (ended c fields) + k) <-> complains (with_main rs e) l m k).
Proof.
  intros rs e c SR SE MU ST fields l tail m k A F N B T. split.
  - exact (fields_complain rs e c SR SE MU ST [] (or_introl eq_refl) fields l tail m k A F T N B).
  - exact (fields_complain rs e c SR SE MU ST [_] (or_intror eq_refl) fields l tail m k A F T N B).
Qed.
Print Assumptions C118_messages_of_one_field.

(** A field that is rejected without a message, with a separator after it: the error stands in that field, separator included, and is the
    same whatever fields follow, and whether or not a separator may stand at the end. *)
Theorem C118_errors_stand_in_the_first_bad_field : forall rs e c, sane_rules rs -> sane e -> main_unused rs [e] -> stranger (grammar_of rs) c e ->
  forall rules, rules = field_rules rs e c \/ rules = trail_rules rs e c ->
  forall fields l, ascii (ended c (fields ++ [l])) -> Forall (takes (with_main rs e)) fields -> ~ In c l -> ~ takes (with_main rs e) l -> quiet rs e l ->
  exists p m d tr, l ++ [c] = p ++ m /\ forall t debug, ascii t -> exists fuel,
    parse_with_debug fuel (ended c fields ++ l ++ c :: t) rules debug =
    Err (PError (pos_of (ended c fields ++ p)) d (tail_after is_nl (ended c fields ++ p)) (until_eol (m ++ t)) (if debug then tr else []) Normal).
Proof.
  intros rs e c SR SE MU ST rules RR fields l A F N B Q. unfold ended in A. rewrite flat_map_app in A. cbn [flat_map] in A. rewrite app_nil_r in A. destruct RR as [-> | ->].
  - exact (fields_error rs e c SR SE MU ST [] (or_introl eq_refl) fields l A F N B Q).
  - exact (fields_error rs e c SR SE MU ST [_] (or_intror eq_refl) fields l A F N B Q).
Qed.
Print Assumptions C118_errors_stand_in_the_first_bad_field.

(** If it is the last field that is rejected, the error stands in it. With a separator allowed at the end, that field must not be an empty
    one after others: such a text may be accepted. *)
Theorem C118_errors_in_the_last_field : forall rs e c, sane_rules rs -> sane e -> main_unused rs [e] -> stranger (grammar_of rs) c e ->
  forall rules fields l, rules = field_rules rs e c \/ rules = trail_rules rs e c /\ (l <> [] \/ fields = []) ->
  ascii (ended c fields ++ l) -> Forall (takes (with_main rs e)) fields -> ~ In c l -> ~ takes (with_main rs e) l -> quiet rs e l ->
  exists p m d tr, l = p ++ m /\ forall debug, exists fuel,
    parse_with_debug fuel (ended c fields ++ l) rules debug =
    Err (PError (pos_of (ended c fields ++ p)) d (tail_after is_nl (ended c fields ++ p)) (until_eol m) (if debug then tr else []) Normal).
Proof.
  intros rs e c SR SE MU ST rules fields l RR A F N B Q. destruct RR as [-> | [-> Z]].
  - exact (fields_last_error rs e c SR SE MU ST [] (or_introl eq_refl) fields l A F (or_intror (or_intror eq_refl)) N B Q).
  - apply (fields_last_error rs e c SR SE MU ST [_] (or_intror eq_refl) fields l A F); [tauto|exact N|exact B|exact Q].
Qed.
Print Assumptions C118_errors_in_the_last_field.

(** Settings in a row, as in [a=1,bc=23]: [field = name '=' number], [name = [a-z]+], [number = [0-9]+]. *)
Definition item : expr := And [ref_rule (s_ "name"); lit (s_ "="); ref_rule (s_ "number")].
Definition item_rules : rules := rules_macro [(s_ "name", rep0 (Simple (Match [] [(97, 122)%N])) 1); (s_ "number", rep0 (Simple (Match [] [(48, 57)%N])) 1)].

Lemma item_fits : sane_rules item_rules /\ sane item /\ main_unused item_rules [item] /\ stranger (grammar_of item_rules) 44%N item.
Proof.
  split; [apply sane_rules_all; repeat constructor|]. split; [repeat constructor|]. split; [apply main_unused_all; reflexivity|apply stranger_all; reflexivity].
Qed.

Lemma not_taken : forall s rs, (exists er, parse 100 s rs = Err er) -> ~ takes rs s.
Proof.
  intros s rs [er E] [fuel [ast T]]. destruct (Nat.le_ge_cases fuel 100) as [L|L].
  - rewrite (parse_mono fuel 100 s _ L) in E by (rewrite T; discriminate). congruence.
  - rewrite (parse_mono 100 fuel s _ L) in T by (rewrite E; discriminate). congruence.
Qed.

Example C118_nonvacuous : exists fields kss l,
  (sane_rules item_rules /\ sane item /\ main_unused item_rules [item] /\ stranger (grammar_of item_rules) 44%N item) /\
  join 44%N fields = s_ "a=1,bc=23" /\ Forall2 (reads item_rules item) fields kss /\ Forall (takes (with_main item_rules item)) fields /\
  parse 100 (s_ "a=1,bc=23") (field_rules item_rules item 44%N) = Ok (Rule main (join_kids 44%N kss)) /\
  quiet item_rules item [] /\ ~ takes (with_main item_rules item) [] /\
  parse 100 (s_ "a=1,bc=23,") (trail_rules item_rules item 44%N) = Ok (Rule main (join_kids 44%N kss ++ [Val (s_ ",")])) /\
  ~ takes (field_rules item_rules item 44%N) (s_ "a=1,bc=23,") /\
  l = s_ "d:4" /\ ~ takes (with_main item_rules item) l /\ quiet item_rules item l /\
  quiet item_rules (And [item; rep0 (And [lit (s_ ","); item]) 0]) [] /\ stranger (grammar_of item_rules) ch_nl item /\
  (exists er, parse 100 (s_ "a=1,bc=23,d:4,e=?") (field_rules item_rules item 44%N) = Err er /\ pn (e_pos er) = 12).
Proof.
  exists [s_ "a=1"; s_ "bc=23"]. eexists. exists (s_ "d:4"). split; [exact item_fits|]. split; [reflexivity|].
  split; [constructor; [exists 100; vm_compute; reflexivity|constructor; [exists 100; vm_compute; reflexivity|constructor]]|].
  split; [repeat constructor; exists 100; eexists; vm_compute; reflexivity|]. split; [vm_compute; reflexivity|].
  split; [exists 100; vm_compute; reflexivity|]. split; [apply not_taken; eexists; vm_compute; reflexivity|]. split; [vm_compute; reflexivity|].
  split; [apply not_taken; eexists; vm_compute; reflexivity|]. split; [reflexivity|]. split; [apply not_taken; eexists; vm_compute; reflexivity|].
  split; [exists 100; vm_compute; reflexivity|]. split; [exists 100; vm_compute; reflexivity|]. split; [apply stranger_all; reflexivity|].
  eexists. split; [vm_compute; reflexivity|reflexivity].
Qed.

(** The field must not ask for the separator: with [field = "a," / "a" / "b"], the fields [a] and [b] are accepted, but not the text [a,b]. *)
Theorem C118_fields_that_take_separators_refuted :
  let e := Or [lit (s_ "a,"); lit (s_ "a"); lit (s_ "b")] in
  reads [] e (s_ "a") [Val (s_ "a")] /\ reads [] e (s_ "b") [Val (s_ "b")] /\ ~ takes (field_rules [] e 44%N) (join 44%N [s_ "a"; s_ "b"]).
Proof.
  split; [exists 100; vm_compute; reflexivity|]. split; [exists 100; vm_compute; reflexivity|]. apply not_taken. eexists. vm_compute. reflexivity.
Qed.
Print Assumptions C118_fields_that_take_separators_refuted.

(** And [main = (field ','?)*] is not a way to write a list: it accepts fields with nothing between them. *)
Theorem C118_optional_separators_refuted :
  takes (with_main item_rules (rep0 (And [item; rep2 (lit (s_ ",")) 0 1]) 0)) (s_ "a=1b=2") /\ ~ takes (field_rules item_rules item 44%N) (s_ "a=1b=2") /\
  ~ takes (trail_rules item_rules item 44%N) (s_ "a=1b=2").
Proof.
  split; [exists 100; eexists; vm_compute; reflexivity|]. split; apply not_taken; eexists; vm_compute; reflexivity.
Qed.
Print Assumptions C118_optional_separators_refuted.
