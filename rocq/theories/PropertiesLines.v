(** Properties: texts that are read line by line. *)
From Verif Require Import Base ModelAst ModelParser ModelCost SpecPeg SpecPos SpecApi SpecPower SpecLines.
From Verif Require Import ProofParser ProofEngine ProofPower ProofLines Examples.

(** * C96 lines can be checked one by one *)

(** To an expression that never asks for the char [c], what follows [c] is not there: in front of [c] it does just what it does at the
    end of the text. *)
Theorem C96_a_strange_char_is_an_end : forall G e c, stranger G c e -> forall s t r',
  peg G e (s ++ c :: t) r' <-> exists r, peg G e s r /\ r' = put_before (c :: t) r.
Proof.
  intros G e c ST s t r'. split.
  - intro D. exact (stop_back G c t e _ _ D s eq_refl ST).
  - intros (r & D & ->). exact (stop_there G c t e s r D ST).
Qed.
Print Assumptions C96_a_strange_char_is_an_end.

(** A text is the lines it has, in one way. *)
Theorem C96_one_way_to_split : forall c s, exists lines last, split_lines c s lines last /\
  forall lines' last', split_lines c s lines' last' -> lines' = lines /\ last' = last.
Proof.
  intros c s. destruct (split_exists c s) as (ls & a & E & F). exists ls, a. split; [split; assumption|]. intros ls' a' (E' & F').
  apply (split_unique c ls' ls a' a); [congruence|exact F'|exact F].
Qed.
Print Assumptions C96_one_way_to_split.

(** [main = (line 'c')*], where [line] does not ask for [c], accepts the texts whose lines, taken out and parsed one by one, are
    accepted, and whose last line is ended; and the tree has what the lines give, in order, each followed by the line end. There is one
    condition more: on the empty text, which it comes to at the end, [line] must not give a message or run for ever. *)
Theorem C96_lines_one_by_one : forall rs e c, sane_rules rs -> sane e -> main_unused rs [e] -> stranger (grammar_of rs) c e ->
  forall s debug ast, ascii s ->
  ((exists fuel, parse_with_debug fuel s (line_rules rs e c) debug = Ok ast) <->
   quiet rs e [] /\ exists lines kss, s = ended c lines /\ Forall2 (reads rs e) lines kss /\ ast = Rule main (flat_map (fun ks => ks ++ [Val [c]]) kss)).
Proof. intros rs e c SR SE MU ST s debug ast A. exact (accepted rs e c SR SE MU ST s debug ast A). Qed.
Print Assumptions C96_lines_one_by_one.

(** Lines that are accepted do not have [c] in them. *)
Theorem C96_lines_have_no_line_end : forall rs e c, sane_rules rs -> sane e -> main_unused rs [e] -> stranger (grammar_of rs) c e ->
  forall l, ascii l -> takes (with_main rs e) l -> ~ In c l.
Proof.
  intros rs e c SR SE MU ST l A T. apply (takes_iff rs e c SR SE MU l A) in T. destruct T as [ks D]. exact (no_c rs e c MU ST l ks D).
Qed.
Print Assumptions C96_lines_have_no_line_end.

(** Whether the parse ever returns is settled by the first line that is not accepted: after lines that are, it returns iff it does on that
    line alone. What follows that line plays no part. *)
Theorem C96_one_line_decides_the_end : forall rs e c, sane_rules rs -> sane e -> main_unused rs [e] -> stranger (grammar_of rs) c e ->
  forall lines l tail, ascii (ended c lines ++ l ++ tail) -> Forall (takes (with_main rs e)) lines -> ~ In c l ->
  tail = [] \/ (exists t, tail = c :: t) /\ ~ takes (with_main rs e) l ->
  (finishes (line_rules rs e c) (ended c lines ++ l ++ tail) <-> finishes (with_main rs e) l).
Proof.
  intros rs e c SR SE MU ST lines l tail A F N T. apply (stops_iff rs e c SR SE MU ST lines l tail A). split; [exact F|].
  destruct T as [-> | [[t ->] T]]; (split; [|split; [exact N|]]); [left; reflexivity|intro X; destruct (X eq_refl)|right; exists t; reflexivity|intros _; exact T].
Qed.
Print Assumptions C96_one_line_decides_the_end.

(** The same for messages: the first line that is not accepted, or the last one, gives its message, as far into that line as alone. *)
Theorem C96_messages_of_one_line : forall rs e c, sane_rules rs -> sane e -> main_unused rs [e] -> stranger (grammar_of rs) c e ->
  forall lines l tail m k, ascii (ended c lines ++ l ++ tail) -> Forall (takes (with_main rs e)) lines -> ~ In c l ->
  tail = [] \/ (exists t, tail = c :: t) /\ ~ takes (with_main rs e) l ->
  (complains (line_rules rs e c) (ended c lines ++ l ++ tail) m (length (ended c lines) + k) <-> complains (with_main rs e) l m k).
Proof.
  intros rs e c SR SE MU ST lines l tail m k A F N T. apply (complaint_iff rs e c SR SE MU ST lines l tail m k A). split; [exact F|].
  destruct T as [-> | [[t ->] T]]; (split; [|split; [exact N|]]); [left; reflexivity|intro X; destruct (X eq_refl)|right; exists t; reflexivity|intros _; exact T].
Qed.
Print Assumptions C96_messages_of_one_line.

(** A line that is rejected without a message: the error stands in that line, line end included, and is the same whatever lines follow. *)
Theorem C96_errors_stand_in_the_first_bad_line : forall rs e c, sane_rules rs -> sane e -> main_unused rs [e] -> stranger (grammar_of rs) c e ->
  forall lines l, ascii (ended c (lines ++ [l])) -> Forall (takes (with_main rs e)) lines -> ~ In c l -> ~ takes (with_main rs e) l -> quiet rs e l ->
  exists p m d tr, l ++ [c] = p ++ m /\ forall t debug, ascii t -> exists fuel,
    parse_with_debug fuel (ended c lines ++ l ++ c :: t) (line_rules rs e c) debug =
    Err (PError (pos_of (ended c lines ++ p)) d (tail_after is_nl (ended c lines ++ p)) (until_eol (m ++ t)) (if debug then tr else []) Normal).
Proof. intros rs e c SR SE MU ST lines l A F N B Q. exact (first_bad_error rs e c SR SE MU ST lines l N A F B Q). Qed.
Print Assumptions C96_errors_stand_in_the_first_bad_line.

(** A last line without its end is rejected, with an error that stands in it. *)
Theorem C96_the_last_line_must_end : forall rs e c, sane_rules rs -> sane e -> main_unused rs [e] -> stranger (grammar_of rs) c e ->
  forall lines l, ascii (ended c lines ++ l) -> Forall (takes (with_main rs e)) lines -> ~ In c l -> l <> [] -> quiet rs e l ->
  exists p m d tr, l = p ++ m /\ forall debug, exists fuel,
    parse_with_debug fuel (ended c lines ++ l) (line_rules rs e c) debug =
    Err (PError (pos_of (ended c lines ++ p)) d (tail_after is_nl (ended c lines ++ p)) (until_eol m) (if debug then tr else []) Normal).
Proof. intros rs e c SR SE MU ST lines l A F N Z Q. exact (last_error rs e c SR SE MU ST lines l N A F Q Z). Qed.
Print Assumptions C96_the_last_line_must_end.

(** With newlines as line ends, the row of the error is the number of lines before the first bad one: its own row, counted from zero.
    There is one exception: an error that stands after the newline of that line is at the start of the next row. *)
Theorem C96_rows_name_the_bad_line : forall rs e, sane_rules rs -> sane e -> main_unused rs [e] -> stranger (grammar_of rs) ch_nl e ->
  forall lines l, ascii (ended ch_nl (lines ++ [l])) -> Forall (takes (with_main rs e)) lines -> ~ In ch_nl l -> ~ takes (with_main rs e) l -> quiet rs e l ->
  forall t debug, ascii t -> exists fuel er,
    parse_with_debug fuel (ended ch_nl lines ++ l ++ ch_nl :: t) (line_rules rs e ch_nl) debug = Err er /\ e_priority er = Normal /\
    (prow (e_pos er) = length lines \/
     prow (e_pos er) = S (length lines) /\ pcol (e_pos er) = 0 /\ pn (e_pos er) = length (ended ch_nl (lines ++ [l]))).
Proof.
  intros rs e SR SE MU ST lines l A F N B Q t debug At. destruct (first_bad_error rs e ch_nl SR SE MU ST lines l N A F B Q) as (p & m & d & tr & E & H).
  destruct (H t debug At) as [fuel X]. exists fuel, (PError (pos_of (ended ch_nl lines ++ p)) d (tail_after is_nl (ended ch_nl lines ++ p)) (until_eol (m ++ t)) (if debug then tr else []) Normal).
  split; [exact X|]. split; [reflexivity|]. cbn [e_pos].
  assert (FN : Forall (fun x => ~ In ch_nl x) (l :: lines)).
  { constructor; [exact N|]. apply Forall_forall. intros x I. pose proof (proj1 (Forall_forall _ _) F x I) as T.
    refine (C96_lines_have_no_line_end rs e ch_nl SR SE MU ST x _ T). clear - A I. apply Forall_forall. intros y Iy.
    apply (proj1 (Forall_forall _ _) A y). apply in_flat_map. exists x. split; apply in_or_app; left; assumption. }
  destruct (row_of_prefix lines l p m FN E) as [R | (P & R & C)]; [left; exact R|right]. split; [exact R|]. split; [exact C|].
  unfold ended at 2. rewrite flat_map_app. cbn [flat_map pos_of pn]. rewrite app_nil_r, P. reflexivity.
Qed.
Print Assumptions C96_rows_name_the_bad_line.

(** The calls for the lines add up: two more for each line, those for the empty text at the end, and three or two more. *)
Theorem C96_calls_add_up : forall rs e c, sane_rules rs -> sane e -> main_unused rs [e] -> stranger (grammar_of rs) c e ->
  forall lines ks k0, ascii (ended c lines) -> Forall (takes (with_main rs e)) lines -> quiet rs e [] ->
  Forall2 (makes_calls (with_main rs e)) lines ks -> makes_calls (with_main rs e) [] k0 ->
  exists b, (takes (with_main rs e) [] /\ b = 3 \/ ~ takes (with_main rs e) [] /\ b = 2) /\
    makes_calls (line_rules rs e c) (ended c lines) (list_sum (map (fun k => k + 2) ks) + k0 + b).
Proof. intros rs e c SR SE MU ST lines ks k0 A F Q H H0. exact (calls_add_up rs e c SR SE MU ST lines ks k0 A F Q H H0). Qed.
Print Assumptions C96_calls_add_up.

(** Settings: [line = name '=' number], [name = [a-z]+], [number = [0-9]+]. *)
Definition setting : expr := And [ref_rule (s_ "name"); lit (s_ "="); ref_rule (s_ "number")].
Definition setting_rules : rules := rules_macro [(s_ "name", rep0 (Simple (Match [] [(97, 122)%N])) 1); (s_ "number", rep0 (Simple (Match [] [(48, 57)%N])) 1)].

Lemma setting_fits : sane_rules setting_rules /\ sane setting /\ main_unused setting_rules [setting] /\ stranger (grammar_of setting_rules) ch_nl setting.
Proof.
  split; [apply sane_rules_all; repeat constructor|]. split; [repeat constructor|]. split; [apply main_unused_all; reflexivity|apply stranger_all; reflexivity].
Qed.

Example C96_nonvacuous : exists lines l ks k0,
  (sane_rules setting_rules /\ sane setting /\ main_unused setting_rules [setting] /\ stranger (grammar_of setting_rules) ch_nl setting) /\
  lines = [s_ "a=1"; s_ "bc=23"] /\ Forall (takes (with_main setting_rules setting)) lines /\ quiet setting_rules setting [] /\
  ~ takes (with_main setting_rules setting) [] /\ Forall2 (makes_calls (with_main setting_rules setting)) lines ks /\ makes_calls (with_main setting_rules setting) [] k0 /\
  parse_calls 100 (ended ch_nl lines) (line_rules setting_rules setting ch_nl) false = list_sum (map (fun k => k + 2) ks) + k0 + 2 /\
  l = s_ "d:4" /\ ~ takes (with_main setting_rules setting) l /\ quiet setting_rules setting l /\
  (exists er, parse 100 (ended ch_nl lines ++ l ++ ch_nl :: s_ "e=?") (line_rules setting_rules setting ch_nl) = Err er /\ prow (e_pos er) = 2 /\ pcol (e_pos er) = 2).
Proof.
  assert (NT : forall s, (exists er, parse 100 s (with_main setting_rules setting) = Err er) -> ~ takes (with_main setting_rules setting) s).
  { intros s [er E] [fuel [ast T]]. destruct (Nat.le_ge_cases fuel 100) as [L|L].
    - rewrite (parse_mono fuel 100 s _ L) in E by (rewrite T; discriminate). congruence.
    - rewrite (parse_mono 100 fuel s _ L) in T by (rewrite E; discriminate). congruence. }
  exists [s_ "a=1"; s_ "bc=23"], (s_ "d:4"). eexists. eexists. split; [exact setting_fits|]. split; [reflexivity|].
  split; [repeat constructor; exists 100; eexists; vm_compute; reflexivity|].
  split; [exists 100; vm_compute; reflexivity|]. split; [apply NT; eexists; vm_compute; reflexivity|].
  split; [repeat constructor; exists 100; (split; [vm_compute; discriminate|vm_compute; reflexivity])|].
  split; [exists 100; (split; [vm_compute; discriminate|vm_compute; reflexivity])|].
  split; [vm_compute; reflexivity|]. split; [reflexivity|]. split; [apply NT; eexists; vm_compute; reflexivity|]. split; [exists 100; vm_compute; reflexivity|].
  eexists. split; [vm_compute; reflexivity|]. split; reflexivity.
Qed.

(** The condition on the empty text is needed: [line = [a-z]+ / error("bad")] accepts the line [ab], but every text is rejected, with the
    message for an empty line after the last one. *)
Theorem C96_messages_spoil_the_end_refuted :
  let e := Or [rep0 (Simple (Match [] [(97, 122)%N])) 1; error_ (s_ "bad")] in
  sane e /\ stranger (grammar_of []) ch_nl e /\ reads [] e (s_ "ab") [Val (s_ "a"); Val (s_ "b")] /\
  complains (line_rules [] e ch_nl) (ended ch_nl [s_ "ab"]) (s_ "bad") 3 /\
  forall s, ascii s -> ~ takes (line_rules [] e ch_nl) s.
Proof.
  intro e. assert (SE : sane e) by (repeat constructor). assert (ST : stranger (grammar_of []) ch_nl e) by (apply stranger_all; reflexivity).
  assert (SR : sane_rules []) by (apply sane_rules_all; constructor).
  assert (MU : main_unused [] [e]) by (apply main_unused_all; reflexivity).
  split; [exact SE|]. split; [exact ST|]. split; [exists 100; vm_compute; reflexivity|].
  split; [exists 100; eexists; split; [vm_compute; reflexivity|split; [reflexivity|split; reflexivity]]|].
  intros s A [fuel [ast T]]. destruct (proj1 (C96_lines_one_by_one [] e ch_nl SR SE MU ST s false ast A) (ex_intro _ fuel T)) as [[f Q] _].
  assert (E : exists er, parse 100 [] (with_main [] e) = Err er /\ e_priority er = Critical) by (eexists; split; [vm_compute; reflexivity|reflexivity]).
  destruct E as (er & E & P). destruct (Nat.le_ge_cases f 100) as [L|L].
  - assert (NF : parse f [] (with_main [] e) <> Fuel) by (intro X; rewrite X in Q; exact Q).
    rewrite (parse_mono f 100 [] _ L NF) in E. rewrite E in Q. congruence.
  - rewrite (parse_mono 100 f [] _ L) in Q by (rewrite E; discriminate). rewrite E in Q. congruence.
Qed.
Print Assumptions C96_messages_spoil_the_end_refuted.

(** The line must not ask for the line end: with [line = .*], the line [ab] is accepted, but the text of that line is not. *)
Theorem C96_greedy_lines_refuted : reads [] (rep0 dot_ 0) (s_ "ab") [Val (s_ "a"); Val (s_ "b")] /\ quiet [] (rep0 dot_ 0) [] /\
  ~ takes (line_rules [] (rep0 dot_ 0) ch_nl) (ended ch_nl [s_ "ab"]).
Proof.
  split; [exists 100; vm_compute; reflexivity|]. split; [exists 100; vm_compute; exact I|]. intros [fuel [ast T]].
  assert (E : exists er, parse 100 (ended ch_nl [s_ "ab"]) (line_rules [] (rep0 dot_ 0) ch_nl) = Err er) by (eexists; vm_compute; reflexivity).
  destruct E as [er E]. destruct (Nat.le_ge_cases fuel 100) as [L|L].
  - rewrite (parse_mono fuel 100 _ _ L) in E by (rewrite T; discriminate). congruence.
  - rewrite (parse_mono 100 fuel _ _ L) in T by (rewrite E; discriminate). congruence.
Qed.
Print Assumptions C96_greedy_lines_refuted.

(** And the exception about rows is real: with [line = "ab"], the text of the one line [a] is rejected in the row of the line after it. *)
Theorem C96_rows_one_too_far_refuted : exists er, parse 100 (ended ch_nl [s_ "a"]) (line_rules [] (lit (s_ "ab")) ch_nl) = Err er /\
  prow (e_pos er) = 1 /\ pcol (e_pos er) = 0 /\ e_line_before er = [].
Proof. eexists. split; [vm_compute; reflexivity|]. split; [reflexivity|]. split; reflexivity. Qed.
Print Assumptions C96_rows_one_too_far_refuted.
