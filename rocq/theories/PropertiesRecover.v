(** Properties: going on after a bad line. *)
From Verif Require Import Base ModelAst ModelParser ModelCost SpecPeg SpecPos SpecApi SpecPower SpecLines SpecRecover.
From Verif Require Import ProofParser ProofEngine ProofApi ProofPower ProofLines ProofRecover Examples.

(** * C102 going on after a bad line *)

(** With [main = (e 'c' / bad 'c')*] and [bad = (!'c' .)*], where [e] does not ask for [c], every text of ended lines is accepted, and each
    line gives just what it gives alone: its nodes if it is accepted, and a node [bad] with its chars if it is not. (That is for lines that
    are parsed without a message, the empty line included.) *)
Theorem C102_bad_lines_are_set_aside : forall rs e b c, sane_rules rs -> sane e -> main_unused rs [e] -> stranger (grammar_of rs) c e ->
  b <> main -> rules_get rs b = Some (rest_of_line c) ->
  forall lines nss debug, ascii (ended c lines) -> Forall (fun l => ~ In c l /\ quiet rs e l) lines -> quiet rs e [] ->
  Forall2 (gives rs e b) lines nss ->
  exists fuel, parse_with_debug fuel (ended c lines) (recover_rules rs e b c) debug = Ok (Rule main (flat_map (fun ns => ns ++ [Val [c]]) nss)).
Proof. intros rs e b c SR SE MU ST BM BD lines nss debug A O Q H. exact (all_read rs e b c SR SE MU ST BM BD lines nss debug A O Q H). Qed.
Print Assumptions C102_bad_lines_are_set_aside.

(** Every such line gives one thing. *)
Theorem C102_every_line_gives_one_thing : forall rs e b c, sane_rules rs -> sane e -> main_unused rs [e] ->
  forall l, ascii l -> ~ In c l /\ quiet rs e l -> exists ns, gives rs e b l ns /\ forall ns', gives rs e b l ns' -> ns' = ns.
Proof.
  intros rs e b c SR SE MU l A [N Q]. destruct (gives_exists rs e b c SR SE MU l A Q) as [ns H]. exists ns. split; [exact H|].
  intros ns' H'. exact (gives_unique rs e b c SR SE MU l ns' ns A H' H).
Qed.
Print Assumptions C102_every_line_gives_one_thing.

(** The last line has to be ended, bad or not. *)
Theorem C102_the_last_line_must_end : forall rs e b c, sane_rules rs -> sane e -> main_unused rs [e] -> stranger (grammar_of rs) c e ->
  b <> main -> rules_get rs b = Some (rest_of_line c) ->
  forall lines l debug, ascii (ended c lines ++ l) -> Forall (fun l => ~ In c l /\ quiet rs e l) lines -> ~ In c l /\ quiet rs e l -> l <> [] ->
  exists fuel er, parse_with_debug fuel (ended c lines ++ l) (recover_rules rs e b c) debug = Err er /\ e_priority er = Normal.
Proof. intros rs e b c SR SE MU ST BM BD lines l debug A O OL NL. exact (not_ended rs e b c SR SE MU ST BM BD lines l debug A O OL NL). Qed.
Print Assumptions C102_the_last_line_must_end.

(** A line that gives a message ends the parse with it, as far into the line as alone: a message cannot be set aside. *)
Theorem C102_messages_are_not_set_aside : forall rs e b c, sane_rules rs -> sane e -> main_unused rs [e] -> stranger (grammar_of rs) c e ->
  b <> main -> rules_get rs b = Some (rest_of_line c) ->
  forall lines l tail m k, ascii (ended c lines ++ l ++ tail) -> Forall (fun l => ~ In c l /\ quiet rs e l) lines -> ~ In c l -> tail = [] \/ (exists t, tail = c :: t) ->
  complains (with_main rs e) l m k -> complains (recover_rules rs e b c) (ended c lines ++ l ++ tail) m (length (ended c lines) + k).
Proof. intros rs e b c SR SE MU ST BM BD lines l tail m k A O N T C. exact (messages rs e b c SR SE MU ST BM BD lines l tail m k A O N T C). Qed.
Print Assumptions C102_messages_are_not_set_aside.

(** Nor can a line for which the parse runs for ever. *)
Theorem C102_every_line_has_to_end : forall rs e b c, sane_rules rs -> sane e -> main_unused rs [e] -> stranger (grammar_of rs) c e ->
  b <> main -> rules_get rs b = Some (rest_of_line c) ->
  forall lines l tail, ascii (ended c lines ++ l ++ tail) -> Forall (fun l => ~ In c l /\ quiet rs e l) lines -> ~ In c l -> tail = [] \/ (exists t, tail = c :: t) ->
  finishes (recover_rules rs e b c) (ended c lines ++ l ++ tail) -> finishes (with_main rs e) l.
Proof. intros rs e b c SR SE MU ST BM BD lines l tail A O N T F. exact (must_end rs e b c SR SE MU ST BM BD lines l tail A O N T F). Qed.
Print Assumptions C102_every_line_has_to_end.

(** The work is that for the lines alone, and a few calls more for each char. *)
Theorem C102_calls_add_up : forall rs e b c, sane_rules rs -> sane e -> main_unused rs [e] -> stranger (grammar_of rs) c e ->
  b <> main -> rules_get rs b = Some (rest_of_line c) ->
  forall lines ks k0, ascii (ended c lines) -> Forall (fun l => ~ In c l /\ quiet rs e l) lines -> quiet rs e [] ->
  Forall2 (makes_calls (with_main rs e)) lines ks -> makes_calls (with_main rs e) [] k0 ->
  forall fuel debug, parse_with_debug fuel (ended c lines) (recover_rules rs e b c) debug <> Fuel ->
  parse_calls fuel (ended c lines) (recover_rules rs e b c) debug <= list_sum ks + k0 + 11 * length (ended c lines) + 12.
Proof. intros rs e b c SR SE MU ST BM BD lines ks k0 A O Q H H0. exact (few_calls rs e b c SR SE MU ST BM BD lines ks k0 A O Q H H0). Qed.
Print Assumptions C102_calls_add_up.

Definition nm_bad : str := s_ "bad".
Definition letters : expr := rep0 (Simple (Match [] [(97, 122)%N])) 1.
Definition bad_rules : rules := [(nm_bad, rest_of_line ch_nl)].

Lemma letters_fit : sane_rules bad_rules /\ sane letters /\ main_unused bad_rules [letters] /\ stranger (grammar_of bad_rules) ch_nl letters /\
  nm_bad <> main /\ rules_get bad_rules nm_bad = Some (rest_of_line ch_nl).
Proof.
  split; [apply sane_rules_all; repeat constructor|]. split; [repeat constructor|]. split; [apply main_unused_all; reflexivity|]. split.
  { intros a U. inversion U as [? ? H|n ? ? ? R]; subst; [exact (strange_b_ok ch_nl letters eq_refl a H)|]. inversion R; subst. match goal with H : _ |- _ => now inversion H end. }
  split; [discriminate|reflexivity].
Qed.

(** The line end has to be in both alternatives: with [main = ((e / bad) 'c')*], where the start of a line is accepted, the line is not set
    aside. *)
Theorem C102_choice_before_the_line_end_refuted :
  let rs := with_main bad_rules (rep0 (And [Or [letters; ref_rule nm_bad]; lit [ch_nl]]) 0) in
  (exists er, parse 100 (ended ch_nl [s_ "a1"]) rs = Err er) /\
  exists ast, parse 100 (ended ch_nl [s_ "a1"]) (recover_rules bad_rules letters nm_bad ch_nl) = Ok ast.
Proof. intro rs. split; eexists; vm_compute; reflexivity. Qed.
Print Assumptions C102_choice_before_the_line_end_refuted.

Example C102_nonvacuous : exists lines nss ks k0,
  (sane_rules bad_rules /\ sane letters /\ main_unused bad_rules [letters] /\ stranger (grammar_of bad_rules) ch_nl letters /\
   nm_bad <> main /\ rules_get bad_rules nm_bad = Some (rest_of_line ch_nl)) /\
  lines = [s_ "ab"; s_ "c1"; s_ ""; s_ "d"] /\ Forall (fun l => ~ In ch_nl l /\ quiet bad_rules letters l) lines /\ quiet bad_rules letters [] /\
  Forall2 (gives bad_rules letters nm_bad) lines nss /\
  nss = [[Val (s_ "a"); Val (s_ "b")]; [Rule nm_bad [Val (s_ "c"); Val (s_ "1")]]; [Rule nm_bad []]; [Val (s_ "d")]] /\
  Forall2 (makes_calls (with_main bad_rules letters)) lines ks /\ makes_calls (with_main bad_rules letters) [] k0 /\ list_sum ks + k0 = 14 /\
  parse_calls 100 (ended ch_nl lines) (recover_rules bad_rules letters nm_bad ch_nl) false = 58 /\
  parse 100 (ended ch_nl lines) (recover_rules bad_rules letters nm_bad ch_nl) = Ok (Rule main (flat_map (fun ns => ns ++ [Val [ch_nl]]) nss)).
Proof.
  assert (NR : forall s, (exists er, parse 100 s (with_main bad_rules letters) = Err er) -> forall ks, ~ reads bad_rules letters s ks).
  { intros s [er E] ks [fuel T]. destruct (Nat.le_ge_cases fuel 100) as [L|L].
    - rewrite (parse_mono fuel 100 s _ L) in E by (rewrite T; discriminate). congruence.
    - rewrite (parse_mono 100 fuel s _ L) in T by (rewrite E; discriminate). congruence. }
  eexists. eexists. eexists. eexists. split; [exact letters_fit|]. split; [reflexivity|]. split.
  { repeat constructor; try (exists 100; vm_compute; first [exact Logic.I|reflexivity]); intro H; repeat (destruct H as [H|H]; [discriminate H|]); exact H. }
  split; [exists 100; vm_compute; reflexivity|]. split; [|split; [reflexivity|]].
  { constructor; [left; exists 100; vm_compute; reflexivity|]. constructor; [right; split; [apply NR; eexists; vm_compute; reflexivity|reflexivity]|].
    constructor; [right; split; [apply NR; eexists; vm_compute; reflexivity|reflexivity]|]. constructor; [left; exists 100; vm_compute; reflexivity|constructor]. }
  split; [repeat constructor; exists 100; (split; [vm_compute; discriminate|vm_compute; reflexivity])|].
  split; [exists 100; (split; [vm_compute; discriminate|vm_compute; reflexivity])|].
  split; [vm_compute; reflexivity|]. split; vm_compute; reflexivity.
Qed.
