(** Properties: JSON. *)
From Verif Require Import Base ModelAst ModelParser ModelPeg ModelCost SpecPeg SpecPos SpecApi SpecDocs SpecJson.
From Verif Require Import ProofParser ProofJson.

(** * C77 a grammar text for JSON *)

(** The accepted texts are exactly the JSON texts. *)
Theorem C77_json_is_accepted_exactly : forall s, ascii s -> (exists t, accepts json_grammar s t) <-> exists v, json_text v s.
Proof. exact json_is_read. Qed.

(** Every other text is an error. *)
Theorem C77_the_rest_is_rejected : forall s, ascii s -> rejects json_grammar s <-> forall v, ~ json_text v s.
Proof. exact json_rejects. Qed.

(** The tree, without the blanks and with the chars joined, is the tree of the value that is written. *)
Theorem C77_the_tree_is_that_of_the_value : forall s t v, accepts json_grammar s t -> json_text v s -> compact (prune [s_ "ws"] t) = Rule main [json_tree v].
Proof. exact tree_of_text. Qed.

(** It tells which value it is, and a text is JSON for one value only. *)
Theorem C77_trees_tell_the_values : forall v v', json_tree v = json_tree v' -> v = v'.
Proof. exact json_tree_inj. Qed.

Theorem C77_a_text_says_one_value : forall s v v', ascii s -> json_text v s -> json_text v' s -> v = v'.
Proof. exact one_value. Qed.

(** Every value comes back if it is written and read. *)
Theorem C77_written_values_come_back : forall v, ok_json v -> ascii (show v) ->
  exists t, accepts json_grammar (show v) t /\ compact (prune [s_ "ws"] t) = Rule main [json_tree v].
Proof. exact shown_is_read. Qed.

(** The time is linear in the length of the text, also for texts that are rejected. *)
Theorem C77_json_takes_linear_time : exists c f rs, rules_from_peg f json_grammar = Ok rs /\
  forall fuel s debug, parse_calls fuel s rs debug <= c * (length s + 1).
Proof. exact json_linear. Qed.

(** What stands before the place of an error can be continued to a JSON text: the error is not after the first mistake. *)
Theorem C77_errors_are_not_after_the_mistake : forall f rs fuel s debug er,
  ascii s -> rules_from_peg f json_grammar = Ok rs -> parse_with_debug fuel s rs debug = Err er ->
  e_priority er = Normal /\ exists u v, json_text v (firstn (pn (e_pos er) - 1) s ++ u).
Proof. exact json_continued. Qed.

(** But it can be before it, at the start of the list that contains it. *)
Theorem C77_errors_are_at_the_mistake_refuted : exists f rs s er u v, rules_from_peg f json_grammar = Ok rs /\ ascii s /\
  parse f s rs = Err er /\ pn (e_pos er) = 3 /\ json_text v (firstn 14 s ++ u).
Proof.
  exists 600, jrules, (s_ "[1, [22, 333, x], 3]").
  assert (A : ascii (s_ "[1, [22, 333, 4]]")) by repeat constructor.
  destruct (proj1 (C77_json_is_accepted_exactly _ A)) as [v J].
  - eexists. exists 600, jrules. split; [exact json_reads|vm_compute; reflexivity].
  - eexists. exists (s_ "4]]"), v. split; [exact json_reads|]. split; [repeat constructor|]. split; [vm_compute; reflexivity|]. split; [reflexivity|exact J].
Qed.

(** A text with everything in it, and how it is read. *)
Definition json_sample : str := s_ "{""a"" : [1, -2.5e+3, ""x\n\u00fF]""] , ""b"":{}, ""c"": [ true,false ,null,[ ] ] }".
Definition json_value : json :=
  JObject [(s_ "a", JArray [JNumber (s_ "1"); JNumber (s_ "-2.5e+3"); JString (s_ "x\n\u00fF]")]); (s_ "b", JObject []);
           (s_ "c", JArray [JTrue; JFalse; JNull; JArray []])].

Example C77_nonvacuous : ascii json_sample /\ json_text json_value json_sample /\ ok_json json_value /\ ascii (show json_value) /\
  show json_value = s_ "{""a"":[1,-2.5e+3,""x\n\u00fF]""],""b"":{},""c"":[true,false,null,[]]}" /\
  (forall v, ~ json_text v (s_ "[1,]")) /\ (forall v, ~ json_text v (s_ "{""a"":01}")) /\ (forall v, ~ json_text v (s_ """\x""")).
Proof.
  assert (A : ascii json_sample) by repeat constructor. split; [exact A|].
  assert (OK : ok_json json_value).
  { assert (D : forall x, forallb is_digit x = true -> Forall (fun c => is_digit c = true) x) by (intros x H; rewrite Forall_forall; rewrite forallb_forall in H; exact H).
    cbn [ok_json json_value fold_right fst snd]. repeat split; try exact I.
    - vm_compute. apply ch_plain; [unfold plain_char; lia|constructor].
    - exists [], (s_ "1"), [], []. split; [auto|]. split; [apply in_digits; [split; vm_compute; discriminate|apply D; reflexivity]|]. split; [left; reflexivity|]. split; [left; reflexivity|reflexivity].
    - exists (s_ "-"), (s_ "2"), (s_ ".5"), (s_ "e+3"). split; [auto|]. split; [apply in_digits; [split; vm_compute; discriminate|apply D; reflexivity]|].
      split; [right; exists (s_ "5"); split; [split; [discriminate|apply D; reflexivity]|reflexivity]|]. split; [|reflexivity].
      right. exists 101%N, (s_ "+"), (s_ "3"). split; [auto|]. split; [auto|]. split; [split; [discriminate|apply D; reflexivity]|reflexivity].
    - vm_compute. apply ch_plain; [unfold plain_char; lia|]. apply ch_escape; [unfold escape_char; vm_compute; auto 10|]. apply ch_unicode; try (unfold is_hex; lia).
      apply ch_plain; [unfold plain_char; lia|constructor].
    - vm_compute. apply ch_plain; [unfold plain_char; lia|constructor].
    - vm_compute. apply ch_plain; [unfold plain_char; lia|constructor]. }
  assert (N : forall s er, ascii s -> parse 600 s jrules = Err er -> forall v, ~ json_text v s).
  { intros s er As P. apply C77_the_rest_is_rejected; [exact As|]. exists 600, jrules, er. split; [exact json_reads|exact P]. }
  assert (AS : ascii (show json_value)) by (vm_compute; repeat constructor).
  split; [|split; [exact OK|split; [exact AS|split; [reflexivity|]]]].
  - destruct (proj1 (C77_json_is_accepted_exactly _ A)) as [v J]; [eexists; exists 600, jrules; split; [exact json_reads|vm_compute; reflexivity]|].
    replace json_value with v; [exact J|]. apply C77_trees_tell_the_values.
    assert (H : exists t, accepts json_grammar json_sample t /\ compact (prune [s_ "ws"] t) = Rule main [json_tree json_value]).
    { eexists. split; [exists 600, jrules; split; [exact json_reads|vm_compute; reflexivity]|vm_compute; reflexivity]. }
    destruct H as (t & H & E). pose proof (C77_the_tree_is_that_of_the_value _ t v H J) as E2. rewrite E2 in E. injection E as E. exact E.
  - split; [|split]; (eapply N; [repeat constructor|vm_compute; reflexivity]).
Qed.

Print Assumptions C77_json_is_accepted_exactly.
Print Assumptions C77_the_rest_is_rejected.
Print Assumptions C77_the_tree_is_that_of_the_value.
Print Assumptions C77_trees_tell_the_values.
Print Assumptions C77_a_text_says_one_value.
Print Assumptions C77_written_values_come_back.
Print Assumptions C77_json_takes_linear_time.
Print Assumptions C77_errors_are_not_after_the_mistake.
Print Assumptions C77_errors_are_at_the_mistake_refuted.
