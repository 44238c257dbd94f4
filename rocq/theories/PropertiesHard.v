(** Properties: questions about rules that are as hard as Post's problem. *)
From Verif Require Import Base ModelAst ModelParser ModelPeg SpecPeg SpecPos SpecApi SpecStuck SpecPower SpecLines SpecTiles SpecHard.
From Verif Require Import ProofParser ProofEngine ProofApi ProofPower ProofTiles ProofHard Examples.
From Verif Require SpecDocs ProofDocs.

(** * C98 what no tool can tell about rules *)

(** Rules that do something after an accepted text, [main = e !. x]. With [w = w] for [x], parsing does not end for the texts that are
    accepted without [x], and for no others. *)
Theorem C98_accepted_texts_can_be_made_to_hang : forall rs e w, sane_rules rs -> sane e -> main_unused rs [e] -> w <> main -> rules_get rs w = Some (ref_rule w) ->
  forall s, ascii s -> finishes (with_main rs e) s -> (finishes (sequel rs e (ref_rule w)) s <-> ~ takes (with_main rs e) s).
Proof. intros rs e w SR SE MU N E s A F. exact (hang_iff rs e SR SE MU w N E s A F). Qed.
Print Assumptions C98_accepted_texts_can_be_made_to_hang.

(** With an [error("m")], or a rule that is not defined, they lead to that message, at the end of the text. *)
Theorem C98_accepted_texts_can_be_made_to_complain : forall rs e m w, sane_rules rs -> sane e -> main_unused rs [e] -> w <> main -> rules_get rs w = None ->
  forall s k, ascii s ->
  (complains (sequel rs e (Simple (AError m))) s m k <-> takes (with_main rs e) s /\ k = length s \/ complains (with_main rs e) s m k) /\
  (complains (sequel rs e (ref_rule w)) s (missing_rule_msg w) k <-> takes (with_main rs e) s /\ k = length s \/ complains (with_main rs e) s (missing_rule_msg w) k).
Proof. intros rs e m w SR SE MU N E s k A. split; [exact (error_iff rs e SR SE MU m s k A)|exact (missing_iff rs e SR SE MU w s k A N E)]. Qed.
Print Assumptions C98_accepted_texts_can_be_made_to_complain.

(** With [w = ""] they are accepted, and [w] is the last rule of the tree. *)
Theorem C98_accepted_texts_can_be_marked : forall rs e w, sane_rules rs -> sane e -> main_unused rs [e] -> w <> main -> rules_get rs w = Some (lit []) ->
  forall s ast, ascii s ->
  ((exists fuel, parse fuel s (sequel rs e (ref_rule w)) = Ok ast) <->
   exists ts, (exists fuel, parse fuel s (with_main rs e) = Ok (Rule main ts)) /\ ast = Rule main (ts ++ [Rule w [Val []]])).
Proof. intros rs e w SR SE MU N E s ast A. exact (mark_iff rs e SR SE MU w N E s A ast). Qed.
Print Assumptions C98_accepted_texts_can_be_marked.

(** So, for rules made from tiles, each of these is the question whether the tiles can be laid (Post's problem): does parsing never end
    for some text? *)
Theorem C98_hanging_is_post : forall P, ascii_tiles P ->
  ((exists s, ascii s /\ ~ finishes (hanging_tiles P) s) <-> solvable P) /\ ((forall s, ascii s -> finishes (hanging_tiles P) s) <-> ~ solvable P).
Proof. intros P A. split; [exact (asked_hang P A)|exact (asked_hang_none P A)]. Qed.
Print Assumptions C98_hanging_is_post.

(** Does some text lead to this message? *)
Theorem C98_messages_are_post : forall P m, ascii_tiles P -> ((exists s k, ascii s /\ complains (alarming_tiles P m) s m k) <-> solvable P).
Proof. intros P m A. exact (asked_message P A m). Qed.
Print Assumptions C98_messages_are_post.

(** Does it matter that a rule is not defined? *)
Theorem C98_missing_rules_are_post : forall P, ascii_tiles P ->
  ((exists s k, ascii s /\ complains (missing_tiles P) s (missing_rule_msg nm_w) k) <-> solvable P) /\ rules_get (missing_tiles P) nm_w = None.
Proof. intros P A. split; [exact (asked_missing P A)|]. unfold missing_tiles, sequel. rewrite get_other by discriminate. reflexivity. Qed.
Print Assumptions C98_missing_rules_are_post.

(** Is a rule ever used? *)
Theorem C98_used_rules_are_post : forall P, ascii_tiles P ->
  ((exists s fuel ast, ascii s /\ parse fuel s (marking_tiles P) = Ok ast /\ In nm_w (names ast)) <-> solvable P).
Proof. intros P A. exact (asked_mark P A). Qed.
Print Assumptions C98_used_rules_are_post.

(** Are all texts accepted? *)
Theorem C98_all_texts_are_post : forall P, ascii_tiles P -> ((forall s, ascii s -> takes (other_tiles P) s) <-> ~ solvable P).
Proof. intros P A. exact (asked_all P A). Qed.
Print Assumptions C98_all_texts_are_post.

(** So a tool that answers one of the questions for all rules would answer Post's problem, which no program does. *)
Theorem C98_a_tool_would_solve_post : forall (tool : rules -> bool) P, ascii_tiles P ->
  ((forall rs, tool rs = true <-> exists s, ascii s /\ ~ finishes rs s) -> (tool (hanging_tiles P) = true <-> solvable P)) /\
  ((forall rs, tool rs = true <-> exists s k, ascii s /\ complains rs s (s_ "m") k) -> (tool (alarming_tiles P (s_ "m")) = true <-> solvable P)) /\
  ((forall rs, tool rs = true <-> exists s k, ascii s /\ complains rs s (missing_rule_msg nm_w) k) -> (tool (missing_tiles P) = true <-> solvable P)) /\
  ((forall rs, tool rs = true <-> exists s fuel ast, ascii s /\ parse fuel s rs = Ok ast /\ In nm_w (names ast)) -> (tool (marking_tiles P) = true <-> solvable P)) /\
  ((forall rs, tool rs = true <-> forall s, ascii s -> takes rs s) -> (tool (other_tiles P) = true <-> ~ solvable P)).
Proof.
  intros tool P A. split; [|split; [|split; [|split]]]; intro H; rewrite H.
  - exact (asked_hang P A).
  - exact (asked_message P A (s_ "m")).
  - exact (asked_missing P A).
  - exact (asked_mark P A).
  - exact (asked_all P A).
Qed.
Print Assumptions C98_a_tool_would_solve_post.

(** And no grammar accepts the grammar texts that do not accept themselves, and no other grammar texts. *)
Theorem C98_no_grammar_for_grammars_that_reject_themselves : forall d : str,
  ~ forall g, (exists fuel rs, rules_from_peg fuel g = Ok rs) -> ((exists t, SpecDocs.accepts d g t) <-> ~ exists t, SpecDocs.accepts g g t).
Proof.
  intros d H. pose (g := s_ "main = ""a""" ++ [ch_nl]).
  assert (R : exists fuel rs, rules_from_peg fuel g = Ok rs) by (exists 400; eexists; vm_compute; reflexivity).
  assert (N : ~ exists t, SpecDocs.accepts g g t).
  { intros (t & f & rs & E & T). assert (E0 : rules_from_peg 400 g = Ok [(main, lit (s_ "a"))]) by (vm_compute; reflexivity).
    pose proof (ProofDocs.same_rules g 400 _ E0 f rs E) as ->.
    assert (E1 : exists er, parse 20 g [(main, lit (s_ "a"))] = Err er) by (eexists; vm_compute; reflexivity). destruct E1 as [er E1].
    pose proof (ProofRefactor.parse_same _ _ _ _ _ _ E1 T ltac:(discriminate) ltac:(discriminate)). discriminate. }
  destruct (proj2 (H g R) N) as (t & f & rs & E & _).
  assert (D : exists fuel rs, rules_from_peg fuel d = Ok rs) by (exists f, rs; exact E).
  assert (X : ~ exists t, SpecDocs.accepts d d t) by (intro Y; exact (proj1 (H d D) Y Y)).
  exact (X (proj2 (H d D) X)).
Qed.
Print Assumptions C98_no_grammar_for_grammars_that_reject_themselves.

Definition good_tiles : list tile := [(s_ "a", s_ "ab"); (s_ "bb", s_ "b")].
Definition odd_tiles : list tile := [(s_ "ab", s_ "ba"); (s_ "a", s_ "b")].

Example C98_nonvacuous : ascii_tiles good_tiles /\ ascii_tiles odd_tiles /\ solvable good_tiles /\ ~ solvable odd_tiles /\
  takes (tile_rules good_tiles) (s_ "yxy#bba") /\ ~ finishes (hanging_tiles good_tiles) (s_ "yxy#bba") /\ finishes (hanging_tiles good_tiles) (s_ "yxy#bb") /\
  complains (alarming_tiles good_tiles (s_ "laid")) (s_ "yxy#bba") (s_ "laid") 7 /\ complains (missing_tiles good_tiles) (s_ "yxy#bba") (s_ "Missing rule: w") 7 /\
  ~ takes (other_tiles good_tiles) (s_ "yxy#bba") /\ (forall s, ascii s -> finishes (hanging_tiles odd_tiles) s) /\ (forall s, ascii s -> takes (other_tiles odd_tiles) s).
Proof.
  assert (A1 : ascii_tiles good_tiles) by (repeat constructor). assert (A2 : ascii_tiles odd_tiles) by (repeat constructor).
  assert (T : takes (tile_rules good_tiles) (s_ "yxy#bba")) by (exists 99; eexists; vm_compute; reflexivity).
  assert (S1 : solvable good_tiles) by (apply (tiles_solve good_tiles A1); exists (s_ "yxy#bba"); exact T).
  assert (S2 : ~ solvable odd_tiles).
  { intros ([|t row] & N & I & E); [contradiction|]. destruct (I t (or_introl eq_refl)) as [<-|[<-|[]]]; discriminate. }
  assert (A : ascii (s_ "yxy#bba")) by (repeat constructor).
  split; [exact A1|]. split; [exact A2|]. split; [exact S1|]. split; [exact S2|]. split; [exact T|]. split.
  { intro F. refine (proj1 (hang_iff (tiles_and (ref_rule nm_w) good_tiles) tile_main _ tile_main_sane _ nm_w _ eq_refl _ A _) F _);
      [apply tile_and_sane; exact Logic.I|apply tile_and_unused; [intro R; inversion R|exact tile_main_list]|discriminate|apply and_finishes|apply and_takes; exact T]. }
  split; [exists 99; vm_compute; discriminate|]. split; [exists 99; eexists; split; [vm_compute; reflexivity|repeat split]|].
  split; [exists 99; eexists; split; [vm_compute; reflexivity|repeat split]|]. split.
  { intros (f & t & E). assert (X : exists er, parse 99 (s_ "yxy#bba") (other_tiles good_tiles) = Err er) by (eexists; vm_compute; reflexivity). destruct X as [er X].
    pose proof (ProofRefactor.parse_same _ _ _ _ _ _ X E ltac:(discriminate) ltac:(discriminate)). discriminate. }
  split; [exact (proj2 (proj2 (C98_hanging_is_post odd_tiles A2)) S2)|exact (proj2 (C98_all_texts_are_post odd_tiles A2) S2)].
Qed.
