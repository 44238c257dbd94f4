(** Properties: a question about rules that is as hard as any. *)
From Verif Require Import Base ModelAst ModelParser ModelPeg SpecPeg SpecPos SpecApi SpecWf SpecPower SpecText SpecDocs SpecTiles.
From Verif Require Import ProofParser ProofEngine ProofApi ProofTiles Examples.

(** * C79 is there a text that is accepted? *)

(** Whether the rules made from a set of tiles accept any text at all is the question whether the tiles can be put in a row that reads the same
    on top and at the bottom: Post's correspondence problem, that no program can answer for every set. *)
Theorem C79_some_text_is_post : forall P, ascii_tiles P -> ((exists s, takes (tile_rules P) s) <-> solvable P).
Proof. exact tiles_solve. Qed.
Print Assumptions C79_some_text_is_post.

(** The same for grammar texts. *)
Theorem C79_some_text_is_post_for_grammars : forall P, P <> [] -> ascii_tiles P -> ((exists s t, accepts (saved (tile_rules P)) s t) <-> solvable P).
Proof. exact tile_grammar_solve. Qed.
Print Assumptions C79_some_text_is_post_for_grammars.

(** So is the question whether two rule sets accept the same texts. *)
Theorem C79_the_same_texts_is_post : forall P, ascii_tiles P ->
  (forall s, ~ takes no_rules s) /\ ((forall s, takes (tile_rules P) s <-> takes no_rules s) <-> ~ solvable P).
Proof. intros P A. split; [exact none_taken|exact (tiles_same P A)]. Qed.
Print Assumptions C79_the_same_texts_is_post.

(** The accepted texts are the solutions: the codes of the tiles of the row, and what the row reads, backwards. *)
Theorem C79_the_texts_are_the_solutions : forall P s, takes (tile_rules P) s <->
  ascii s /\ exists row : list nat, let words side := concat (map (fun k => side (nth k P ([], []))) row) in
    row <> [] /\ Forall (fun k => k < length P) row /\ words fst = words snd /\ s = flat_map code row ++ s_ "#" ++ rev (words fst).
Proof. exact solution_text. Qed.
Print Assumptions C79_the_texts_are_the_solutions.

(** The rules are harmless all the same: each single text is answered, with a number of nested calls linear in its length. *)
Theorem C79_each_text_is_answered : forall P, sane_rules (tile_rules P) /\ well_formed (grammar_of (tile_rules P)) /\
  forall s debug fuel, depth_factor (tile_rules P) * (length s + 1) <= fuel -> parse_with_debug fuel s (tile_rules P) debug <> Fuel.
Proof. exact tiles_answered. Qed.
Print Assumptions C79_each_text_is_answered.

Definition some_tiles : list tile := [(s_ "a", s_ "ab"); (s_ "b", s_ "ca"); (s_ "ca", s_ "a"); (s_ "abc", s_ "c")].
Definition bad_tiles : list tile := [(s_ "ab", s_ "ba"); (s_ "a", s_ "b")].

Example C79_nonvacuous : ascii_tiles some_tiles /\ ascii_tiles bad_tiles /\ solvable some_tiles /\ ~ solvable bad_tiles /\
  (exists t, parse 99 (s_ "yxyxxyyxxxy#cbaaacba") (tile_rules some_tiles) = Ok t) /\ (forall s, ~ takes (tile_rules bad_tiles) s) /\
  (exists er, parse 99 (s_ "yxyxxyyxxxy#cbaaacb") (tile_rules some_tiles) = Err er) /\ (exists er, parse 99 (s_ "#") (tile_rules some_tiles) = Err er) /\
  saved (tile_rules bad_tiles) = s_ "main = !""#"" !(!(top !.)) bottom
top = ""y"" top ""ba"" / ""xy"" top ""a"" / ""#""
bottom = ""y"" bottom ""ab"" / ""xy"" bottom ""b"" / ""#""
".
Proof.
  assert (A1 : ascii_tiles some_tiles) by (repeat constructor). assert (A2 : ascii_tiles bad_tiles) by (repeat constructor).
  assert (S1 : solvable some_tiles). { apply C79_some_text_is_post; [exact A1|]. exists (s_ "yxyxxyyxxxy#cbaaacba"), 99. eexists. vm_compute. reflexivity. }
  assert (S2 : ~ solvable bad_tiles).
  { intros ([|t row] & N & I & E); [contradiction|]. destruct (I t (or_introl eq_refl)) as [<-|[<-|[]]]; discriminate. }
  split; [exact A1|]. split; [exact A2|]. split; [exact S1|]. split; [exact S2|]. split; [eexists; vm_compute; reflexivity|].
  split; [intros s H; apply S2, C79_some_text_is_post; [exact A2|exists s; exact H]|].
  split; [eexists; vm_compute; reflexivity|]. split; [eexists; vm_compute; reflexivity|]. vm_compute. reflexivity.
Qed.
