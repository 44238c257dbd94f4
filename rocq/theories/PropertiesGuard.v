(** Properties: questions about hangs, messages and alternatives. *)
From Verif Require Import Base ModelAst ModelParser ModelPeg SpecPeg SpecPos SpecApi SpecWf SpecTable SpecPower SpecTiles SpecGuard Examples.
From Verif Require Import PegTools ProofParser ProofEngine ProofApi ProofPower ProofTiles ProofGuard.

(** * C83 whether a parser hangs, gives a message, or needs an alternative *)

(** From any parser that always answers, one can be made that hangs on the texts the first one accepts, and accepts all others. *)
Theorem C83_hang_on_what_is_accepted : forall rs a, asked rs a -> forall s, ascii s ->
  ((forall fuel, parse fuel s (with_main rs (guarded a endless)) = Fuel) <-> takes (with_main rs a) s) /\
  ((exists fuel, parse fuel s (with_main rs (guarded a endless)) = Ok (Rule main (by_chars s))) <-> ~ takes (with_main rs a) s).
Proof. exact hang_or_chars. Qed.
Print Assumptions C83_hang_on_what_is_accepted.

(** .. or gives a message on those texts. *)
Theorem C83_complain_about_what_is_accepted : forall rs a, asked rs a -> forall m s, ascii s ->
  ((exists fuel er, parse fuel s (with_main rs (guarded a (error_ m))) = Err er /\ e_priority er = Critical /\ e_descr er = m /\ pn (e_pos er) = 0) <->
     takes (with_main rs a) s) /\
  ((exists fuel, parse fuel s (with_main rs (guarded a (error_ m))) = Ok (Rule main (by_chars s))) <-> ~ takes (with_main rs a) s).
Proof. exact complain_or_chars. Qed.
Print Assumptions C83_complain_about_what_is_accepted.

(** So whether there is a text on which a parser hangs is Post's problem, as is whether a message is ever given .. *)
Theorem C83_some_text_hangs_is_post : forall P, ascii_tiles P ->
  ((exists s, ascii s /\ forall fuel, parse fuel s (with_main (tile_rules P) (guarded tile_main endless)) = Fuel) <-> solvable P).
Proof. exact tiles_hang. Qed.
Print Assumptions C83_some_text_hangs_is_post.

Theorem C83_some_text_gets_the_message_is_post : forall P m, ascii_tiles P ->
  ((exists s fuel er, ascii s /\ parse fuel s (with_main (tile_rules P) (guarded tile_main (error_ m))) = Err er /\ e_descr er = m) <-> solvable P).
Proof. exact tiles_message. Qed.
Print Assumptions C83_some_text_gets_the_message_is_post.

(** .. and whether an alternative is needed: without the second one, the accepted texts and trees of [!(a !.) .* / .*] are the same iff [a] accepts nothing. *)
Theorem C83_an_alternative_is_needed : forall rs a, asked rs a ->
  ((forall s t, (exists fuel, parse fuel s (with_main rs (two_ways a)) = Ok t) <-> (exists fuel, parse fuel s (with_main rs (but_not a any_text)) = Ok t)) <->
   ~ exists s, takes (with_main rs a) s).
Proof. exact two_ways_needed. Qed.
Print Assumptions C83_an_alternative_is_needed.

(** The static condition of C14 is only sufficient: it refuses the first parser also where nothing is accepted by [a], and all texts are answered. *)
Theorem C83_well_formedness_refuses_good_rules : forall rs a, asked rs a -> (forall s, ascii s -> ~ takes (with_main rs a) s) ->
  ~ well_formed (grammar_of (with_main rs (guarded a endless))) /\
  forall s, ascii s -> exists fuel, parse fuel s (with_main rs (guarded a endless)) = Ok (Rule main (by_chars s)).
Proof. intros rs a AK N. split; [apply guard_refused|exact (guard_good rs a AK N)]. Qed.
Print Assumptions C83_well_formedness_refuses_good_rules.

Definition few_tiles : list tile := [(s_ "a", s_ "ab"); (s_ "bc", s_ "c")].
Definition no_tiles : list tile := [(s_ "a", s_ "b")].

Example C83_nonvacuous : (forall P, asked (tile_rules P) tile_main) /\ ascii_tiles few_tiles /\ solvable few_tiles /\ ascii_tiles no_tiles /\ ~ solvable no_tiles /\
  (exists t, parse 99 (s_ "yxy#cba") (tile_rules few_tiles) = Ok t) /\
  (forall fuel, parse fuel (s_ "yxy#cba") (with_main (tile_rules few_tiles) (guarded tile_main endless)) = Fuel) /\
  (exists er, parse 99 (s_ "yxy#cba") (with_main (tile_rules few_tiles) (guarded tile_main (error_ (s_ "found")))) = Err er /\ e_descr er = s_ "found") /\
  parse 99 (s_ "yx") (with_main (tile_rules few_tiles) (guarded tile_main endless)) = Ok (Rule main [Val (s_ "y"); Val (s_ "x")]) /\
  (forall s, ascii s -> ~ takes (with_main (tile_rules no_tiles) tile_main) s).
Proof.
  assert (A1 : ascii_tiles few_tiles) by (repeat constructor). assert (A2 : ascii_tiles no_tiles) by (repeat constructor).
  assert (T : takes (tile_rules few_tiles) (s_ "yxy#cba")) by (exists 99; eexists; vm_compute; reflexivity).
  assert (S1 : solvable few_tiles) by (apply tiles_solve; [exact A1|exists (s_ "yxy#cba"); exact T]).
  assert (S2 : ~ solvable no_tiles). { intros ([|t row] & N & I & E); [contradiction|]. destruct (I t (or_introl eq_refl)) as [<-|[]]; discriminate. }
  split; [exact tiles_asked|]. split; [exact A1|]. split; [exact S1|]. split; [exact A2|]. split; [exact S2|].
  split; [eexists; vm_compute; reflexivity|]. split; [apply guard_hangs; [apply tiles_asked|repeat constructor|exact T]|].
  split; [eexists; split; vm_compute; reflexivity|]. split; [vm_compute; reflexivity|].
  intros s As H. apply S2, tiles_solve; [exact A2|]. exists s. exact H.
Qed.
