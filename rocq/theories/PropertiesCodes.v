(** Properties: rules for texts of words. *)
From Verif Require Import Base ModelAst ModelParser ModelCost SpecPeg SpecPos SpecApi SpecPower SpecSwap SpecCase SpecCodes.
From Verif Require Import ProofParser ProofEngine ProofApi ProofSwap ProofCase ProofCodes Examples.

(** * C105 words in place of chars *)

(** Let words count as chars, and let no word be the start of another one. If in rules for texts of these chars the chars are exchanged for
    their words, the new rules accept the texts of words that count as an accepted text of chars, and nothing else. The trees are those of the
    texts of chars, with the words in place of the chars. *)
Theorem C105_words_are_read_as_chars : forall ws rs, plain ws -> sane_rules rs ->
  (forall s z ast debug debug', counts_as ws s z -> (exists fuel, parse_with_debug fuel z rs debug = Ok ast) ->
     exists fuel ast', parse_with_debug fuel s (coded_rules ws rs) debug' = Ok ast' /\ spells ws [ast'] [ast]) /\
  (forall s ast' debug debug', (exists fuel, parse_with_debug fuel s (coded_rules ws rs) debug' = Ok ast') ->
     exists z fuel ast, counts_as ws s z /\ parse_with_debug fuel z rs debug = Ok ast /\ spells ws [ast'] [ast]).
Proof.
  intros ws rs PL SR. split.
  - intros s z ast debug debug' C H. exact (caccepted_there ws rs PL SR s z ast debug debug' C H).
  - intros s ast' debug debug' H. exact (caccepted_back ws rs PL SR s ast' debug debug' H).
Qed.
Print Assumptions C105_words_are_read_as_chars.

(** A text counts as one text of chars at most. *)
Theorem C105_texts_count_as_one_text : forall ws, plain ws -> forall s z z', counts_as ws s z -> counts_as ws s z' -> z = z'.
Proof. intros ws PL s z z' C C'. exact (counts_unique ws PL s z C z' C'). Qed.
Print Assumptions C105_texts_count_as_one_text.

(** The messages are the same, after the words for the chars before them. *)
Theorem C105_same_messages : forall ws rs, plain ws -> sane_rules rs ->
  (forall a p b q m, counts_as ws a p -> counts_as ws b q -> aborts rs (p ++ q) m (length p) <-> aborts (coded_rules ws rs) (a ++ b) m (length a)) /\
  (forall s z m k, counts_as ws s z -> aborts (coded_rules ws rs) s m k ->
     exists a b p q, s = a ++ b /\ z = p ++ q /\ counts_as ws a p /\ counts_as ws b q /\ k = length a).
Proof.
  intros ws rs PL SR. split; [intros a p b q m CA CB; exact (caborted ws rs PL SR a p b q m CA CB)|]. intros s z m k C H. exact (between_words ws rs PL SR s z m k C H).
Qed.
Print Assumptions C105_same_messages.

(** The parse ends for the same texts. *)
Theorem C105_same_ends : forall ws rs, plain ws -> sane_rules rs -> forall s z debug debug', counts_as ws s z ->
  (exists fuel, parse_with_debug fuel z rs debug <> Fuel) <-> (exists fuel, parse_with_debug fuel s (coded_rules ws rs) debug' <> Fuel).
Proof. intros ws rs PL SR s z debug debug' C. exact (cfinished ws rs PL SR s z debug debug' C). Qed.
Print Assumptions C105_same_ends.

(** The work grows at most by a factor that depends on the rules and the number of words. *)
Theorem C105_calls : forall ws rs L, plain ws -> sane_rules rs ->
  (forall n e l, rules_get rs n = Some e -> has_atom (Literal l) e -> length l <= L) ->
  forall s z debug debug' fuel fuel', counts_as ws s z ->
  parse_with_debug fuel z rs debug <> Fuel -> parse_with_debug fuel' s (coded_rules ws rs) debug' <> Fuel ->
  parse_calls fuel' s (coded_rules ws rs) debug' <= (L + 1) * (length ws + 1) * parse_calls fuel z rs debug.
Proof. intros ws rs L PL SR LL s z debug debug' fuel fuel' C NF NF'. exact (ccalls_there ws rs PL SR L LL s z debug debug' fuel fuel' C NF NF'). Qed.
Print Assumptions C105_calls.

(** If a word is the start of another one, the other one may not be found. *)
Theorem C105_starts_of_other_words_refuted : exists ws rs s z, sane_rules rs /\ counts_as ws s z /\ (forall z', counts_as ws s z' -> z' = z) /\
  (exists ast, parse 100 z rs = Ok ast) /\ exists er, parse 100 s (coded_rules ws rs) = Err er.
Proof.
  exists [(s_ "a", 97%N); (s_ "ab", 98%N)], [(main, dot_)], (s_ "ab"), (s_ "b"). split; [apply sane_rules_all; repeat constructor|]. split.
  { apply (ca_word _ (s_ "ab") 98%N [] []); [right; left; reflexivity|constructor]. }
  split; [|split; eexists; vm_compute; reflexivity].
  assert (X : forall s z', counts_as [(s_ "a", 97%N); (s_ "ab", 98%N)] s z' -> (s = [] -> z' = []) /\ s <> [98%N] /\ (s = [97%N; 98%N] -> z' = [98%N])).
  { intros s z' C. induction C as [|w c s z I C IH]; [split; [reflexivity|split; discriminate]|]. destruct I as [I|[I|[]]]; injection I as <- <-; vm_compute (s_ _).
    - split; [discriminate|]. split; [discriminate|]. intro E. injection E as ->. destruct (proj1 (proj2 IH)). reflexivity.
    - split; [discriminate|]. split; [discriminate|]. intro E. injection E as ->. rewrite (proj1 IH eq_refl). reflexivity. }
  intros z' C. exact (proj2 (proj2 (X _ _ C)) eq_refl).
Qed.
Print Assumptions C105_starts_of_other_words_refuted.

Definition if_words : code := [(s_ "if ", 105%N); (s_ "then ", 116%N); (s_ "this ", 120%N); (s_ "that ", 120%N)].
(** [main = 'i' test / error('what?')],  [test = 'x' ('t' test)?]. *)
Definition letter_rules : rules :=
  [(main, Or [And [lit (s_ "i"); ref_rule (s_ "test")]; Simple (AError (s_ "what?"))]);
   (s_ "test", And [lit (s_ "x"); Repeat (And [lit (s_ "t"); ref_rule (s_ "test")]) 0 (Some 1)])].

Example C105_nonvacuous : plain if_words /\ sane_rules letter_rules /\
  (forall n e l, rules_get letter_rules n = Some e -> has_atom (Literal l) e -> length l <= 1) /\
  counts_as if_words (s_ "if this then that ") (s_ "ixtx") /\
  parse 100 (s_ "ixtx") letter_rules = Ok (Rule main [Val (s_ "i"); Rule (s_ "test") [Val (s_ "x"); Val (s_ "t"); Rule (s_ "test") [Val (s_ "x")]]]) /\
  parse 100 (s_ "if this then that ") (coded_rules if_words letter_rules) =
    Ok (Rule main [Val (s_ "if "); Rule (s_ "test") [Val (s_ "this "); Val (s_ "then "); Rule (s_ "test") [Val (s_ "that ")]]]) /\
  aborts (coded_rules if_words letter_rules) (s_ "then that ") (s_ "what?") 0.
Proof.
  split.
  { split.
    - intros w c I. repeat (destruct I as [I|I]; [injection I as <- <-; repeat split; [discriminate|repeat constructor]|]). destruct I.
    - intros w c w' c' x y I J E.
      repeat (destruct I as [I|I]; [injection I as <- <-; repeat (destruct J as [J|J]; [injection J as <- <-; first [split; reflexivity|exfalso; vm_compute in E; congruence]|]); destruct J|]). destruct I. }
  split; [apply sane_rules_all; repeat constructor|]. split; [apply lits_all; reflexivity|]. split.
  { apply (ca_word _ (s_ "if ") 105%N (s_ "this then that ")); [left; reflexivity|]. apply (ca_word _ (s_ "this ") 120%N (s_ "then that ")); [do 2 right; left; reflexivity|].
    apply (ca_word _ (s_ "then ") 116%N (s_ "that ")); [right; left; reflexivity|]. apply (ca_word _ (s_ "that ") 120%N []); [do 3 right; left; reflexivity|]. constructor. }
  split; [vm_compute; reflexivity|]. split; [vm_compute; reflexivity|]. exists 100. eexists. split; [vm_compute; reflexivity|]. repeat split.
Qed.
