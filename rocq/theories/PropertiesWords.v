(** Properties: words and reserved words. *)
From Verif Require Import Base ModelAst ModelParser SpecPeg SpecPos SpecApi SpecTable SpecWords.
From Verif Require Import ProofParser ProofEngine ProofApi ProofWords ProofTill ProofLongest.

(** * C66 reserved words *)

(** If no reserved word is the beginning of a later one, the idiom matches exactly the first word of the text, unless it is reserved. *)
Theorem C66_reserved_words_are_excluded : forall G cs rg words s p, Forall (Forall (in_class cs rg)) words -> longer_first words ->
  (peg G (word_not_in cs rg words) s p <->
   exists w rest, first_word cs rg s w rest /\
     ((w <> [] /\ ~ In w words /\ p = PMatch (by_chars w) rest) \/ ((w = [] \/ In w words) /\ p = PFail))).
Proof. intros G cs rg words s p WC LF. exact (word_spec G cs rg words WC LF s p). Qed.

(** A rule set for the words that are not reserved. *)
Theorem C66_words_are_accepted_unless_reserved : forall cs rg words s ast, Forall (Forall (in_class cs rg)) words -> longer_first words -> ascii s ->
  ((exists fuel, parse fuel s [(main, word_not_in cs rg words)] = Ok ast) <->
   (s <> [] /\ Forall (in_class cs rg) s /\ ~ In s words /\ ast = Rule main (by_chars s))).
Proof. exact accepts_words. Qed.

(** A choice of literals in such an order matches the longest one that the text starts with. *)
Theorem C66_the_longest_literal_is_matched : forall words, longer_first words ->
  (forall G s p, peg G (Or (map lit words)) s p <->
     (exists w r, In w words /\ s = w ++ r /\ (forall w' r', In w' words -> s = w' ++ r' -> length w' <= length w) /\ p = PMatch [Val w] r) \/
     ((forall w r, In w words -> s <> w ++ r) /\ p = PFail)) /\
  (forall s ast, ascii s -> (exists fuel, parse fuel s [(main, And [Or (map lit words); rep0 dot_ 0])] = Ok ast) <->
     exists w r, In w words /\ s = w ++ r /\ (forall w' r', In w' words -> s = w' ++ r' -> length w' <= length w) /\ ast = Rule main (Val w :: by_chars r)).
Proof. intros words LF. split; [intros G s p; exact (longest_word G words LF s p)|exact (longest_parse words LF)]. Qed.

(** Otherwise reserved words can be missed: with 'in' before 'int', "int" is a word like any other. *)
Theorem C66_any_order_refuted : exists cs rg words s, Forall (Forall (in_class cs rg)) words /\ In s words /\
  exists fuel ast, parse fuel s [(main, word_not_in cs rg words)] = Ok ast.
Proof.
  exists [], [(97, 122)]%N, [s_ "in"; s_ "int"], (s_ "int").
  split; [repeat (constructor; [repeat first [apply match_char_iff; reflexivity|constructor]|]); constructor|].
  split; [right; left; reflexivity|]. exists 20. eexists. vm_compute. reflexivity.
Qed.

Example C66_nonvacuous : let words := [s_ "int"; s_ "in"; s_ "if"] in let rs := [(main, word_not_in [] [(97, 122)]%N words)] in
  Forall (Forall (in_class [] [(97, 122)]%N)) words /\ longer_first words /\
  parse 20 (s_ "inta") rs = Ok (Rule main [Val (s_ "i"); Val (s_ "n"); Val (s_ "t"); Val (s_ "a")]) /\
  (exists er, parse 20 (s_ "int") rs = Err er) /\ (exists er, parse 20 (s_ "in") rs = Err er) /\
  parse 20 (s_ "in") [(main, Or (map lit words))] = Ok (Rule main [Val (s_ "in")]) /\ parse 20 (s_ "int") [(main, Or (map lit words))] = Ok (Rule main [Val (s_ "int")]).
Proof.
  cbv zeta. split; [repeat (constructor; [repeat first [apply match_char_iff; reflexivity|constructor]|]); constructor|].
  split; [apply longer_first_check_ok; reflexivity|]. repeat split; try eexists; vm_compute; reflexivity.
Qed.

Print Assumptions C66_reserved_words_are_excluded.
Print Assumptions C66_words_are_accepted_unless_reserved.
Print Assumptions C66_the_longest_literal_is_matched.
Print Assumptions C66_any_order_refuted.
