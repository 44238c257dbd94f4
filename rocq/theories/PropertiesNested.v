(** Properties: nested lists. *)
From Verif Require Import Base ModelAst ModelParser ModelPeg SpecPeg SpecPos SpecApi SpecTable SpecNested.
From Verif Require Import ProofParser ProofEngine ProofApi ProofTable ProofNested.

(** * C68 nested lists *)

(** The accepted texts are exactly those of nested lists, however deep, and the tree is that of the nested list. *)
Theorem C68_nested_lists_are_read_exactly : forall cs rg O F C, ~ in_class cs rg O -> ~ in_class cs rg F -> ~ in_class cs rg C -> O <> C -> F <> C ->
  forall s debug, ascii s -> forall ast, (exists fuel, parse_with_debug fuel s (nested_rules cs rg O F C) debug = Ok ast) <->
    exists v, is_value cs rg v /\ s = value_text O F C v /\ ast = Rule main [value_tree F by_chars (apart O C) v].
Proof. exact nested_accepts. Qed.

(** Every text is read as a nested list, or rejected with a plain error. *)
Theorem C68_every_text_is_decided : forall cs rg O F C, ~ in_class cs rg O -> ~ in_class cs rg F -> ~ in_class cs rg C -> O <> C -> F <> C ->
  forall s debug, ascii s -> exists bound, forall fuel, bound <= fuel ->
  (exists v, is_value cs rg v /\ s = value_text O F C v /\
     parse_with_debug fuel s (nested_rules cs rg O F C) debug = Ok (Rule main [value_tree F by_chars (apart O C) v])) \/
  ((forall v, is_value cs rg v -> s <> value_text O F C v) /\
   exists er, parse_with_debug fuel s (nested_rules cs rg O F C) debug = Err er /\ e_priority er = Normal).
Proof. exact nested_decides. Qed.

(** A text is the text of one nested list only. *)
Theorem C68_a_text_is_one_value : forall cs rg O F C, ~ in_class cs rg O -> ~ in_class cs rg F -> ~ in_class cs rg C -> O <> C -> F <> C ->
  forall v v', is_value cs rg v -> is_value cs rg v' -> value_text O F C v = value_text O F C v' -> v = v'.
Proof.
  intros cs rg O F C NO NF NC OC FC v v' V V' E.
  exact (value_tree_inj F by_chars (apart O C) by_chars_inj (apart_inj O C) v v' (one_value cs rg O F C NO NF NC OC FC v v' V V' E)).
Qed.

(** [compact] gives each word in one piece, and the brackets of an empty list as one value; the tree still tells which nested list it was. *)
Theorem C68_compact_gives_the_words : forall O F C v, compact (value_tree F by_chars (apart O C) v) = value_tree F in_one (merged O C) v /\
  forall v', value_tree F in_one (merged O C) v' = value_tree F in_one (merged O C) v -> v' = v.
Proof. intros O F C v. split; [apply value_compact|]. intros v' E. exact (value_tree_inj F in_one (merged O C) in_one_inj (merged_inj O C) v' v E). Qed.

(** A word takes the brackets that are chars of the class. *)
Theorem C68_bracket_in_the_class_refuted : exists cs rg O F C v, ~ in_class cs rg F /\ ~ in_class cs rg C /\ O <> C /\ F <> C /\
  is_value cs rg v /\ ascii (value_text O F C v) /\ exists fuel er, parse fuel (value_text O F C v) (nested_rules cs rg O F C) = Err er.
Proof.
  exists (s_ "<a"), [], 60%N, 44%N, 62%N, (List [Word (s_ "a")]).
  assert (X : forall c, match_char (s_ "<a") [] c = false -> ~ in_class (s_ "<a") [] c) by (intros c H D; apply match_char_iff in D; congruence).
  split; [apply X; reflexivity|]. split; [apply X; reflexivity|]. split; [discriminate|]. split; [discriminate|].
  split; [constructor; constructor; [constructor; [discriminate|constructor; [apply match_char_iff; reflexivity|constructor]]|constructor]|].
  split; [repeat constructor|]. exists 30. eexists. vm_compute. reflexivity.
Qed.

(** Lists in brackets with commas, read with rules written as a grammar text. *)
Definition nested_grammar : str := s_ "main = value
value = word / list
word = [a-z0-9]+
list = '[' (value (',' value)*)? ']'
".

Definition json_rules : rules := nested_rules [] [(97, 122); (48, 57)]%N 91%N 44%N 93%N.

Example C68_nonvacuous :
  (exists rs, rules_from_peg 400 nested_grammar = Ok rs /\
     forall n, In n [main; nm_value; nm_word; nm_list; s_ "other"] -> rules_get rs n = rules_get json_rules n) /\
  (forall c, In c [91; 44; 93]%N -> ~ in_class [] [(97, 122); (48, 57)]%N c) /\
  is_value [] [(97, 122); (48, 57)]%N (List [Word (s_ "a1"); List []; List [Word (s_ "b")]]) /\
  value_text 91%N 44%N 93%N (List [Word (s_ "a1"); List []; List [Word (s_ "b")]]) = s_ "[a1,[],[b]]" /\
  (exists t, parse 99 (s_ "[a1,[],[b]]") json_rules = Ok t /\
     let word w := Rule nm_value [Rule nm_word [Val (s_ w)]] in let list l := Rule nm_value [Rule nm_list l] in
     compact t = Rule main [list [Val (s_ "["); word "a1"%string; Val (s_ ","); list [Val (s_ "[]")]; Val (s_ ",");
                                  list [Val (s_ "["); word "b"%string; Val (s_ "]")]; Val (s_ "]")]]) /\
  (exists er, parse 99 (s_ "[a1,[]") json_rules = Err er).
Proof.
  split; [eexists; split; [vm_compute; reflexivity|]; intros n [<-|[<-|[<-|[<-|[<-|[]]]]]]; vm_compute; reflexivity|].
  split.
  { intros c IN D. apply match_char_iff in D. destruct IN as [<-|[<-|[<-|[]]]]; discriminate. }
  split; [repeat first [discriminate|apply match_char_iff; reflexivity|constructor]|].
  split; [reflexivity|]. split; [eexists; split; [vm_compute; reflexivity|vm_compute; reflexivity]|].
  eexists. vm_compute. reflexivity.
Qed.

Print Assumptions C68_nested_lists_are_read_exactly.
Print Assumptions C68_every_text_is_decided.
Print Assumptions C68_a_text_is_one_value.
Print Assumptions C68_compact_gives_the_words.
Print Assumptions C68_bracket_in_the_class_refuted.
