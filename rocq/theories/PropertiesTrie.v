(** Properties: words as a tree of chars. *)
From Verif Require Import Base ModelAst ModelParser ModelCost SpecPeg SpecPos SpecApi SpecTable SpecOrder SpecSwap SpecTrie.
From Verif Require Import ProofParser ProofSwap ProofTrie.

(** * C116 a choice of words written as a tree of chars *)

(** Wherever it stands, it matches the longest of the words that the text goes on with, and fails if there is none. *)
Theorem C116_the_longest_word_is_matched : forall G ws s p, peg G (words_expr ws) s p <->
  (exists w r, In w ws /\ s = w ++ r /\ (forall u, In u ws -> starts u s -> length u <= length w) /\ p = PMatch (by_chars w) r) \/
  ((forall w, In w ws -> ~ starts w s) /\ p = PFail).
Proof. exact words_longest. Qed.
Print Assumptions C116_the_longest_word_is_matched.

(** Alone, it accepts the words and nothing else. *)
Theorem C116_accepted : forall ws s debug t, ascii s ->
  ((exists fuel, parse_with_debug fuel s (words_rules ws) debug = Ok t) <-> In s ws /\ t = Rule main (by_chars s)).
Proof. exact words_accepts. Qed.
Print Assumptions C116_accepted.

Theorem C116_rejected : forall ws s debug, ascii s -> ~ In s ws ->
  exists fuel er, parse_with_debug fuel s (words_rules ws) debug = Err er /\ e_priority er = Normal.
Proof. exact words_rejects. Qed.
Print Assumptions C116_rejected.

(** The order of the words does not matter, in any rules. *)
Theorem C116_any_order : forall ws ws', (forall w, In w ws <-> In w ws') -> interchangeable (words_expr ws) (words_expr ws').
Proof.
  assert (L : forall ws ws', (forall w, In w ws <-> In w ws') -> forall G s r, peg G (words_expr ws) s r -> peg G (words_expr ws') s r).
  { intros ws ws' H G s r D. apply words_longest. apply words_longest in D. destruct D as [(w & r' & I & S & M & ->)|[N ->]].
    - left. exists w, r'. split; [apply H, I|]. split; [exact S|]. split; [|reflexivity]. intros u U. apply M, H, U.
    - right. split; [|reflexivity]. intros w W. apply N, H, W. }
  intros ws ws' H. apply law_interchangeable. intros G s r. split; apply L; [exact H|]. intro w. symmetry. apply H.
Qed.
Print Assumptions C116_any_order.

(** The calls depend on the text and the alphabet, and not on the number of words ... *)
Theorem C116_calls : forall cs ws s fuel debug, Forall (fun w => incl w cs) ws -> ascii s -> parse_with_debug fuel s (words_rules ws) debug <> Fuel ->
  parse_calls fuel s (words_rules ws) debug <= (2 * length cs + 2) * S (length s).
Proof. exact words_calls. Qed.
Print Assumptions C116_calls.

(** ... while the literals of a choice are tried one after the other. *)
Theorem C116_calls_of_a_choice : forall ws s fuel debug, (forall w, In w ws -> ~ starts w s) -> ascii s ->
  parse_with_debug fuel s (rules_macro [(main, Or (map lit ws))]) debug <> Fuel ->
  parse_calls fuel s (rules_macro [(main, Or (map lit ws))]) debug = S (length ws).
Proof. exact literals_calls. Qed.
Print Assumptions C116_calls_of_a_choice.

(** [< <= <<= =] in an order that does not work as a choice of literals. *)
Example C116_nonvacuous : let ws := [s_ "<"; s_ "<="; s_ "="; s_ "<<="] in
  words_expr ws = Or [And [lit (s_ "<"); Or [And [lit (s_ "="); Or [And []]]; And [lit (s_ "<"); Or [And [lit (s_ "="); Or [And []]]]]; And []]]; And [lit (s_ "="); Or [And []]]] /\
  parse 30 (s_ "<=") (words_rules ws) = Ok (Rule main [Val (s_ "<"); Val (s_ "=")]) /\
  (exists t, parse 30 (s_ "<<=") (words_rules ws) = Ok t) /\ (exists e, parse 30 (s_ "<<") (words_rules ws) = Err e) /\
  (exists e, parse 30 (s_ "<=") (rules_macro [(main, Or (map lit ws))]) = Err e) /\
  Forall (fun w => incl w (s_ "<=")) ws /\ parse_calls 30 (s_ "<<") (words_rules ws) false = 12.
Proof.
  cbv zeta. split; [vm_compute; reflexivity|]. split; [vm_compute; reflexivity|]. split; [eexists; vm_compute; reflexivity|]. split; [eexists; vm_compute; reflexivity|].
  split; [eexists; vm_compute; reflexivity|]. split; [|vm_compute; reflexivity]. repeat (apply Forall_cons; [intros x X; cbn in *; tauto|]). apply Forall_nil.
Qed.
