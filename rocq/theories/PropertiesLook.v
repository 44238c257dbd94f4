(** Properties: what lies beyond the chars a parse looks at does not matter. *)
From Coq Require Import Relations.Operators_Properties.
From Verif Require Import Base ModelAst ModelParser SpecPeg SpecPos SpecApi SpecReport SpecHang SpecLook Examples.
From Verif Require Import ProofParser ProofReport ProofApi ProofEngine ProofHang ProofLook.

(** * C60 only the text that is looked at matters *)

(** If a text is rejected without a look into its tail, it is rejected with any other tail too, for the same reason at the same place:
    only the excerpt of the text after that place differs. *)
Theorem C60_errors_depend_on_what_was_looked_at : forall rs debug fuel p x y er, sane_rules rs -> ascii (p ++ x) -> ascii (p ++ y) -> y <> [] ->
  ~ looks_into (grammar_of rs) (RuleName main, p ++ x) x -> parse_with_debug fuel (p ++ x) rs debug = Err er ->
  exists read rest fuel', p = read ++ rest /\ e_pos er = pos_of read /\ e_line_after er = until_eol (rest ++ x) /\
    parse_with_debug fuel' (p ++ y) rs debug =
      Err (PError (e_pos er) (e_descr er) (e_line_before er) (until_eol (rest ++ y)) (e_parsing_rules er) (e_priority er)).
Proof. exact same_error. Qed.

(** Likewise a parse that never returns. *)
Theorem C60_hanging_depends_on_what_was_looked_at : forall rs debug p x y, sane_rules rs -> ascii (p ++ x) -> ascii (p ++ y) ->
  ~ looks_into (grammar_of rs) (RuleName main, p ++ x) x ->
  (forall fuel, parse_with_debug fuel (p ++ x) rs debug = Fuel) -> forall fuel, parse_with_debug fuel (p ++ y) rs debug = Fuel.
Proof. exact same_hang. Qed.

(** With the other tail the parse looks no further either. *)
Theorem C60_it_looks_no_further : forall G e p x y, ~ looks_into G (e, p ++ x) x -> ~ looks_into G (e, p ++ y) y.
Proof. intros G e p x y. apply blind_both. Qed.

(** An accepted text has been looked at up to its last char. *)
Theorem C60_accepted_texts_are_looked_at : forall rs debug fuel p x t, sane_rules rs -> ascii (p ++ x) -> x <> [] ->
  parse_with_debug fuel (p ++ x) rs debug = Ok t -> looks_into (grammar_of rs) (RuleName main, p ++ x) x.
Proof. exact ok_looks. Qed.

(** If moreover the end of the text was not looked at, no continuation of the text is accepted. *)
Theorem C60_accepted_without_looking_for_more : forall rs debug fuel p y t, sane_rules rs -> ascii (p ++ y) -> y <> [] ->
  parse_with_debug fuel p rs debug = Ok t -> ~ looks_into (grammar_of rs) (RuleName main, p) [] ->
  exists fuel' er, parse_with_debug fuel' (p ++ y) rs debug = Err er /\ e_priority er = Normal.
Proof. exact ok_then_not. Qed.

(** The reported place does not tell how far the parser looked: however many chars one takes after it, two texts can agree on all of them, and one
    be rejected there and the other accepted. *)
Theorem C60_the_reported_place_is_how_far_it_looked_refuted : forall k, exists rs s s' fuel er t,
  sane_rules rs /\ ascii s /\ ascii s' /\ parse fuel s rs = Err er /\ (exists fuel', parse fuel' s' rs = Ok t) /\
  firstn (pn (e_pos er) + k) s = firstn (pn (e_pos er) + k) s'.
Proof. exact early_error. Qed.

(** [main = 'ab' ('c' / 'd')]: "abx" is rejected at the x whatever follows; "abc" is accepted without looking for more. *)
Definition look_rules : rules := rules_macro [(main, And [lit (s_ "ab"); Or [lit (s_ "c"); lit (s_ "d")]])].

Example C60_nonvacuous : sane_rules look_rules /\
  ~ looks_into (grammar_of look_rules) (RuleName main, s_ "abx" ++ s_ "cd") (s_ "cd") /\
  parse_debug 9 (s_ "abxcd") look_rules = Err (PError (Pos 3 0 3 0) (s_ "expected literal: <d>") (s_ "abx") (s_ "cd") [s_ "r:main"] Normal) /\
  parse_debug 9 (s_ "abxy") look_rules = Err (PError (Pos 3 0 3 0) (s_ "expected literal: <d>") (s_ "abx") (s_ "y") [s_ "r:main"] Normal) /\
  ~ looks_into (grammar_of look_rules) (RuleName main, s_ "abc") [] /\
  (exists t, parse 9 (s_ "abc") look_rules = Ok t) /\ looks_into (grammar_of look_rules) (RuleName main, s_ "ab" ++ s_ "c") (s_ "c").
Proof.
  split; [apply sane_rules_all; repeat constructor|].
  split; [apply (not_peeking _ 9); [discriminate|reflexivity]|].
  split; [vm_compute; reflexivity|]. split; [vm_compute; reflexivity|].
  split; [apply (not_peeking _ 9); [discriminate|reflexivity]|].
  split; [eexists; vm_compute; reflexivity|].
  eapply (C60_accepted_texts_are_looked_at look_rules false 9);
    [apply sane_rules_all; repeat constructor|repeat constructor|discriminate|vm_compute; reflexivity].
Qed.

(** A parse that never looks at its text hangs whatever the text is: [main = main 'a']. *)
Example C60_nonvacuous_hang :
  let rs := rules_macro [(main, And [ref_rule main; lit (s_ "a")])] in
  sane_rules rs /\ ~ looks_into (grammar_of rs) (RuleName main, [] ++ s_ "a") (s_ "a") /\ forall fuel, parse_with_debug fuel ([] ++ s_ "a") rs false = Fuel.
Proof.
  cbv zeta. set (rs := rules_macro [(main, And [ref_rule main; lit (s_ "a")])]).
  assert (H : forall fuel, parse_with_debug fuel ([] ++ s_ "a") rs false = Fuel).
  { intros fuel. destruct (parse_with_debug fuel (s_ "a") rs false) eqn:E; try exact E; exfalso;
      pose proof (enough_fuel (s_ "a") rs false fuel ltac:(repeat constructor) ltac:(rewrite E; discriminate)) as L;
      rewrite E in L; vm_compute in L; discriminate. }
  assert (Sn : sane_rules rs) by (apply sane_rules_all; repeat constructor).
  split; [exact Sn|]. split; [|exact H].
  intros (a & q & C & L).
  assert (NR : forall r, ~ peg (grammar_of rs) (RuleName main) (s_ "a") r).
  { intros r P. destruct (proj2 (parse_terminates_iff (s_ "a") rs false Sn ltac:(repeat constructor)) (ex_intro _ r P)) as [fuel N]. exact (N (H fuel)). }
  assert (K : forall t, comes_up (grammar_of rs) (RuleName main, s_ "a") t ->
    t = (RuleName main, s_ "a") \/ t = (And [ref_rule main; lit (s_ "a")], s_ "a")).
  { intros t U. apply clos_rt_rtn1 in U. induction U as [|t t' N U IH]; [left; reflexivity|].
    destruct IH as [-> | ->]; inversion N; subst.
    - right. match goal with R : grammar_of rs main = Some _ |- _ => vm_compute in R; injection R as <- end. reflexivity.
    - left. reflexivity.
    - exfalso. eapply NR. eassumption. }
  destruct (K _ C); discriminate.
Qed.

Print Assumptions C60_errors_depend_on_what_was_looked_at.
Print Assumptions C60_hanging_depends_on_what_was_looked_at.
Print Assumptions C60_it_looks_no_further.
Print Assumptions C60_accepted_texts_are_looked_at.
Print Assumptions C60_accepted_without_looking_for_more.
Print Assumptions C60_the_reported_place_is_how_far_it_looked_refuted.
