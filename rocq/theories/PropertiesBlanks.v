(** Properties: blanks. *)
From Verif Require Import Base ModelAst ModelParser SpecPeg SpecPos SpecApi SpecBlanks.
From Verif Require Import ProofParser ProofEngine ProofApi ProofBlanks Examples.

(** * C67 blanks *)

(** If only the rules [B] read blanks, texts that differ only in the lengths and kinds of their runs of blanks are both accepted, with trees that
    are the same without the nodes of these rules, or both rejected; aborts keep their message. *)
Theorem C67_how_many_blanks_does_not_matter : forall rs B cs rg s s', sane_rules rs -> ascii s -> ascii s' ->
  only_read_by B cs rg (grammar_of rs) -> ~ In main B -> same_but_blanks cs rg s s' ->
  (forall fuel t, parse fuel s rs = Ok t -> exists fuel' t', parse fuel' s' rs = Ok t' /\ prune B t' = prune B t) /\
  (forall fuel er, parse fuel s rs = Err er -> exists fuel' er', parse fuel' s' rs = Err er' /\ e_priority er' = e_priority er /\
     (e_priority er = Critical -> e_descr er' = e_descr er)).
Proof. exact amount. Qed.

(** Being the same apart from blanks is symmetric, so this goes both ways. *)
Theorem C67_same_but_blanks_is_symmetric : forall cs rg s s', same_but_blanks cs rg s s' -> same_but_blanks cs rg s' s.
Proof. exact sbb_sym. Qed.

(** Other errors can change their description: the furthest failure can be another one. *)
Theorem C67_same_error_refuted : exists rs B cs rg s s' er er', sane_rules rs /\ ascii s /\ ascii s' /\
  only_read_by B cs rg (grammar_of rs) /\ ~ In main B /\ same_but_blanks cs rg s s' /\
  parse 20 s rs = Err er /\ parse 20 s' rs = Err er' /\ e_descr er <> e_descr er'.
Proof.
  exists [(main, Or [And [ref_rule (s_ "_"); Not (lit (s_ "x"))]; lit (s_ "b")]); (s_ "_", rep0 (ematch (s_ " ") []) 0)].
  exists [s_ "_"], (s_ " "), [], (s_ " x"), (s_ "  x"). do 2 eexists.
  split; [apply sane_rules_all; repeat constructor|]. split; [repeat constructor|]. split; [repeat constructor|]. split.
  - split.
    + intros n [<-|[]]. left. reflexivity.
    + intros n e a N E A. unfold grammar_of in E. cbn [rules_get] in E.
      destruct (str_eqb main n); [injection E as <-|]; [|destruct (str_eqb (s_ "_") n) eqn:Q; [apply str_eqb_eq in Q; subst; exfalso; apply N; left; reflexivity|discriminate]].
      repeat match goal with
        | H : has_atom _ (_ _) |- _ => inversion H; clear H; subst
        | H : has_atom _ (_ _ _ _) |- _ => inversion H; clear H; subst
        | H : In _ (_ :: _) |- _ => destruct H; subst
        | H : In _ [] |- _ => destruct H
        end; repeat constructor; intro C; apply match_char_iff in C; discriminate.
  - split; [intros [Q|[]]; discriminate|]. split.
    + apply (sb_run (s_ " ") [] (s_ " ") (s_ "  ") (s_ "x") (s_ "x")); try discriminate; repeat first [apply match_char_iff; reflexivity|apply sb_char|constructor];
        intro C; apply match_char_iff in C; discriminate.
    + split; [vm_compute; reflexivity|]. split; [vm_compute; reflexivity|]. vm_compute. discriminate.
Qed.

(** If every char that is read is followed by a rule that skips blanks, and main starts with it, blanks are as if removed from the text. *)
Theorem C67_blanks_are_as_if_removed : forall rs rs' b cs rg s t, sane_rules rs -> sane_rules rs' -> ascii s -> ascii t ->
  spaced_rules b cs rg (grammar_of rs) (grammar_of rs') -> without_blanks cs rg s t ->
  (forall ast, (exists fuel, parse fuel t rs = Ok ast) <-> (exists fuel ast', parse fuel s rs' = Ok ast' /\ prune [b] ast' = ast)) /\
  ((exists fuel er, parse fuel t rs = Err er) <-> (exists fuel er', parse fuel s rs' = Err er')).
Proof. exact as_if_removed. Qed.

(** [main = 'let' __ [a-z]+ _ '=' _ [0-9]+;  _ = [ \n]*;  __ = [ \n]+] *)
Definition let_rules : rules :=
  let ws := ematch [32; 10]%N [] in
  [(main, And [lit (s_ "let"); ref_rule (s_ "__"); rep0 (ematch [] [(97, 122)%N]) 1; ref_rule (s_ "_"); lit (s_ "="); ref_rule (s_ "_");
               rep0 (ematch [] [(48, 57)%N]) 1]);
   (s_ "_", rep0 ws 0); (s_ "__", rep0 ws 1)].

Example C67_nonvacuous_amount : let B := [s_ "_"; s_ "__"] in let s := s_ "let x = 1" in let s' := s_ "let   x" ++ [10; 32]%N ++ s_ "=" ++ [10]%N ++ s_ "1" in
  sane_rules let_rules /\ ascii s /\ ascii s' /\ only_read_by B [32; 10]%N [] (grammar_of let_rules) /\ ~ In main B /\ same_but_blanks [32; 10]%N [] s s' /\
  (exists t t', parse 30 s let_rules = Ok t /\ parse 30 s' let_rules = Ok t' /\ t <> t' /\
     prune B t = Rule main [Val (s_ "let"); Val (s_ "x"); Val (s_ "="); Val (s_ "1")]).
Proof.
  cbv zeta. split; [apply sane_rules_all; repeat constructor|]. split; [repeat constructor|]. split; [repeat constructor|]. split; [|split; [|split]].
  - split.
    + intros n [<-|[<-|[]]]; [left|right]; reflexivity.
    + intros n e a N E A. unfold grammar_of, let_rules in E. cbn [rules_get] in E.
      destruct (str_eqb main n); [injection E as <-|].
      2: { destruct (str_eqb (s_ "_") n) eqn:Q; [apply str_eqb_eq in Q; subst; exfalso; apply N; left; reflexivity|].
           destruct (str_eqb (s_ "__") n) eqn:Q2; [apply str_eqb_eq in Q2; subst; exfalso; apply N; right; left; reflexivity|discriminate]. }
      assert (CL : forall lo hi c, (32 < lo)%N -> in_class [] [(lo, hi)] c -> ~ in_class [32; 10]%N [] c).
      { intros lo hi c L [[]|(a0 & b0 & [Q|[]] & R)] [[C|[C|[]]]|(a1 & b1 & [] & _)]; injection Q as <- <-; lia. }
      inversion A as [|x es IN AX| | |]; subst.
      repeat match goal with H : In _ (_ :: _) |- _ => destruct H; subst | H : In _ [] |- _ => destruct H end;
        inversion AX; subst; try (repeat constructor; intro C; apply match_char_iff in C; discriminate);
        match goal with H : has_atom _ _ |- _ => inversion H; subst end; intros c C; refine (CL _ _ c _ C); lia.
  - intros [Q|[Q|[]]]; discriminate.
  - assert (W : forall l s s', Forall (fun c => match_char [32; 10]%N [] c = false) l -> same_but_blanks [32; 10]%N [] s s' -> same_but_blanks [32; 10]%N [] (l ++ s) (l ++ s')).
    { intros l s s' FL H. induction FL as [|c l C FL IH]; [exact H|]. apply sb_char; [intro K; apply match_char_iff in K; congruence|exact IH]. }
    apply (W (s_ "let") (s_ " x = 1")); [repeat constructor|].
    apply (sb_run [32; 10]%N [] (s_ " ") (s_ "   ") (s_ "x = 1")); try discriminate; [repeat first [apply match_char_iff; reflexivity|constructor]..| |].
    { intro C. apply match_char_iff in C. discriminate. }
    apply (W (s_ "x") (s_ " = 1")); [repeat constructor|].
    apply (sb_run [32; 10]%N [] (s_ " ") [10; 32]%N (s_ "= 1")); try discriminate; [repeat first [apply match_char_iff; reflexivity|constructor]..| |].
    { intro C. apply match_char_iff in C. discriminate. }
    apply (W (s_ "=") (s_ " 1")); [repeat constructor|].
    apply (sb_run [32; 10]%N [] (s_ " ") [10]%N (s_ "1")); try discriminate; [repeat first [apply match_char_iff; reflexivity|constructor]..| |].
    { intro C. apply match_char_iff in C. discriminate. }
    apply (W (s_ "1") [] []); [repeat constructor|constructor].
  - do 2 eexists. split; [vm_compute; reflexivity|]. split; [vm_compute; reflexivity|]. split; [discriminate|vm_compute; reflexivity].
Qed.

(** [main = num ('+' num)*;  num = [0-9]+] and [main = _ num ('+' _ num)*;  num = ([0-9] _)+;  _ = ' '*]. *)
Definition sum_rules : rules :=
  [(main, And [ref_rule (s_ "num"); rep0 (And [lit (s_ "+"); ref_rule (s_ "num")]) 0]); (s_ "num", rep0 (ematch [] [(48, 57)%N]) 1)].
Definition sum_rules_spaced : rules :=
  [(main, And [ref_rule (s_ "_"); And [ref_rule (s_ "num"); rep0 (And [And [lit (s_ "+"); ref_rule (s_ "_")]; ref_rule (s_ "num")]) 0]]);
   (s_ "num", rep0 (And [ematch [] [(48, 57)%N]; ref_rule (s_ "_")]) 1); (s_ "_", rep0 (ematch (s_ " ") []) 0)].

Example C67_nonvacuous_removed :
  sane_rules sum_rules /\ sane_rules sum_rules_spaced /\ spaced_rules (s_ "_") (s_ " ") [] (grammar_of sum_rules) (grammar_of sum_rules_spaced) /\
  without_blanks (s_ " ") [] (s_ " 1 2 +  3 ") (s_ "12+3") /\
  (exists t, parse 30 (s_ "12+3") sum_rules = Ok t /\ exists t', parse 30 (s_ " 1 2 +  3 ") sum_rules_spaced = Ok t' /\ t' <> t /\ prune [s_ "_"] t' = t) /\
  (exists er, parse 30 (s_ " 1 2 +  ") sum_rules_spaced = Err er).
Proof.
  split; [apply sane_rules_all; repeat constructor|]. split; [apply sane_rules_all; repeat constructor|]. split; [|split; [|split]].
  - assert (S1 : spaced (s_ "_") (s_ " ") [] (And [ref_rule (s_ "num"); rep0 (And [lit (s_ "+"); ref_rule (s_ "num")]) 0])
                   (And [ref_rule (s_ "num"); rep0 (And [And [lit (s_ "+"); ref_rule (s_ "_")]; ref_rule (s_ "num")]) 0])).
    { repeat first [apply sp_ref; discriminate|apply (sp_lit _ _ _ 43%N); intro C; apply match_char_iff in C; discriminate|constructor]. }
    split; [reflexivity|]. split; [discriminate|]. split; [do 2 eexists; repeat (split; [reflexivity|]); exact S1|].
    intros n N. unfold grammar_of, sum_rules, sum_rules_spaced. cbn [rules_get]. destruct (str_eqb main n); [apply sp_before; exact S1|].
    destruct (str_eqb (s_ "num") n); [|destruct (str_eqb (s_ "_") n) eqn:Q; [apply str_eqb_eq in Q; congruence|exact Logic.I]].
    apply sp_rep. apply sp_class. intros c [[]|(a0 & b0 & [Q|[]] & R)] [[C|[]]|(a1 & b1 & [] & _)]. vm_compute in C. injection Q as <- <-. subst c. lia.
  - repeat first [apply wb_blank; [apply match_char_iff; reflexivity|]|apply wb_char; [intro C; apply match_char_iff in C; discriminate|]|constructor].
  - eexists. split; [vm_compute; reflexivity|]. eexists. split; [vm_compute; reflexivity|]. split; [discriminate|vm_compute; reflexivity].
  - eexists. vm_compute. reflexivity.
Qed.

Print Assumptions C67_how_many_blanks_does_not_matter.
Print Assumptions C67_same_but_blanks_is_symmetric.
Print Assumptions C67_same_error_refuted.
Print Assumptions C67_blanks_are_as_if_removed.
