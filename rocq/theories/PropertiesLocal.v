(** C76: where the syntax errors of a grammar text can stand. *)
From Verif Require Import Base ModelAst ModelParser ModelPegRules ModelPeg SpecApi SpecPos SpecSyntax SpecPegApi SpecLocal
  ProofPegApi ProofText ProofLocal ProofBlame.

(* ---- C76 --------------------------------------------------------------------------------- *)

(** A well written grammar before a text that begins with a definition does not change what is wrong with that
    text, only where it stands; and it adds no syntax error of its own. *)
Theorem C76_errors_are_local : forall g l t, ascii (g ++ t) -> grammar_text g l -> starts_definition t ->
  (forall er, answers t (Err (EParser er)) -> exists er', moved g t er er' /\ answers (g ++ t) (Err (EParser er'))) /\
  (forall er', answers (g ++ t) (Err (EParser er')) -> exists er, moved g t er er' /\ answers t (Err (EParser er))).
Proof.
  intros g l t As Gt St. destruct (starts_header t St) as (hs & hr & Hd). split.
  - exact (local_forward g t l hs hr As Gt Hd).
  - exact (local_backward g t l hs hr As Gt Hd).
Qed.
Print Assumptions C76_errors_are_local.

(** Whatever follows a well written grammar, a syntax error is never reported before the end of that grammar;
    the only exception is a text that begins, after blanks, with the sign of a definition. *)
Theorem C76_errors_are_after_the_good_part : forall g l t er, ascii (g ++ t) -> grammar_text g l ->
  (forall b c r, blank b -> (c = 61%N \/ c = 123%N) -> t <> b ++ c :: r) ->
  answers (g ++ t) (Err (EParser er)) -> length g <= pn (e_pos er).
Proof. exact blame. Qed.
Print Assumptions C76_errors_are_after_the_good_part.

(** The exception is real: the last name of the grammar becomes the name of a definition, and the rule before it
    is reported as not ended. *)
Theorem C76_errors_are_after_the_good_part_refuted : exists g l t er, ascii (g ++ t) /\ grammar_text g l /\
  answers (g ++ t) (Err (EParser er)) /\ pn (e_pos er) < length g.
Proof.
  assert (E : exists er, rules_from_peg 300 ((s_ "main = a b" ++ nl) ++ s_ "= 'c'" ++ nl) = Err (EParser er) /\ pn (e_pos er) < length (s_ "main = a b" ++ nl)).
  { eexists. split; [vm_compute; reflexivity|]. apply Nat.ltb_lt. vm_compute. reflexivity. }
  destruct E as (er & E & L).
  destruct (rules_from_peg 300 (s_ "main = a b" ++ nl)) as [rs| | |] eqn:R; try (vm_compute in R; discriminate R).
  destruct (answers_ok _ rs (answers_intro 300 _ _ R ltac:(discriminate))) as (_ & l & Gt & _).
  exists (s_ "main = a b" ++ nl), l, (s_ "= 'c'" ++ nl), er. split; [|split; [exact Gt|split; [|exact L]]].
  - repeat constructor.
  - apply (answers_intro 300); [exact E|discriminate].
Qed.
Print Assumptions C76_errors_are_after_the_good_part_refuted.

(** A grammar of two rules, then a rule with a wrong sign: the error of the third rule alone stands at its char 9,
    and in the whole text 20 chars further. *)
Example C76_nonvacuous :
  let g := s_ "main = a b" ++ nl ++ s_ "a  = 'x'" ++ nl in let t := s_ "b = 'y' * 'z'" ++ nl in
  (exists l, grammar_text g l) /\ starts_definition t /\
  exists er er', rules_from_peg 300 t = Err (EParser er) /\ rules_from_peg 300 (g ++ t) = Err (EParser er') /\
    pn (e_pos er) = 9 /\ pn (e_pos er') = length g + 9 /\ prow (e_pos er') = 2 /\ pcol (e_pos er') = pcol (e_pos er).
Proof.
  cbv zeta. split; [|split].
  - destruct (rules_from_peg 300 (s_ "main = a b" ++ nl ++ s_ "a  = 'x'" ++ nl)) as [rs| | |] eqn:R; try (vm_compute in R; discriminate R).
    destruct (answers_ok _ rs (answers_intro 300 _ _ R ltac:(discriminate))) as (_ & l & Gt & _). eauto.
  - exists (s_ "b"), (s_ " "), 61%N, (s_ " 'y' * 'z'" ++ nl). split; [|split; [repeat constructor|split; [left; reflexivity|reflexivity]]].
    left. constructor. exists 98%N, []. split; [reflexivity|]. split; [right; left; split; discriminate|constructor].
  - eexists _, _. split; [vm_compute; reflexivity|]. split; [vm_compute; reflexivity|]. repeat split.
Qed.
