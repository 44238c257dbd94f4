(** C91: automata with a stack. *)
From Verif Require Import Base ModelAst ModelParser ModelPeg SpecPeg SpecPos SpecApi SpecLang SpecPower SpecStack.
From Verif Require Import ProofStack.

(** The rules made from a deterministic machine accept exactly the texts that the machine reads, and reject the others with a plain error. *)
Theorem C91_stack_machines_are_rules : forall M, proper M -> deterministic M -> forall s debug, ascii s -> exists bound, forall fuel, bound <= fuel ->
  (reads M 0 [0] s /\ exists ast, parse_with_debug fuel s (machine_rules M) debug = Ok ast) \/
  (~ reads M 0 [0] s /\ exists er, parse_with_debug fuel s (machine_rules M) debug = Err er /\ e_priority er = Normal).
Proof. exact machine_decides. Qed.

(** The same for machines that have read a text when their stack is empty at its end. *)
Theorem C91_emptying_machines_are_rules : forall M, proper M -> deterministic M -> forall s debug, ascii s -> exists bound, forall fuel, bound <= fuel ->
  (empties M 0 [0] s /\ exists ast, parse_with_debug fuel s (emptying_rules M) debug = Ok ast) \/
  (~ empties M 0 [0] s /\ exists er, parse_with_debug fuel s (emptying_rules M) debug = Err er /\ e_priority er = Normal).
Proof. exact emptying_decides. Qed.

(** A machine that has to guess: x, then some a (one or more), then one more a. *)
Definition guessing : machine := Machine 1 3 [] [((0, 0, 120%N), (0, [1; 2])); ((0, 1, 97%N), (0, [])); ((0, 1, 97%N), (0, [1])); ((0, 2, 97%N), (0, []))].

(** For such machines the rules can miss texts, because the first guess that works is never taken back. *)
Theorem C91_guessing_machines_are_rules_refuted : exists M s, proper M /\ ~ deterministic M /\ ascii s /\ empties M 0 [0] s /\
  exists bound er, forall fuel, bound <= fuel -> parse fuel s (emptying_rules M) = Err er.
Proof.
  exists guessing, (s_ "xaaa"). split.
  { split; [cbn; lia|]. split; [cbn; lia|]. split; [constructor|]. intros q A c r w [E|[E|[E|[E|[]]]]]; injection E as <- <- <- <- <-; (split; [cbn; lia|]); repeat (constructor; [cbn; lia|]); constructor. }
  split. { intro D. pose proof (D (0, 1, 97%N) (0, []) (0, [1]) ltac:(cbn; auto) ltac:(cbn; auto)). discriminate. }
  split; [repeat constructor|]. split.
  { apply (empties_move _ 0 0 [] 120%N 0 [1; 2]); [cbn; auto|]. apply (empties_move _ 0 1 [2] 97%N 0 [1]); [cbn; auto|]. apply (empties_move _ 0 1 [2] 97%N 0 []); [cbn; auto|].
    apply (empties_move _ 0 2 [] 97%N 0 []); [cbn; auto 6|]. constructor. }
  assert (E : exists er, parse 40 (s_ "xaaa") (emptying_rules guessing) = Err er) by (eexists; vm_compute; reflexivity). destruct E as [er E]. exists 40, er. intros fuel L.
  rewrite (ProofEngine.parse_mono 40 fuel _ _ L); [exact E|congruence].
Qed.

(** Two kinds of brackets: state 0 is outside of all brackets; the stack holds the open ones, with other symbols (1 and 2) for the outermost. *)
Definition brackets : machine := Machine 2 5 [0]
  [((0, 0, 40%N), (1, [1; 0])); ((0, 0, 91%N), (1, [2; 0]));
   ((1, 1, 40%N), (1, [3; 1])); ((1, 1, 91%N), (1, [4; 1])); ((1, 1, 41%N), (0, []));
   ((1, 2, 40%N), (1, [3; 2])); ((1, 2, 91%N), (1, [4; 2])); ((1, 2, 93%N), (0, []));
   ((1, 3, 40%N), (1, [3; 3])); ((1, 3, 91%N), (1, [4; 3])); ((1, 3, 41%N), (1, []));
   ((1, 4, 40%N), (1, [3; 4])); ((1, 4, 91%N), (1, [4; 4])); ((1, 4, 93%N), (1, []))].

Lemma brackets_proper : proper brackets.
Proof.
  split; [cbn; lia|]. split; [cbn; lia|]. split; [repeat constructor|]. intros q A c r w H. cbn [moves brackets] in H.
  repeat (destruct H as [E|H]; [injection E as <- <- <- <- <-; (split; [cbn; lia|]); repeat (constructor; [cbn; lia|]); constructor|]). destruct H.
Qed.

Lemma brackets_deterministic : deterministic brackets.
Proof.
  assert (U : forall (l : list move), NoDup (map fst l) -> forall k x y, In (k, x) l -> In (k, y) l -> x = y).
  { induction l as [|[k0 x0] l IH]; intros ND k x y; [intros []|]. cbn [map] in ND. inversion ND as [|? ? N ND']; subst.
    intros [E|I1] [E'|I2]; [congruence| | |exact (IH ND' k x y I1 I2)].
    - injection E as <- <-. exfalso. apply N. exact (in_map fst _ _ I2).
    - injection E' as <- <-. exfalso. apply N. exact (in_map fst _ _ I1). }
  unfold deterministic. apply U. cbn. repeat (constructor; [cbn; intuition discriminate|]). constructor.
Qed.

Example C91_nonvacuous : proper brackets /\ deterministic brackets /\
  reads brackets 0 [0] (s_ "([()])[]") /\ (exists ast, parse 99 (s_ "([()])[]") (machine_rules brackets) = Ok ast) /\
  ~ reads brackets 0 [0] (s_ "([)]") /\ (exists er, parse 99 (s_ "([)]") (machine_rules brackets) = Err er) /\
  ~ reads brackets 0 [0] (s_ "(") /\ (exists er, parse 99 (s_ "(") (machine_rules brackets) = Err er) /\
  rules_get (machine_rules brackets) (s_ "sskkkks") = Some (Or [And [lit (s_ "("); ref_rule (s_ "sskkkks"); ref_rule (s_ "skkkks")];
    And [lit (s_ "("); ref_rule (s_ "sskkkkss"); ref_rule (s_ "sskkkks")]; And [lit (s_ "["); ref_rule (s_ "sskkkkks"); ref_rule (s_ "skkkks")];
    And [lit (s_ "["); ref_rule (s_ "sskkkkkss"); ref_rule (s_ "sskkkks")]]).
Proof.
  split; [exact brackets_proper|]. split; [exact brackets_deterministic|].
  split; [repeat (eapply reads_move; [cbn; tauto|cbn [app]]); constructor; cbn; auto|]. split; [eexists; vm_compute; reflexivity|].
  split. { intro R. apply (reads_go _ brackets_deterministic) in R as (r & st & E & _). vm_compute in E. discriminate. } split; [eexists; vm_compute; reflexivity|].
  split. { intro R. apply (reads_go _ brackets_deterministic) in R as (r & st & E & F). vm_compute in E. injection E as <- <-. destruct F as [F|[]]; discriminate. }
  split; [eexists; vm_compute; reflexivity|]. vm_compute. reflexivity.
Qed.

Print Assumptions C91_stack_machines_are_rules.
Print Assumptions C91_emptying_machines_are_rules.
Print Assumptions C91_guessing_machines_are_rules_refuted.
