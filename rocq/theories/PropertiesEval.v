(** Properties: a calculator written with the crate. *)
From Coq Require Import QArith.
From Verif Require Import Base ModelAst ModelParser ModelPeg SpecPos SpecDocs SpecEval.
From Verif Require Import ProofApi ProofCalc ProofEval.
Close Scope Q_scope.

(** * C112 a calculator computes the value of its text *)

(** Reading the documented grammar, parsing, tidying up, flattening and walking over the tokens with the consuming helpers gives the
    value that the usual grammar of sums of products gives, for any kind of numbers with any operations. *)
Theorem C112_values : forall A read op s a,
  (exists fuel, calculate A read op fuel s = Ok a) <-> denotes A read op s (Some a).
Proof.
  intros A read op s a. split.
  - intros [f H]. destruct (calculate_inv A read op f s _ H ltac:(discriminate)) as [(er & _ & X)|[[_ X]|(v & D & X)]]; [discriminate|discriminate|].
    destruct v as [b|]; cbn in X; [|discriminate]. injection X as <-. exact D.
  - intro D. destruct (calculate_denotes A read op s _ D) as (n & V). exists (S n). apply V. lia.
Qed.
Print Assumptions C112_values.

(** An operation fails, as a division by zero, exactly if the text has no value because of it. *)
Theorem C112_failing_operations : forall A read op s,
  (exists fuel, calculate A read op fuel s = Err InArithmetic) <-> denotes A read op s None.
Proof.
  intros A read op s. split.
  - intros [f H]. destruct (calculate_inv A read op f s _ H ltac:(discriminate)) as [(er & _ & X)|[[_ X]|(v & D & X)]]; [discriminate|discriminate|].
    destruct v as [b|]; cbn in X; [discriminate|]. exact D.
  - intro D. destruct (calculate_denotes A read op s _ D) as (n & V). exists (S n). apply V. lia.
Qed.
Print Assumptions C112_failing_operations.

(** Texts that are no formulas are rejected by the parser, and no others. *)
Theorem C112_other_texts_are_rejected : forall A read op s, ascii s ->
  ((exists fuel er, calculate A read op fuel s = Err (InText er)) <-> forall v, ~ denotes A read op s v).
Proof. exact calculate_rejects. Qed.
Print Assumptions C112_other_texts_are_rejected.

(** Nothing else can happen: the grammar is right, the helpers always find what they expect, and there is no panic. *)
Theorem C112_nothing_else : forall A read op fuel s,
  (forall e, calculate A read op fuel s <> Err (InGrammar e)) /\ (forall e, calculate A read op fuel s <> Err (InTree e)) /\
  (ascii s -> calculate A read op fuel s <> Panic).
Proof.
  intros A read op fuel s. pose proof (calculate_inv A read op fuel s _ eq_refl) as X. repeat split.
  - intros e E. rewrite E in X. destruct (X ltac:(discriminate)) as [(er & _ & Y)|[[_ Y]|([v|] & _ & Y)]]; discriminate.
  - intros e E. rewrite E in X. destruct (X ltac:(discriminate)) as [(er & _ & Y)|[[_ Y]|([v|] & _ & Y)]]; discriminate.
  - intros AS E. rewrite E in X. destruct (X ltac:(discriminate)) as [(er & _ & Y)|[[P _]|([v|] & _ & Y)]]; try discriminate.
    exact (parse_no_panic fuel s calculator_read false AS P).
Qed.
Print Assumptions C112_nothing_else.

(** A text has one value at most, though it can be cut up into blanks, terms and factors in many ways. *)
Theorem C112_one_value : forall A read op s v v', denotes A read op s v -> denotes A read op s v' -> v = v'.
Proof. exact denotes_one. Qed.
Print Assumptions C112_one_value.

(** With fractions: operators go from left to right, products before sums. *)
Example C112_nonvacuous :
  denotes Q read_q op_q (s_ "8 - 3 - 2") (Some (3 # 1)%Q) /\
  calculate Q read_q op_q 400 (s_ " 1.5 + 2*(3 - 12/4/2) ") = Ok (9 # 2)%Q /\
  calculate Q read_q op_q 400 (s_ "8 - 3 - 2") = Ok (3 # 1)%Q /\
  calculate Q read_q op_q 400 (s_ "1/(2 - 2.0)") = Err InArithmetic /\
  exists er, calculate Q read_q op_q 400 (s_ "1 +") = Err (InText er).
Proof.
  split.
  { apply (C112_values Q read_q op_q). exists 400. vm_compute. reflexivity. }
  split; [vm_compute; reflexivity|]. split; [vm_compute; reflexivity|]. split; [vm_compute; reflexivity|]. eexists. vm_compute. reflexivity.
Qed.
