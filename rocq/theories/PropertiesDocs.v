(** The grammars of the documentation accept what the documentation says, with the trees it shows: C56. *)
From Verif Require Import Base ModelAst ModelParser ModelPegRules ModelPeg SpecPeg SpecPos SpecApi SpecWf SpecAst SpecLang SpecDocs.
From Verif Require Import ProofApi ProofDocs ProofCalc.

(* ---- C56 --------------------------------------------------------------------------------- *)

(** lib.rs, "basic example": a letter, and at least one more letter or digit. *)
Theorem C56_basic_example : forall s t, accepts basic_text s t <->
  exists c w, s = c :: w /\ is_letter c = true /\ w <> [] /\ Forall (fun d => is_letter d = true \/ is_digit d = true) w /\ t = basic_tree c w.
Proof. exact basic_accepts. Qed.
Print Assumptions C56_basic_example.

(** README, "example 2": four texts. *)
Theorem C56_example2 : forall s t, accepts example2_text s t <->
  (s = s_ "abcc" /\ t = Rule main [Val (s_ "a"); Val (s_ "bc"); Val (s_ "c")]) \/
  (s = s_ "abcdd" /\ t = Rule main [Val (s_ "a"); Val (s_ "bcdd")]) \/
  (s = s_ "abcd" /\ t = Rule main [Val (s_ "a"); Rule (s_ "b_and_c") [Val (s_ "b"); Val (s_ "c")]; Rule (s_ "d_or_z") [Val (s_ "d")]]) \/
  (s = s_ "abcz" /\ t = Rule main [Val (s_ "a"); Rule (s_ "b_and_c") [Val (s_ "b"); Val (s_ "c")]; Rule (s_ "d_or_z") [Val (s_ "z")]]).
Proof. exact example2_accepts. Qed.
Print Assumptions C56_example2.

(** lib.rs, parentheses: 'hello' in any number of balanced pairs is accepted ... *)
Theorem C56_parentheses_accepted : forall s t, accepts unbalanced_text s t <->
  exists n, s = times n (s_ "(") ++ s_ "hello" ++ times n (s_ ")") /\ t = hello_tree n.
Proof. exact unbalanced_accepts. Qed.
Print Assumptions C56_parentheses_accepted.

(** ... and the grammar's own message is given exactly when a closing one is missing, at the place where it is missing. *)
Theorem C56_parentheses_message : forall s msg k, ascii s -> (complains unbalanced_text s msg k <->
  msg = unbalanced_msg /\
  exists n m r, s = times n (s_ "(") ++ s_ "hello" ++ times m (s_ ")") ++ r /\ m < n /\ (forall r', r <> s_ ")" ++ r') /\ k = n + 5 + m).
Proof. exact unbalanced_complains. Qed.
Print Assumptions C56_parentheses_message.

(** Everything else gets an error: there is always an answer. *)
Theorem C56_parentheses_rejected : forall s, ascii s ->
  (rejects unbalanced_text s <-> forall n, s <> times n (s_ "(") ++ s_ "hello" ++ times n (s_ ")")).
Proof.
  intros s A. rewrite (rejects_peg _ _ _ unbalanced_reads s A unbalanced_wf). split.
  - intros H n E. apply (H (hello_tree n)), unbalanced_accepts. exists n. split; [exact E|reflexivity].
  - intros H t T. apply unbalanced_accepts in T. destruct T as (n & E & _). exact (H n E).
Qed.
Print Assumptions C56_parentheses_rejected.

(** lib.rs, calculator: it accepts the sums of products of numbers and parenthesised sums, and the tree is the one of the
    expression, '*' and '/' below '+' and '-'. *)
Theorem C56_calculator_accepted : forall s t, accepts calculator_text s t <->
  exists i e j, ok_sum e /\ s = blanks i ++ show_sum e ++ blanks j /\ t = calculator_tree i e j.
Proof. exact calculator_accepts. Qed.
Print Assumptions C56_calculator_accepted.

Theorem C56_calculator_rejected : forall s, ascii s ->
  (rejects calculator_text s <-> forall i e j, ok_sum e -> s <> blanks i ++ show_sum e ++ blanks j).
Proof.
  intros s A. rewrite (rejects_peg _ _ _ calculator_reads s A calculator_wf). split.
  - intros H i e j O E. apply (H (calculator_tree i e j)), calculator_accepts. exists i, e, j. auto.
  - intros H t T. apply calculator_accepts in T. destruct T as (i & e & j & O & E & _). exact (H i e j O E).
Qed.
Print Assumptions C56_calculator_rejected.

(** A text is the text of at most one expression: nothing is left to the order of the alternatives. *)
Theorem C56_calculator_unambiguous : forall i e j i' e' j', ok_sum e -> ok_sum e' ->
  blanks i ++ show_sum e ++ blanks j = blanks i' ++ show_sum e' ++ blanks j' -> i = i' /\ e = e' /\ j = j'.
Proof. exact calculator_unambiguous. Qed.
Print Assumptions C56_calculator_unambiguous.

(** Compacted, pruned of blanks and passed through but for three rules, only the terms, the factors and the signs are left. *)
Theorem C56_calculator_tidied : forall s t, accepts calculator_text s t ->
  exists i e j, ok_sum e /\ s = blanks i ++ show_sum e ++ blanks j /\ tidy t = Rule main (tidy_sum e).
Proof.
  intros s t H. apply calculator_accepts in H. destruct H as (i & e & j & O & E & ->). exists i, e, j. split; [exact O|]. split; [exact E|].
  apply calculator_tidy. exact O.
Qed.
Print Assumptions C56_calculator_tidied.

(** README, "consume till", with the newline in double quotes: a line comment has no newline, the other kind ends at its first mark. *)
Theorem C56_comments : forall s t, accepts (comment_text (s_ """\n""")) s t <-> ascii s /\ is_comment nl s t.
Proof. exact comment_accepts_escaped. Qed.
Print Assumptions C56_comments.

(** As written in the README, with the newline in single quotes, what ends a line comment is two backslashes and an n ... *)
Theorem C56_comments_as_written : forall s t, accepts (comment_text (s_ "'\n'")) s t <-> ascii s /\ is_comment (s_ "\\n") s t.
Proof. exact comment_accepts_plain. Qed.
Print Assumptions C56_comments_as_written.

(** ... so that a line comment does not end with its line. *)
Theorem C56_line_comments_end_at_newline_refuted : exists w t, In ch_nl w /\ accepts (comment_text (s_ "'\n'")) (s_ "//" ++ w) t.
Proof.
  exists (s_ "a" ++ nl ++ s_ "b"). eexists. split; [right; left; reflexivity|]. exists 300, (comment_read (s_ "\\n")).
  split; [exact comment_reads_plain|vm_compute; reflexivity].
Qed.
Print Assumptions C56_line_comments_end_at_newline_refuted.

(** 2.5 *(1+30)  - 7 *)
Example C56_nonvacuous :
  let inner := Add (One (Num (s_ "1") None)) 0 43%N 0 (Term (One (Num (s_ "30") None))) in
  let e := Add (Mul (Num (s_ "2") (Some (s_ "5"))) 1 42%N 0 (One (Par inner))) 2 45%N 1 (Term (One (Num (s_ "7") None))) in
  ok_sum e /\ show_sum e = s_ "2.5 *(1+30)  - 7" /\
  accepts calculator_text (s_ " 2.5 *(1+30)  - 7") (calculator_tree 1 e 0) /\ rejects calculator_text (s_ "2.5 *(1+30") /\
  tidy_sum e = [Rule (s_ "add_t") [Rule (s_ "fact_t") [Val (s_ "2.5")]; Val (s_ "*");
                  Rule (s_ "fact_t") [Val (s_ "("); Rule (s_ "add_t") [Rule (s_ "fact_t") [Val (s_ "1")]]; Val (s_ "+");
                                      Rule (s_ "add_t") [Rule (s_ "fact_t") [Val (s_ "30")]]; Val (s_ ")")]];
                Val (s_ "-"); Rule (s_ "add_t") [Rule (s_ "fact_t") [Val (s_ "7")]]] /\
  complains unbalanced_text (s_ "((hello)x") unbalanced_msg 8 /\ rejects unbalanced_text (s_ "hello)") /\
  (exists t, accepts (comment_text (s_ """\n""")) (s_ "/* a * // b */") t) /\ rejects (comment_text (s_ """\n""")) (s_ "// a" ++ nl ++ s_ "b").
Proof.
  intros inner e. split; [repeat constructor; try discriminate; cbv; tauto|]. split; [reflexivity|].
  split; [exists 300; eexists; split; [exact calculator_reads|vm_compute; reflexivity]|].
  split; [exists 300; eexists; eexists; split; [exact calculator_reads|vm_compute; reflexivity]|].
  split; [reflexivity|].
  split; [exists 300; eexists; eexists; split; [exact unbalanced_reads|split; [vm_compute; reflexivity|repeat split]]|].
  split; [exists 300; eexists; eexists; split; [exact unbalanced_reads|vm_compute; reflexivity]|].
  split; [eexists; exists 300; eexists; split; [exact comment_reads_escaped|vm_compute; reflexivity]|].
  exists 300; eexists; eexists; split; [exact comment_reads_escaped|vm_compute; reflexivity].
Qed.
