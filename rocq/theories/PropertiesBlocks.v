(** Properties: blocks with several kinds of marks. *)
From Verif Require Import Base ModelAst ModelParser ModelCost SpecPeg SpecPos SpecApi SpecWf SpecComments SpecLines SpecBlocks.
From Verif Require Import ProofParser ProofEngine ProofApi ProofBlocks Examples.

(** * C101 blocks with several kinds of marks *)

(** The accepted texts are those that open a block and, read from left to right with a stack of open blocks, close the last of them at
    the end of the text and not before. *)
Theorem C101_blocks_are_read_with_a_stack : forall ks, clear_marks ks -> forall s debug, ascii s ->
  ((exists fuel ast, parse_with_debug fuel s (block_rules ks) debug = Ok ast) <->
   exists k body, In k ks /\ s = opens k ++ body /\ runs ks [k] body (Closed [])).
Proof. exact blocks_accepts. Qed.
Print Assumptions C101_blocks_are_read_with_a_stack.

(** A message is given exactly when a block is not closed where it should be: that of the block on top of the stack, where the text ends
    or another mark closes. *)
Theorem C101_the_missing_mark_is_named : forall ks, clear_marks ks -> forall s, ascii s -> forall m n,
  complains (block_rules ks) s m n <->
  exists k body j rest, In k ks /\ s = opens k ++ body /\ runs ks [k] body (Missing j rest) /\ m = complaint j /\ n + length rest = length s.
Proof. exact blocks_message. Qed.
Print Assumptions C101_the_missing_mark_is_named.

(** All other texts do not start with a block, or go on after it, and are rejected with a plain error. *)
Theorem C101_other_errors : forall ks, clear_marks ks -> forall s debug, ascii s ->
  ((exists fuel er, parse_with_debug fuel s (block_rules ks) debug = Err er /\ e_priority er = Normal) <->
   (forall k, In k ks -> ~ starts_with (opens k) s) \/
   (exists k body rest, In k ks /\ s = opens k ++ body /\ runs ks [k] body (Closed rest) /\ rest <> [])).
Proof. exact blocks_plain_error. Qed.
Print Assumptions C101_other_errors.

(** Reading with the stack always ends, with one verdict. *)
Theorem C101_one_verdict : forall ks, clear_marks ks -> forall k s, In k ks ->
  exists v, runs ks [k] s v /\ forall v', runs ks [k] s v' -> v' = v.
Proof.
  intros ks CM k s K. destruct (runs_total ks CM k s K) as [v R]. exists v. split; [exact R|]. intros v' R'. apply (runs_det ks CM [k] s v' R'); [|exact R].
  intros x [<-|[]]. exact K.
Qed.
Print Assumptions C101_one_verdict.

(** The tree has a node for each block, with its marks, chars and blocks in their order. *)
Theorem C101_the_tree_of_a_block : forall ks, clear_marks ks -> forall s debug, ascii s -> forall ast,
  (exists fuel, parse_with_debug fuel s (block_rules ks) debug = Ok ast) <->
  exists k l, s = content_text (Block k l) /\ before ks [] (Block k l) /\ ast = Rule main [content_tree (Block k l)].
Proof. exact blocks_tree. Qed.
Print Assumptions C101_the_tree_of_a_block.

(** Few calls are made, whatever the text. *)
Theorem C101_linear_time : forall ks, clear_marks ks -> forall s fuel debug, ascii s -> parse_with_debug fuel s (block_rules ks) debug <> Fuel ->
  parse_calls fuel s (block_rules ks) debug <= (20 + 8 * length ks) * (length s + 1).
Proof. exact blocks_calls. Qed.
Print Assumptions C101_linear_time.

Theorem C101_every_parse_ends : forall ks, clear_marks ks -> forall s debug, ascii s -> exists fuel, parse_with_debug fuel s (block_rules ks) debug <> Fuel.
Proof. exact blocks_finish. Qed.
Print Assumptions C101_every_parse_ends.

Definition round : kind := Kind (s_ "(") (s_ ")") (s_ "missing )").
Definition double : kind := Kind (s_ "((") (s_ "]") (s_ "missing ]").

(** Where a mark is the start of another one, the stack could close all the blocks of a text that is rejected. *)
Theorem C101_marks_that_start_marks_refuted : exists ks body m n, runs ks [double] body (Closed []) /\ In double ks /\
  complains (block_rules ks) (opens double ++ body) m n.
Proof.
  exists [round; double], (s_ "x]"), (s_ "missing )"), 3. split; [|split; [right; left; reflexivity|]].
  - apply ru_char; [|apply (ru_close [round; double] double [] []); apply ru_done].
    intros m [<-|[<-|[<-|[<-|[]]]]] (r & E); discriminate E.
  - exists 40. eexists. split; [vm_compute; reflexivity|]. repeat split; reflexivity.
Qed.
Print Assumptions C101_marks_that_start_marks_refuted.

Definition bold : kind := Kind (s_ "<b>") (s_ "</b>") (s_ "missing </b>").
Definition slanted : kind := Kind (s_ "<i>") (s_ "</i>") (s_ "missing </i>").

Example C101_nonvacuous : clear_marks [bold; slanted] /\
  (let l := [Char 120%N; Block slanted [Char 60%N]] in content_text (Block bold l) = s_ "<b>x<i><</i></b>" /\ before [bold; slanted] [] (Block bold l) /\
    runs [bold; slanted] [bold] (s_ "x<i><</i></b>") (Closed []) /\
    parse 60 (s_ "<b>x<i><</i></b>") (block_rules [bold; slanted]) = Ok (Rule main [content_tree (Block bold l)])) /\
  runs [bold; slanted] [bold] (s_ "x<i>y</b>") (Missing slanted (s_ "</b>")) /\
  complains (block_rules [bold; slanted]) (s_ "<b>x<i>y</b>") (s_ "missing </i>") 8 /\
  parse_calls 60 (s_ "<b>x<i>y</b>") (block_rules [bold; slanted]) false = 59.
Proof.
  assert (NM : forall x s, (forall m, In m (marks [bold; slanted]) -> forall r, x :: s <> m ++ r) -> no_mark [bold; slanted] (x :: s)).
  { intros x s H m M (r & E). exact (H m M r E). }
  split.
  { split; [|split; [|split]].
    - intros m m' [<-|[<-|[<-|[<-|[]]]]] [<-|[<-|[<-|[<-|[]]]]] (r & E); try reflexivity; discriminate E.
    - repeat constructor; cbn; intros H; repeat (destruct H as [H|H]; [discriminate H|]); exact H.
    - intros k k' [<-|[<-|[]]] [<-|[<-|[]]]; discriminate.
    - intros H. repeat (destruct H as [H|H]; [discriminate H|]). exact H. }
  split.
  { cbv zeta. split; [reflexivity|]. split; [|split; [|vm_compute; reflexivity]].
    - cbn -[no_mark]. split; [left; reflexivity|]. split; [|split; [|exact I]].
      + apply NM. intros m [<-|[<-|[<-|[<-|[]]]]] r E; discriminate E.
      + split; [right; left; reflexivity|]. split; [|exact I]. apply NM. intros m [<-|[<-|[<-|[<-|[]]]]] r E; discriminate E.
    - apply ru_char; [apply NM; intros m [<-|[<-|[<-|[<-|[]]]]] r E; discriminate E|].
      apply (ru_open [bold; slanted] bold slanted [] (s_ "<</i></b>")); [right; left; reflexivity|].
      apply ru_char; [apply NM; intros m [<-|[<-|[<-|[<-|[]]]]] r E; discriminate E|].
      apply (ru_close [bold; slanted] slanted [bold] (s_ "</b>")). apply (ru_close [bold; slanted] bold [] []). apply ru_done. }
  split.
  { apply ru_char; [apply NM; intros m [<-|[<-|[<-|[<-|[]]]]] r E; discriminate E|].
    apply (ru_open [bold; slanted] bold slanted [] (s_ "y</b>")); [right; left; reflexivity|].
    apply ru_char; [apply NM; intros m [<-|[<-|[<-|[<-|[]]]]] r E; discriminate E|].
    apply (ru_other [bold; slanted] slanted bold [bold] []); [left; reflexivity|discriminate]. }
  split; [exists 60; eexists; split; [vm_compute; reflexivity|repeat split; reflexivity]|vm_compute; reflexivity].
Qed.
