(** Properties: comments in comments. *)
From Verif Require Import Base ModelAst ModelParser ModelCost SpecPeg SpecPos SpecApi SpecWf SpecComments.
From Verif Require Import ProofParser ProofEngine ProofApi ProofComments ProofComments2 Examples.

(** * C100 comments in comments *)

(** [comment = o (comment / !o !c .)* c] accepts exactly the texts that are one comment: counting the marks [o] and [c] from left to
    right, the count comes back to 0 at the end of the text and not before. *)
Theorem C100_comments_are_closed_by_counting : forall o c, distinct_marks o c -> forall s debug, ascii s ->
  ((exists fuel ast, parse_with_debug fuel s (strict_rules o c) debug = Ok ast) <-> exists body, s = o ++ body /\ closed_after o c 1 body []).
Proof.
  intros o c DM s debug A. split.
  - intros (fuel & ast & E). destruct (proj1 (strict_accepts o c DM s debug A ast) (ex_intro _ fuel E)) as (body & l & X & H & _). exists body. split; [exact X|].
    apply closes_iff. exists l. exact H.
  - intros (body & X & H). apply closes_iff in H. destruct H as [l H]. destruct (proj2 (strict_accepts o c DM s debug A _) (ex_intro _ body (ex_intro _ l (conj X (conj H eq_refl))))) as [fuel E].
    exists fuel. eexists. exact E.
Qed.
Print Assumptions C100_comments_are_closed_by_counting.

(** The tree has a node for each comment, with its chars and comments in their order. *)
Theorem C100_the_tree_of_a_comment : forall o c, distinct_marks o c -> forall s debug, ascii s -> forall ast,
  (exists fuel, parse_with_debug fuel s (strict_rules o c) debug = Ok ast) <->
  exists body l, s = o ++ body /\ closes o c body l [] /\ ast = Rule main [item_tree o c (Inner l)].
Proof. exact strict_accepts. Qed.
Print Assumptions C100_the_tree_of_a_comment.

(** That is one way to read it, and the text can be had back from it. *)
Theorem C100_one_way_to_read : forall o c, distinct_marks o c -> forall s l rest, closes o c s l rest ->
  s = flat_map (item_text o c) l ++ c ++ rest /\ forall l' rest', closes o c s l' rest' -> l' = l /\ rest' = rest.
Proof.
  intros o c DM s l rest H. split; [exact (closes_text o c s l rest H)|]. intros l' rest' H'. destruct (closes_det o c DM s l rest H l' rest' H') as [-> ->]. split; reflexivity.
Qed.
Print Assumptions C100_one_way_to_read.

(** All other texts are rejected with a plain error. *)
Theorem C100_other_texts_are_rejected : forall o c, distinct_marks o c -> forall s debug, ascii s ->
  (forall body, s = o ++ body -> ~ closed_after o c 1 body []) ->
  exists fuel er, parse_with_debug fuel s (strict_rules o c) debug = Err er /\ e_priority er = Normal.
Proof. intros o c DM s debug A N. apply (strict_rejects o c DM s debug A). intros body l E H. apply (N body E). apply closes_iff. exists l. exact H. Qed.
Print Assumptions C100_other_texts_are_rejected.

(** Few calls are made, whatever the text. *)
Theorem C100_linear_time : forall o c, distinct_marks o c -> forall s fuel debug, ascii s -> parse_with_debug fuel s (strict_rules o c) debug <> Fuel ->
  parse_calls fuel s (strict_rules o c) debug <= 30 * (length s + 1).
Proof. exact strict_calls. Qed.
Print Assumptions C100_linear_time.

(** Without [!o], in [comment = o (comment / !c .)* c], comments that are not closed take exponential time: each of them is tried as a
    comment, and again as the chars of the comment around it. *)
Theorem C100_exponential_without_it : forall o c u n fuel debug, o <> [] -> let s := copies n (o ++ u) in
  ascii s -> (forall a b, s = a ++ b -> ~ starts_with c b) ->
  parse_with_debug fuel s (loose_rules o c) debug <> Fuel -> 2 ^ n <= parse_calls fuel s (loose_rules o c) debug.
Proof. exact loose_calls. Qed.
Print Assumptions C100_exponential_without_it.

(** If the marks are single chars, [!o] makes no other difference. *)
Theorem C100_single_chars : forall a b, a <> b -> forall s debug, ascii s -> forall ast,
  (exists fuel, parse_with_debug fuel s (loose_rules [a] [b]) debug = Ok ast) <-> (exists fuel, parse_with_debug fuel s (strict_rules [a] [b]) debug = Ok ast).
Proof. intros a b AB s debug A ast. rewrite (loose_accepts a b AB s debug A ast), (strict_accepts [a] [b] (chars_distinct a b AB) s debug A ast). reflexivity. Qed.
Print Assumptions C100_single_chars.

Definition open_mark : str := s_ "/*".
Definition close_mark : str := s_ "*/".

(** Otherwise it can: in [/* /*/] the second opening mark is not closed, but its star can be taken for the start of a closing mark. *)
Theorem C100_longer_marks_refuted : distinct_marks open_mark close_mark /\ exists ast er,
  parse 60 (s_ "/* /*/") (loose_rules open_mark close_mark) = Ok ast /\ parse 60 (s_ "/* /*/") (strict_rules open_mark close_mark) = Err er.
Proof. split; [split; intros (r & E); discriminate E|]. eexists. eexists. split; vm_compute; reflexivity. Qed.
Print Assumptions C100_longer_marks_refuted.

Example C100_nonvacuous : distinct_marks open_mark close_mark /\
  (exists l, closes open_mark close_mark (s_ "a/*b*/*/") l [] /\ l = [Plain 97%N; Inner [Plain 98%N]] /\
    parse 60 (s_ "/*a/*b*/*/") (strict_rules open_mark close_mark) = Ok (Rule main [item_tree open_mark close_mark (Inner l)])) /\
  (exists er, parse 60 (s_ "/*a/*b*/") (strict_rules open_mark close_mark) = Err er /\ e_priority er = Normal) /\
  (let s := copies 6 (open_mark ++ s_ " ") in (forall a b, s = a ++ b -> ~ starts_with close_mark b) /\
    parse_calls 99 s (strict_rules open_mark close_mark) false = 120 /\ parse_calls 99 s (loose_rules open_mark close_mark) false = 1323).
Proof.
  split; [split; intros (r & E); discriminate E|]. split.
  { eexists. split; [|split; [reflexivity|vm_compute; reflexivity]]. apply cl_char; [intros (r & E); discriminate E|intros (r & E); discriminate E|].
    apply (cl_open open_mark close_mark (s_ "b*/*/") [Plain 98%N] (s_ "*/") [] []).
    - apply cl_char; [intros (r & E); discriminate E|intros (r & E); discriminate E|]. apply (cl_end open_mark close_mark (s_ "*/")).
    - apply (cl_end open_mark close_mark []). }
  split; [eexists; split; [vm_compute; reflexivity|reflexivity]|]. cbv zeta. split; [|split; vm_compute; reflexivity].
  assert (X : forall v, (fix ok (v : str) : bool := match v with [] => true | x :: r => (match r with y :: _ => negb ((x =? 42) && (y =? 47)) | [] => true end && ok r)%N end) v = true ->
    forall a b, v = a ++ b -> ~ starts_with close_mark b).
  { induction v as [|x v IH]; intros H a b E (r & F).
    - destruct a; destruct b; discriminate.
    - destruct a as [|y a]; [cbn in E; subst b; injection F as -> ->; discriminate H|]. injection E as _ E. apply andb_prop in H. destruct H as [_ H]. apply (IH H a b E). exists r. exact F. }
  apply X. vm_compute. reflexivity.
Qed.
