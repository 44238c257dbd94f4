(** Laws for chains of AST tools. *)
From Verif Require Import Base ModelAst ModelParser SpecPos SpecApi SpecAst ProofParser ProofAst.

(* ------------------------------------------------------------------------------------------- *)
(** * compact, from the right *)

Definition glue (v : str) (l : list node) : list node :=
  match l with Val w :: r => Val (v ++ w) :: r | _ => Val v :: l end.

Notation CL := (compact_loop []).

Lemma glue_compacted : forall v l l', compacted l l' -> compacted (Val v :: l) (glue v l').
Proof.
  assert (ONE : forall v l l', compacted l l' -> ~ starts_with_val l -> compacted (Val v :: l) (Val v :: l')).
  { intros v l l' H N. change (Val v :: l) with (map Val [v] ++ l). replace (Val v :: l') with (Val (concat [v]) :: l') by (cbn; rewrite app_nil_r; reflexivity).
    apply co_run; [discriminate|exact N|exact H]. }
  intros v l l' H. destruct H as [|l l' H|n k k' l l' H1 H2|vs l l' Hne Hl H]; cbn [glue].
  - apply ONE; [constructor|intros (? & ? & ?); discriminate].
  - apply ONE; [constructor; exact H|intros (? & ? & ?); discriminate].
  - apply ONE; [constructor; assumption|intros (? & ? & ?); discriminate].
  - change (Val v :: map Val vs ++ l) with (map Val (v :: vs) ++ l). change (v ++ concat vs) with (concat (v :: vs)).
    apply co_run; [discriminate|exact Hl|exact H].
Qed.

Lemma cl_of : forall l l', compacted l l' -> CL l = l'.
Proof. intros l l' H. exact (compacted_det l _ (compact_loop_compacted l) _ H). Qed.

Lemma cl_nil : CL [] = []. Proof. reflexivity. Qed.
Lemma cl_val : forall v l, CL (Val v :: l) = glue v (CL l).
Proof. intros v l. apply cl_of, glue_compacted, compact_loop_compacted. Qed.
Lemma cl_eof : forall l, CL (EOF :: l) = EOF :: CL l.
Proof. intros l. apply cl_of. constructor. apply compact_loop_compacted. Qed.
Lemma cl_rule : forall n k l, CL (Rule n k :: l) = Rule n (CL k) :: CL l.
Proof. intros n k l. apply cl_of. constructor; apply compact_loop_compacted. Qed.

Lemma glue_glue : forall v w l, glue v (glue w l) = glue (v ++ w) l.
Proof. intros v w [|[u|n k|] l]; cbn; rewrite ?app_assoc; reflexivity. Qed.

Lemma cl_idem : forall l, CL (CL l) = CL l.
Proof. intro l. apply cl_of. apply (compacted_idem l), compact_loop_compacted. Qed.

Lemma cl_glue : forall v l r, CL (glue v l ++ r) = glue v (CL (l ++ r)).
Proof. intros v [|[u|n k|] l] r; cbn [glue app]; rewrite ?cl_val, ?cl_eof, ?cl_rule, ?glue_glue; reflexivity. Qed.

Lemma cl_app_r : forall a b, CL (a ++ CL b) = CL (a ++ b).
Proof.
  induction a as [|v a IH|a IH|n k a IHk IH] using forest_ind; intro b; cbn [app]; rewrite ?cl_val, ?cl_eof, ?cl_rule, ?IH; try reflexivity.
  apply cl_idem.
Qed.

Lemma cl_app_l : forall a b, CL (CL a ++ b) = CL (a ++ b).
Proof.
  induction a as [|v a IH|a IH|n k a IHk IH] using forest_ind; intro b; rewrite ?cl_val, ?cl_eof, ?cl_rule; cbn [app]; try reflexivity.
  - rewrite cl_glue, IH, cl_val. reflexivity.
  - rewrite !cl_eof, IH. reflexivity.
  - rewrite !cl_rule, IH, cl_idem. reflexivity.
Qed.

(* ------------------------------------------------------------------------------------------- *)
(** * compact and prune *)

Lemma pl_val : forall a v l, prune_list a (Val v :: l) = Val v :: prune_list a l. Proof. reflexivity. Qed.
Lemma pl_eof : forall a l, prune_list a (EOF :: l) = EOF :: prune_list a l. Proof. reflexivity. Qed.
Lemma pl_rule : forall a n k l, prune_list a (Rule n k :: l) = if name_in a n then prune_list a l else Rule n (prune_list a k) :: prune_list a l.
Proof. intros. unfold prune_list at 1. cbn [flat_map node2prune]. destruct (name_in a n); [reflexivity|]. rewrite prune_unfold. reflexivity. Qed.
Lemma pl_app : forall a l r, prune_list a (l ++ r) = prune_list a l ++ prune_list a r.
Proof. intros. unfold prune_list. apply flat_map_app. Qed.

Lemma cl_prune_glue : forall a v l, CL (prune_list a (glue v l)) = glue v (CL (prune_list a l)).
Proof.
  intros a v [|[u|n k|] l]; cbn [glue]; rewrite ?pl_val, ?cl_val, ?glue_glue; reflexivity.
Qed.

Lemma cl_prune : forall a l, CL (prune_list a (CL l)) = CL (prune_list a l).
Proof.
  intro a. induction l as [|v l IH|l IH|n k l IHk IH] using forest_ind.
  - reflexivity.
  - rewrite cl_val, cl_prune_glue, IH, pl_val, cl_val. reflexivity.
  - rewrite cl_eof, !pl_eof, !cl_eof, IH. reflexivity.
  - rewrite cl_rule, !pl_rule. destruct (name_in a n); [exact IH|]. rewrite !cl_rule, IH, IHk. reflexivity.
Qed.

Lemma compact_prune_compact : forall a nd, compact (prune a (compact nd)) = compact (prune a nd).
Proof.
  intros a [v|n l|]; try reflexivity. rewrite (compact_rule n l), !prune_unfold, !compact_rule, cl_prune. reflexivity.
Qed.

(* ------------------------------------------------------------------------------------------- *)
(** * compact and pass_through_except *)

Lemma pt_val : forall k v l, pthr_vn k (Val v :: l) = Val v :: pthr_vn k l. Proof. intros. rewrite pthr_vn_cons. reflexivity. Qed.
Lemma pt_eof : forall k l, pthr_vn k (EOF :: l) = EOF :: pthr_vn k l. Proof. intros. rewrite pthr_vn_cons. reflexivity. Qed.
Lemma pt_rule : forall k n q l, pthr_vn k (Rule n q :: l) = if name_in k n then Rule n (pthr_vn k q) :: pthr_vn k l else pthr_vn k q ++ pthr_vn k l.
Proof. intros. rewrite pthr_vn_cons, pthr_rule. destruct (name_in k n); reflexivity. Qed.

Lemma cl_pass_glue : forall k v l, CL (pthr_vn k (glue v l)) = glue v (CL (pthr_vn k l)).
Proof. intros k v [|[u|n q|] l]; cbn [glue]; rewrite ?pt_val, ?cl_val, ?glue_glue; reflexivity. Qed.

Lemma cl_pass : forall k l, CL (pthr_vn k (CL l)) = CL (pthr_vn k l).
Proof.
  intro k. induction l as [|v l IH|l IH|n q l IHq IH] using forest_ind.
  - reflexivity.
  - rewrite cl_val, cl_pass_glue, IH, pt_val, cl_val. reflexivity.
  - rewrite cl_eof, !pt_eof, !cl_eof, IH. reflexivity.
  - rewrite cl_rule, !pt_rule. destruct (name_in k n).
    + rewrite !cl_rule, IH, IHq. reflexivity.
    + rewrite <- (cl_app_l (pthr_vn k (CL q))), IHq, cl_app_l, <- (cl_app_r (pthr_vn k q)), IH, cl_app_r. reflexivity.
Qed.

Lemma compact_pass_compact : forall k nd, compact (pass_through_except k (compact nd)) = compact (pass_through_except k nd).
Proof.
  intros k [v|n l|]; try reflexivity. rewrite (compact_rule n l). cbn [pass_through_except]. rewrite !compact_rule, cl_pass. reflexivity.
Qed.

(* ------------------------------------------------------------------------------------------- *)
(** * pass_through_except with itself and with prune *)

Lemma name_in_iff : forall k k' n, (In n k <-> In n k') -> name_in k n = name_in k' n.
Proof.
  intros k k' n H. destruct (name_in k n) eqn:A, (name_in k' n) eqn:B; try reflexivity.
  - apply name_in_spec in A. apply name_in_false in B. tauto.
  - apply name_in_spec in B. apply name_in_false in A. tauto.
Qed.

Lemma name_in_both : forall k1 k2 k n, (In n k <-> In n k1 /\ In n k2) -> name_in k n = name_in k1 n && name_in k2 n.
Proof.
  intros k1 k2 k n H. destruct (name_in k n) eqn:A, (name_in k1 n) eqn:B, (name_in k2 n) eqn:C; cbn; try reflexivity;
    rewrite ?name_in_spec, ?name_in_false in *; tauto.
Qed.

Lemma pass_pass_list : forall k1 k2 k, (forall n, In n k <-> In n k1 /\ In n k2) -> forall l, pthr_vn k2 (pthr_vn k1 l) = pthr_vn k l.
Proof.
  intros k1 k2 k H. induction l as [|v l IH|l IH|n q l IHq IH] using forest_ind.
  - reflexivity.
  - rewrite !pt_val, IH. reflexivity.
  - rewrite !pt_eof, IH. reflexivity.
  - rewrite !pt_rule, (name_in_both k1 k2 k n (H n)). destruct (name_in k1 n); cbn [andb].
    + rewrite pt_rule, IHq, IH. reflexivity.
    + rewrite pthr_vn_app, IHq, IH. reflexivity.
Qed.

Lemma pass_pass : forall k1 k2 k, (forall n, In n k <-> In n k1 /\ In n k2) ->
  forall nd, pass_through_except k2 (pass_through_except k1 nd) = pass_through_except k nd.
Proof. intros k1 k2 k H [v|n l|]; try reflexivity. cbn [pass_through_except]. rewrite (pass_pass_list k1 k2 k H). reflexivity. Qed.

Lemma pass_ext : forall k k', (forall n, In n k <-> In n k') -> forall nd, pass_through_except k nd = pass_through_except k' nd.
Proof.
  intros k k' H. assert (L : forall l, pthr_vn k l = pthr_vn k' l).
  { induction l as [|v l IH|l IH|n q l IHq IH] using forest_ind; rewrite ?pt_val, ?pt_eof, ?pt_rule, ?IH, ?IHq; try reflexivity.
    rewrite (name_in_iff k k' n (H n)). reflexivity. }
  intros [v|n l|]; try reflexivity. cbn [pass_through_except]. rewrite L. reflexivity.
Qed.

Lemma prune_pass_list : forall a k b, (forall n, In n b <-> In n a /\ In n k) -> forall l, prune_list a (pthr_vn k l) = pthr_vn k (prune_list b l).
Proof.
  intros a k b H. induction l as [|v l IH|l IH|n q l IHq IH] using forest_ind.
  - reflexivity.
  - rewrite pl_val, !pt_val, pl_val, IH. reflexivity.
  - rewrite pl_eof, !pt_eof, pl_eof, IH. reflexivity.
  - rewrite pl_rule, pt_rule, (name_in_both a k b n (H n)). destruct (name_in k n) eqn:K; rewrite ?andb_true_r, ?andb_false_r.
    + rewrite pl_rule. destruct (name_in a n); [exact IH|]. rewrite pt_rule, K, IHq, IH. reflexivity.
    + rewrite pl_app, pt_rule, K, IHq, IH. reflexivity.
Qed.

Lemma prune_pass : forall a k b, (forall n, In n b <-> In n a /\ In n k) ->
  forall nd, prune a (pass_through_except k nd) = pass_through_except k (prune b nd).
Proof.
  intros a k b H [v|n l|]; try reflexivity. cbn [pass_through_except]. rewrite !prune_unfold. cbn [pass_through_except].
  rewrite (prune_pass_list a k b H). reflexivity.
Qed.

Lemma prune_pass_commute : forall a k, (forall n, In n a -> In n k) ->
  forall nd, prune a (pass_through_except k nd) = pass_through_except k (prune a nd).
Proof. intros a k H nd. apply prune_pass. intro n. specialize (H n). tauto. Qed.

Lemma prune_nil : forall nd, prune [] nd = nd.
Proof.
  assert (L : forall l, prune_list [] l = l).
  { induction l as [|v l IH|l IH|n q l IHq IH] using forest_ind; rewrite ?pl_val, ?pl_eof, ?pl_rule, ?IH, ?IHq; reflexivity. }
  intros [v|n l|]; try reflexivity. rewrite prune_unfold, L. reflexivity.
Qed.

Lemma prune_pass_disjoint : forall a k, (forall n, In n a -> ~ In n k) ->
  forall nd, prune a (pass_through_except k nd) = pass_through_except k nd.
Proof.
  intros a k H nd. rewrite (prune_pass a k []); [rewrite prune_nil; reflexivity|]. intro n. specialize (H n). cbn. tauto.
Qed.

(** If the two orders agree on every tree, every pruned name is kept. *)
Lemma prune_pass_only : forall a k,
  (forall nd, prune a (pass_through_except k nd) = pass_through_except k (prune a nd)) -> forall n, In n a -> In n k.
Proof.
  intros a k H n A. destruct (name_in k n) eqn:K; [apply name_in_spec; exact K|].
  specialize (H (Rule [] [Rule n [Val []]])). cbn [pass_through_except] in H. rewrite !prune_unfold in H. cbn [pass_through_except] in H.
  rewrite pl_rule, pt_rule, K in H. apply name_in_spec in A. rewrite A, pt_val in H. discriminate.
Qed.

(** Sufficient and necessary: the tools may be chained in any order up to a final compact. *)
Lemma pipeline : forall a k nd, (forall n, In n a -> In n k) ->
  compact (pass_through_except k (compact (prune a (compact nd)))) = compact (prune a (pass_through_except k nd)).
Proof.
  intros a k nd H. rewrite compact_pass_compact, prune_pass_commute by exact H.
  rewrite <- compact_pass_compact, compact_prune_compact, compact_pass_compact. reflexivity.
Qed.
