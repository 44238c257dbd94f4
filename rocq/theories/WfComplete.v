(** The static check is exact: it accepts every well-formed rule set. *)
From Verif Require Import Base ModelAst ModelParser SpecPeg SpecWf ProofParser ProofEngine ProofWf WfCheck.

Lemma filter_len_le : forall A (P Q : A -> bool) l, (forall x, P x = true -> Q x = true) ->
  length (filter P l) <= length (filter Q l).
Proof.
  intros A P Q l H. induction l as [|x l IH]; [reflexivity|]. cbn. destruct (P x) eqn:E.
  - rewrite (H x E). cbn. lia.
  - destruct (Q x); cbn; lia.
Qed.

Lemma filter_len_eq : forall A (P Q : A -> bool) l, (forall x, P x = true -> Q x = true) ->
  length (filter P l) = length (filter Q l) -> filter P l = filter Q l.
Proof.
  intros A P Q l H. induction l as [|x l IH]; intro E; [reflexivity|]. cbn in *. destruct (P x) eqn:F.
  - rewrite (H x F) in *. cbn in E. f_equal. apply IH. lia.
  - destruct (Q x) eqn:F2; [|apply IH; exact E]. cbn in E. pose proof (filter_len_le A P Q l H). lia.
Qed.

(** Iterating a monotone selection of rule names reaches a fixed point in [length rs] steps. *)
Section Iterate.
Variable rs : rules.
Variable Q : list str -> str * expr -> bool.
Hypothesis MONO : forall a b, incl a b -> forall p, Q a p = true -> Q b p = true.
Let stepf (ns : list str) : list str := map fst (filter (Q ns) rs).

Lemma iter_incl : forall k, incl (iter k stepf []) (iter (S k) stepf []).
Proof.
  induction k as [|k IH]; [intros x []|]. intros x H. cbn [iter] in *. unfold stepf at 1 in H. unfold stepf at 1.
  apply in_map_iff in H. destruct H as (p & E & H). apply filter_In in H. apply in_map_iff. exists p. split; [exact E|].
  apply filter_In. split; [apply H|]. apply (MONO _ _ IH). apply H.
Qed.

Lemma iter_stable : forall k, stepf (iter k stepf []) = iter k stepf [] \/ k <= length (iter k stepf []).
Proof.
  induction k as [|k [IH|IH]]; [right; cbn; lia|left; cbn [iter]; congruence|].
  cbn [iter]. destruct (Nat.eq_dec (length (stepf (iter k stepf []))) (length (iter k stepf []))) as [E|E].
  - left. destruct k as [|k].
    + cbn [iter length] in *. assert (X : stepf [] = []) by (destruct (stepf []); [reflexivity|cbn in E; lia]).
      rewrite X. exact X.
    + cbn [iter]. cbn [iter] in E. set (a := iter k stepf []) in *. unfold stepf at 1 in E. rewrite map_length in E.
      unfold stepf at 2 in E. rewrite map_length in E.
      assert (I : forall p, Q a p = true -> Q (stepf a) p = true) by (apply MONO; exact (iter_incl k)).
      assert (X : stepf (stepf a) = stepf a) by (unfold stepf at 1 3; f_equal; symmetry; apply filter_len_eq; [exact I|lia]).
      rewrite X. exact X.
  - right. assert (L : length (iter k stepf []) <= length (stepf (iter k stepf []))).
    { destruct k as [|k]; [cbn; lia|]. cbn [iter]. unfold stepf at 1 3. rewrite !map_length. apply filter_len_le.
      apply MONO. exact (iter_incl k). }
    lia.
Qed.

Lemma iter_fixed : stepf (iter (length rs) stepf []) = iter (length rs) stepf [].
Proof.
  destruct (iter_stable (length rs)) as [E|E]; [exact E|]. destruct (length rs) as [|k] eqn:L.
  - destruct rs; [reflexivity|discriminate].
  - cbn [iter] in *. set (a := iter k stepf []) in *. unfold stepf at 1 3. f_equal.
    symmetry. apply filter_len_eq; [apply MONO; exact (iter_incl k)|].
    unfold stepf in E at 1. rewrite map_length in E.
    assert (X : forall P : str * expr -> bool, length (filter P rs) <= length rs).
    { intro P. induction rs as [|x l IHl]; [reflexivity|]. cbn. destruct (P x); cbn.
      all: clear - x l P. all: assert (Y : length (filter P l) <= length l) by (induction l as [|y l IH]; [reflexivity|cbn; destruct (P y); cbn; lia]); lia. }
    pose proof (filter_len_le _ _ _ rs (MONO _ _ (iter_incl k))) as Y. pose proof (X (Q (stepf a))) as Z.
    change (iter (S k) stepf []) with (stepf a) in Y. change (iter k stepf []) with a in Y. lia.
Qed.
End Iterate.

Lemma nullb_mono : forall e l1 l2, incl l1 l2 -> nullb l1 e = true -> nullb l2 e = true.
Proof.
  intro e. induction e using expr_ind'; intros l1 l2 I N; cbn [nullb] in *.
  - exact N.
  - rewrite forallb_forall in *. rewrite Forall_forall in H. intros x X. exact (H x X l1 l2 I (N x X)).
  - rewrite existsb_exists in *. rewrite Forall_forall in H. destruct N as (x & X & N). exists x. split; [exact X|exact (H x X l1 l2 I N)].
  - reflexivity.
  - apply orb_true_iff in N. apply orb_true_iff. destruct N as [N|N]; [left; exact N|right; exact (IHe l1 l2 I N)].
  - apply memb_in. apply memb_in in N. exact (I _ N).
Qed.

Section Complete.
Variable rs : rules.
Hypothesis UN : forall p, In p rs -> rules_get rs (fst p) = Some (snd p).
Let G := rules_get rs.
Let ns := null_set rs.

Lemma null_fixed : null_step rs ns = ns.
Proof.
  unfold ns, null_set. apply (iter_fixed rs (fun l p => nullb l (snd p))).
  intros a b I p N. exact (nullb_mono _ a b I N).
Qed.

Lemma null_closed : forall n e, G n = Some e -> nullb ns e = true -> In n ns.
Proof.
  intros n e E N. rewrite <- null_fixed. unfold null_step. apply in_map_iff. exists (n, e). split; [reflexivity|].
  apply filter_In. split; [exact (get_in rs n e E)|exact N].
Qed.

Lemma nullb_true_gen : forall l, (forall n, In n l -> may_be_empty G (RuleName n)) -> forall e, nullb l e = true -> may_be_empty G e.
Proof.
  intros l H e. induction e using expr_ind'; cbn [nullb]; intro N.
  - destruct a as [[|c s]| | | |]; try discriminate; constructor.
  - induction H0 as [|x es X1 X2 IH]; [constructor|]. cbn in N. apply andb_true_iff in N. destruct N. constructor; auto.
  - apply existsb_exists in N. destruct N as (x & X & N). rewrite Forall_forall in H0. eapply me_or; [exact X|auto].
  - constructor.
  - apply orb_true_iff in N. destruct N as [N|N].
    + apply Nat.eqb_eq in N. subst. constructor.
    + apply me_rep. auto.
  - apply H. apply memb_in. exact N.
Qed.

Lemma null_set_true : forall k n, In n (iter k (null_step rs) []) -> may_be_empty G (RuleName n).
Proof.
  induction k as [|k IH]; intros n H; [destruct H|]. cbn [iter] in H. unfold null_step in H at 1.
  apply in_map_iff in H. destruct H as ([n' e] & E & H). cbn in E. subst n'. apply filter_In in H. destruct H as [H1 H2].
  apply me_rule with (e := e); [exact (UN _ H1)|]. exact (nullb_true_gen _ IH e H2).
Qed.

Lemma nullb_true : forall e, nullb ns e = true -> may_be_empty G e.
Proof. exact (nullb_true_gen ns (null_set_true (length rs))). Qed.

Lemma firsts_true : forall e n, In n (firsts ns e) -> calls_first G e n.
Proof.
  intro e. induction e using expr_ind'; cbn [firsts]; intros n' H'.
  - destruct H'.
  - induction H as [|x es X1 X2 IH]; [destruct H'|]. apply in_app_or in H'. destruct H' as [H'|H'].
    + apply cf_and_here. exact (X1 _ H').
    + destruct (nullb ns x) eqn:N; [|destruct H']. apply cf_and_next; [exact (nullb_true x N)|exact (IH H')].
  - apply in_flat_map in H'. destruct H' as (x & X & H'). rewrite Forall_forall in H. eapply cf_or; [exact X|exact (H x X _ H')].
  - apply cf_not. auto.
  - apply cf_rep. auto.
  - destruct H' as [<-|[]]. constructor.
Qed.

Lemma loopsb_true : forall e, (forall x mn mx, occurs (Repeat x mn mx) e -> unlimited mx -> ~ may_be_empty G x) -> loopsb ns e = true.
Proof.
  intro e. induction e using expr_ind'; intro K; cbn [loopsb]; try reflexivity.
  - apply forallb_forall. rewrite Forall_forall in H. intros x X. apply (H x X). intros y mn mx O. refine (K y mn mx _). eapply oc_and; eassumption.
  - apply forallb_forall. rewrite Forall_forall in H. intros x X. apply (H x X). intros y mn mx O. refine (K y mn mx _). eapply oc_or; eassumption.
  - apply IHe. intros y mn mx O. refine (K y mn mx _). apply oc_not. exact O.
  - apply andb_true_iff. split.
    + apply IHe. intros y mn' mx' O. refine (K y mn' mx' _). apply oc_rep. exact O.
    + assert (X : unlimited mx -> negb (nullb ns e) = true).
      { intro U. apply negb_true_iff. destruct (nullb ns e) eqn:N; [|reflexivity]. exfalso.
        exact (K e mn mx (oc_here _) U (nullb_true e N)). }
      destruct mx as [[|m]|]; [apply X; right; reflexivity|reflexivity|apply X; left; reflexivity].
Qed.

Hypothesis NLR : no_left_recursion G.

Let oset := order_set rs ns (length rs).

Lemma order_fixed : order_step rs ns oset = oset.
Proof.
  unfold oset, order_set.
  apply (iter_fixed rs (fun l p => forallb (fun m => memb m l || negb (memb m (map fst rs))) (firsts ns (snd p)))).
  intros a b I p N. rewrite forallb_forall in *. intros x X. specialize (N x X). apply orb_true_iff in N. apply orb_true_iff.
  destruct N as [N|N]; [left; apply memb_in; apply memb_in in N; exact (I _ N)|right; exact N].
Qed.

Lemma order_full : forall k v n e, length rs <= k + length v -> visited rs (n :: v) -> G n = Some e -> In n oset.
Proof.
  induction k as [|k IH]; intros v n e L V E.
  - exfalso. pose proof (visited_len rs _ V) as X. cbn in X. lia.
  - rewrite <- order_fixed. unfold order_step. apply in_map_iff. exists (n, e). split; [reflexivity|].
    apply filter_In. split; [exact (get_in rs n e E)|]. cbn [snd]. apply forallb_forall. intros m M. apply orb_true_iff.
    destruct (memb m (map fst rs)) eqn:MM; [left|right; reflexivity]. apply memb_in.
    apply memb_in in MM. apply in_map_iff in MM. destruct MM as ([m' e'] & E1 & E2). cbn in E1. subst m'. pose proof (UN _ E2) as E3. cbn in E3.
    destruct (enter rs NLR (n :: v) m e') as (V' & _ & _); try assumption.
    + intros x Hx C. inversion C; subst. split; [exact Hx|]. exists e. split; [exact E|]. exact (firsts_true e x M).
    + apply (IH (n :: v) m e'); [cbn; lia|exact V'|exact E3].
Qed.

Lemma order_all : forall p, In p rs -> In (fst p) oset.
Proof.
  intros [n e] H. pose proof (UN _ H) as E. cbn in E.
  destruct (enter rs NLR [] n e (visited_nil rs) I E) as (V & _ & _).
  apply (order_full (length rs) [] n e); [cbn; lia|exact V|exact E].
Qed.
End Complete.

Theorem wf_check_complete : forall rs, uniqueb rs = true -> well_formed (rules_get rs) -> wf_check rs = true.
Proof.
  intros rs U [NLR NEL]. pose proof (uniqueb_get rs U) as UN. unfold wf_check. rewrite !andb_true_iff. split; [split|]; apply forallb_forall; intros p H.
  - destruct (nullb (null_set rs) (snd p)) eqn:N; [|reflexivity]. cbn. apply memb_in. exact (null_closed rs _ _ (UN p H) N).
  - apply memb_in. exact (order_all rs UN NLR p H).
  - apply (loopsb_true rs UN). intros x mn mx O. exact (NEL _ _ x mn mx (UN p H) O).
Qed.
