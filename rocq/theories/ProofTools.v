(** Cost of the tools for trees. *)
From Verif Require Import Base ModelAst ModelParser ModelTools SpecPeg SpecPos SpecApi SpecTools ProofAst.

(** * The results are those of the tools *)

Lemma t_fold_same {A} : forall (step : A -> node -> A * cost) (f : A -> node -> A) l acc c,
  Forall (fun x => forall a, fst (step a x) = f a x) l -> fst (t_fold step acc c l) = fold_left f l acc.
Proof.
  intros step f l. induction l as [|x l IH]; intros acc c H; cbn [t_fold fold_left]; [reflexivity|].
  pose proof (Forall_inv H) as Hx. cbn in Hx. rewrite <- Hx. apply IH. exact (Forall_inv_tail H).
Qed.

Lemma t_prune_same : forall names nd, fst (t_prune names nd) = prune names nd.
Proof.
  intros names nd. induction nd as [v|n l IH|] using node_ind'; [reflexivity| |reflexivity].
  rewrite prune_unfold. cbn [t_prune fst]. f_equal. rewrite (t_fold_same _ (fun acc x => if negb (node2prune names x) then acc ++ [prune names x] else acc)).
  - assert (H : forall acc, fold_left (fun acc x => if negb (node2prune names x) then acc ++ [prune names x] else acc) l acc = acc ++ prune_list names l).
    { unfold prune_list. clear IH. induction l as [|x l IHl]; intro acc; cbn [fold_left flat_map]; [rewrite app_nil_r; reflexivity|]. rewrite IHl.
      destruct (node2prune names x); cbn [negb app]; [reflexivity|]. rewrite <- app_assoc. reflexivity. }
    apply H.
  - eapply Forall_impl; [|exact IH]. cbn. intros x E a. destruct (negb (node2prune names x)); cbn [fst]; [rewrite E|]; reflexivity.
Qed.

Lemma pthr_fold : forall names l, fst (t_fold (fun acc x => (acc ++ fst (t_pthr names x), snd (t_pthr names x))) [] c_none l) =
  fold_left (fun acc x => acc ++ fst (t_pthr names x)) l [].
Proof. intros names l. apply t_fold_same. apply Forall_forall. intros x _ a. reflexivity. Qed.

Lemma t_pthr_same : forall names nd, fst (t_pthr names nd) = pthr names nd.
Proof.
  intros names nd. induction nd as [v|n l IH|] using node_ind'; [reflexivity| |reflexivity].
  rewrite pthr_rule. cbn [t_pthr node2keep].
  assert (E : fst (t_fold (fun acc x => (acc ++ fst (t_pthr names x), snd (t_pthr names x))) [] c_none l) = pthr_vn names l).
  { rewrite pthr_fold. unfold pthr_vn. generalize (@nil node). induction l as [|x l IHl]; intro acc; cbn [fold_left]; [reflexivity|].
    rewrite (Forall_inv IH). apply IHl. exact (Forall_inv_tail IH). }
  destruct (name_in names n); cbn [fst]; rewrite E; reflexivity.
Qed.

Lemma t_pass_same : forall names nd, fst (t_pass_through_except names nd) = pass_through_except names nd.
Proof.
  intros names [v|n l|]; [reflexivity| |reflexivity]. cbn [t_pass_through_except pass_through_except fst]. f_equal.
  rewrite pthr_fold. unfold pthr_vn. generalize (@nil node). induction l as [|x l IHl]; intro acc; cbn [fold_left]; [reflexivity|].
  rewrite t_pthr_same. apply IHl.
Qed.

Lemma t_compact_same : forall nd, fst (t_compact nd) = compact nd.
Proof.
  intros nd. induction nd as [v|n l IH|] using node_ind'; [reflexivity| |reflexivity].
  rewrite compact_rule. cbn [t_compact fst]. f_equal. rewrite (t_fold_same _ (concat_nodes compact)).
  - assert (H : forall acc, fold_left (concat_nodes compact) l acc = compact_loop acc l) by (clear IH; induction l as [|x l IHl]; intro acc; [reflexivity|apply IHl]).
    apply H.
  - eapply Forall_impl; [|exact IH]. cbn. intros x E a. unfold t_concat_nodes, concat_nodes.
    destruct x as [v|m k|]; [destruct (last_val a); reflexivity| |reflexivity]. cbn [fst]. rewrite E. reflexivity.
Qed.

Lemma t_flatten_acc_same : forall nd acc, fst (t_flatten_acc acc nd) = flatten_acc acc nd.
Proof.
  intros nd. induction nd as [v|n l IH|] using node_ind'; intro acc; [reflexivity| |reflexivity].
  cbn [t_flatten_acc flatten_acc fst]. f_equal. rewrite (t_fold_same _ flatten_acc).
  - generalize (acc ++ [FBegin n]). clear acc. induction l as [|x l IHl]; intro acc; cbn [fold_left]; [reflexivity|]. apply IHl. exact (Forall_inv_tail IH).
  - exact IH.
Qed.

Lemma t_flatten_same : forall nd, fst (t_flatten nd) = flatten nd.
Proof. intro nd. apply t_flatten_acc_same. Qed.

(** * Upper bounds *)

Definition weights (l : list node) : nat := fold_right (fun x w => weight x + w) 0 l.
Definition heights (l : list node) : nat := fold_right (fun x h => Nat.max (height x) h) 0 l.

Lemma weight_rule : forall n l, weight (Rule n l) = 1 + length n + weights l.
Proof. reflexivity. Qed.
Lemma height_rule : forall n l, height (Rule n l) = S (heights l).
Proof. reflexivity. Qed.
Lemma weight_pos : forall nd, 1 <= weight nd.
Proof. intros [v|n l|]; cbn [weight]; lia. Qed.
Lemma weights_cons : forall x l, weights (x :: l) = weight x + weights l.
Proof. reflexivity. Qed.
Lemma heights_cons : forall x l, heights (x :: l) = Nat.max (height x) (heights l).
Proof. reflexivity. Qed.

Lemma work_call : forall a, work (c_call a) = S (work a). Proof. reflexivity. Qed.
Lemma work_seq : forall a b, work (c_seq a b) = work a + work b. Proof. reflexivity. Qed.
Lemma work_pay : forall k, work (c_pay k) = k. Proof. reflexivity. Qed.
Lemma work_none : work c_none = 0. Proof. reflexivity. Qed.
Lemma nest_call : forall a, nest (c_call a) = S (nest a). Proof. reflexivity. Qed.
Lemma nest_seq : forall a b, nest (c_seq a b) = Nat.max (nest a) (nest b). Proof. reflexivity. Qed.
Lemma nest_pay : forall k, nest (c_pay k) = 0. Proof. reflexivity. Qed.
Lemma nest_none : nest c_none = 0. Proof. reflexivity. Qed.
Ltac costs := rewrite ?work_call, ?work_seq, ?work_pay, ?work_none, ?nest_call, ?nest_seq, ?nest_pay, ?nest_none in *.

(** The work of a fold is the sum of that of its steps, its nesting the maximum. *)
Lemma t_fold_work {A} : forall (step : A -> node -> A * cost) (g : node -> nat) l acc c,
  Forall (fun x => forall a, work (snd (step a x)) <= g x) l ->
  work (snd (t_fold step acc c l)) <= work c + fold_right (fun x w => g x + w) 0 l.
Proof.
  intros step g l. induction l as [|x l IH]; intros acc c H; cbn [t_fold fold_right snd]; [lia|].
  pose proof (Forall_inv H acc) as W. pose proof (IH (fst (step acc x)) (c_seq c (snd (step acc x))) (Forall_inv_tail H)) as W'. costs. cbn beta in *. lia.
Qed.

Lemma fold_nest {A} : forall (step : A -> node -> A * cost) (h : node -> nat) l acc c,
  Forall (fun x => forall a, nest (snd (step a x)) = h x) l ->
  nest (snd (t_fold step acc c l)) = Nat.max (nest c) (fold_right (fun x w => Nat.max (h x) w) 0 l).
Proof.
  intros step h l. induction l as [|x l IH]; intros acc c H; cbn [t_fold fold_right snd]; [lia|].
  pose proof (Forall_inv H acc) as N. cbn beta in N. rewrite (IH _ _ (Forall_inv_tail H)). costs. lia.
Qed.

Lemma sum_mul : forall k l, fold_right (fun x w => k * weight x + w) 0 l = k * weights l.
Proof. intros k l. induction l as [|x l IH]; cbn [fold_right]; [unfold weights; cbn; lia|]. rewrite weights_cons, IH. lia. Qed.

Lemma fold_work {A} : forall k (step : A -> node -> A * cost) l acc c,
  Forall (fun x => forall a, work (snd (step a x)) <= k * weight x) l -> work (snd (t_fold step acc c l)) <= work c + k * weights l.
Proof. intros k step l acc c H. rewrite <- sum_mul. exact (t_fold_work step (fun x => k * weight x) l acc c H). Qed.

Lemma prune_work : forall names nd, work (snd (t_prune names nd)) + 1 <= 2 * weight nd.
Proof.
  intros names nd. induction nd as [v|n l IH|] using node_ind'; [cbn [t_prune snd weight]; costs; lia| |cbn [t_prune snd weight]; costs; lia].
  cbn [t_prune snd]. rewrite weight_rule. costs.
  match goal with |- context [t_fold ?s [] c_none l] => assert (W : work (snd (t_fold s [] c_none l)) <= work c_none + 2 * weights l); [apply fold_work|costs; lia] end.
  eapply Forall_impl; [|exact IH]. cbn beta. intros x E a. pose proof (weight_pos x).
  destruct (negb (node2prune names x)); cbn [snd]; costs; lia.
Qed.

Lemma flatten_work : forall nd acc, work (snd (t_flatten_acc acc nd)) <= 3 * weight nd.
Proof.
  intros nd. induction nd as [v|n l IH|] using node_ind'; intro acc; [cbn [t_flatten_acc snd weight]; costs; lia| |cbn [t_flatten_acc snd weight]; costs; lia].
  cbn [t_flatten_acc snd]. rewrite weight_rule. costs.
  pose proof (fold_work 3 t_flatten_acc l (acc ++ [FBegin n]) c_none IH) as W. costs.
  change (fun facc x => t_flatten_acc facc x) with t_flatten_acc in *. lia.
Qed.

Lemma flatten_nest : forall x a, nest (snd (t_flatten_acc a x)) = height x.
Proof.
  induction x as [v|m k IHk|] using node_ind'; intro a; [reflexivity| |reflexivity]. cbn [t_flatten_acc snd]. costs. rewrite height_rule. f_equal.
  change (fun facc x => t_flatten_acc facc x) with t_flatten_acc. rewrite (fold_nest _ height k (a ++ [FBegin m]) c_none IHk). costs. reflexivity.
Qed.

Lemma pthr_nest : forall names x, nest (snd (t_pthr names x)) = height x.
Proof.
  intros names x. induction x as [v|m k IHk|] using node_ind'; [reflexivity| |reflexivity]. cbn [t_pthr snd]. rewrite height_rule.
  assert (F : nest (snd (t_fold (fun acc x => (acc ++ fst (t_pthr names x), snd (t_pthr names x))) [] c_none k)) = heights k).
  { rewrite (fold_nest _ height k [] c_none); [reflexivity|]. eapply Forall_impl; [|exact IHk]. intros y E a. exact E. }
  destruct (node2keep names (Rule m k)); cbn [snd]; costs; rewrite F; lia.
Qed.

Lemma pass_nest : forall names x, nest (snd (t_pass_through_except names x)) = height x.
Proof.
  intros names [v|m k|]; [reflexivity| |reflexivity]. cbn [t_pass_through_except snd]. rewrite height_rule. costs. f_equal.
  rewrite (fold_nest _ height k [] c_none); [reflexivity|]. apply Forall_forall. intros y _ a. apply pthr_nest.
Qed.

Lemma prune_nest : forall names x, nest (snd (t_prune names x)) = height (prune names x).
Proof.
  intros names x. induction x as [v|m k IHk|] using node_ind'; [reflexivity| |reflexivity]. rewrite prune_unfold, height_rule.
  cbn [t_prune snd]. costs. f_equal.
  rewrite (fold_nest _ (fun x => if negb (node2prune names x) then height (prune names x) else 0) k [] c_none).
  - costs. cbn [Nat.max]. unfold heights, prune_list. clear IHk. induction k as [|y k IH]; cbn [fold_right flat_map]; [reflexivity|].
    rewrite IH. destruct (node2prune names y); cbn [fold_right app negb]; lia.
  - eapply Forall_impl; [|exact IHk]. cbn beta. intros y E a. destruct (negb (node2prune names y)); [|reflexivity]. cbn [snd]. costs. lia.
Qed.

(** * pass_through_except *)

Lemma pthr_len : forall names nd, length (pthr names nd) <= weight nd.
Proof.
  intros names nd. induction nd as [v|n l IH|] using node_ind'; [cbn; lia| |cbn; lia].
  rewrite pthr_rule, weight_rule. assert (L : length (pthr_vn names l) <= weights l).
  { clear n. induction l as [|x l IHl]; [cbn; lia|]. rewrite pthr_vn_cons, app_length, weights_cons.
    pose proof (Forall_inv IH) as H1. pose proof (IHl (Forall_inv_tail IH)). cbn beta in H1. lia. }
  destruct (name_in names n); [cbn [length]; lia|lia].
Qed.

Lemma pthr_fold_eq : forall names l, fst (t_fold (fun acc x => (acc ++ fst (t_pthr names x), snd (t_pthr names x))) [] c_none l) = pthr_vn names l.
Proof.
  intros names l. rewrite pthr_fold. unfold pthr_vn. generalize (@nil node). induction l as [|x l IHl]; intro acc; cbn [fold_left]; [reflexivity|].
  rewrite t_pthr_same. apply IHl.
Qed.

Lemma height_in : forall x l, In x l -> height x <= heights l.
Proof. intros x l. induction l as [|y l IH]; [intros []|]. rewrite heights_cons. intros [-> | I]; [lia|]. specialize (IH I). lia. Qed.

Lemma pthr_fold_work : forall names l h, Forall (fun x => work (snd (t_pthr names x)) <= 2 * weight x * height x) l -> heights l <= h ->
  work (snd (t_fold (fun acc x => (acc ++ fst (t_pthr names x), snd (t_pthr names x))) [] c_none l)) <= 2 * h * weights l.
Proof.
  intros names l h IH Hh.
  pose proof (fold_work (2 * h) (fun acc x => (acc ++ fst (t_pthr names x), snd (t_pthr names x))) l [] c_none) as W.
  costs. apply W. apply Forall_forall. intros x I a. cbn [snd]. rewrite Forall_forall in IH.
  pose proof (IH x I). pose proof (height_in x l I). nia.
Qed.

Lemma pthr_work : forall names nd, work (snd (t_pthr names nd)) <= 2 * weight nd * height nd.
Proof.
  intros names nd. induction nd as [v|n l IH|] using node_ind'; [cbn [t_pthr snd weight height]; costs; lia| |cbn [t_pthr snd weight height]; costs; lia].
  cbn [t_pthr]. rewrite weight_rule, height_rule. pose proof (pthr_fold_work names l (heights l) IH (le_n _)) as W.
  pose proof (pthr_fold_eq names l) as E.
  assert (L : length (pthr_vn names l) <= weights l).
  { clear. induction l as [|x l IHl]; [cbn; lia|]. rewrite pthr_vn_cons, app_length, weights_cons. pose proof (pthr_len names x). lia. }
  destruct (node2keep names (Rule n l)); cbn [snd]; costs; [nia|]. rewrite E. nia.
Qed.

Lemma pass_work : forall names nd, work (snd (t_pass_through_except names nd)) <= 2 * weight nd * height nd.
Proof.
  intros names [v|n l|]; [cbn [t_pass_through_except snd weight height]; costs; lia| |cbn [t_pass_through_except snd weight height]; costs; lia].
  cbn [t_pass_through_except snd]. costs. rewrite weight_rule, height_rule.
  pose proof (pthr_fold_work names l (heights l)) as W. rewrite Forall_forall in W. specialize (W (fun x _ => pthr_work names x) (le_n _)). nia.
Qed.

(** * compact *)

Lemma compact_nest : forall x, nest (snd (t_compact x)) <= height x /\ height x <= nest (snd (t_compact x)) + 1.
Proof.
  induction x as [v|m k IHk|] using node_ind'; [cbn; lia| |cbn; lia]. cbn [t_compact snd]. rewrite height_rule. costs.
  rewrite (fold_nest _ (fun x => match x with Rule _ _ => nest (snd (t_compact x)) | _ => 0 end) k [] c_none).
  - costs. induction k as [|y k IH]; [cbn; lia|]. rewrite heights_cons. cbn [fold_right]. specialize (IH (Forall_inv_tail IHk)). pose proof (Forall_inv IHk) as H. cbn beta in H.
    destruct y as [v|n l|]; [cbn [height]; lia|lia|cbn [height]; lia].
  - apply Forall_forall. intros [v|n l|] _ a; unfold t_concat_nodes; cbn [snd]; [destruct (last_val a); reflexivity|costs; lia|reflexivity].
Qed.

(** What is to be copied of an accumulator. *)
Definition last_len (acc : list node) : nat := match last_val acc with Some v => length v | None => 0 end.

Lemma compact_fold : forall l, Forall (fun x => work (snd (t_compact x)) <= 4 * (weight x * weight x)) l -> forall acc c A,
  1 <= A -> last_len acc <= A -> work c <= 4 * (A * A) ->
  work (snd (t_fold (t_concat_nodes t_compact) acc c l)) <= 4 * ((A + weights l) * (A + weights l)).
Proof.
  induction l as [|x l IHl]; intros IH acc c A HA HL HC; cbn [t_fold snd]; [unfold weights; cbn; rewrite Nat.add_0_r; exact HC|].
  rewrite weights_cons, Nat.add_assoc. pose proof (Forall_inv IH) as Hx. cbn beta in Hx. pose proof (weight_pos x) as PX.
  apply (IHl (Forall_inv_tail IH)); [lia| |].
  - unfold t_concat_nodes. unfold last_len in *. destruct x as [v|n k|]; [|cbn [fst]; rewrite last_val_snoc|cbn [fst]; rewrite last_val_snoc; lia].
    + destruct (last_val acc) as [pv|]; cbn [fst]; rewrite last_val_snoc; rewrite ?app_length; cbn [weight]; lia.
    + pose proof (t_compact_same (Rule n k)) as E. rewrite compact_rule in E. rewrite E. lia.
  - costs. unfold t_concat_nodes, last_len in *. destruct x as [v|n k|].
    + cbn [weight] in *. destruct (last_val acc) as [pv|]; cbn [snd]; costs; nia.
    + cbn [snd]. costs. destruct (last_val acc) as [pv|]; nia.
    + cbn [snd weight] in *. costs. destruct (last_val acc) as [pv|]; nia.
Qed.

Lemma compact_work : forall nd, work (snd (t_compact nd)) <= 4 * (weight nd * weight nd).
Proof.
  intro nd. induction nd as [v|n l IH|] using node_ind'; [cbn [t_compact snd weight]; costs; nia| |cbn [t_compact snd weight]; costs; nia].
  cbn [t_compact snd]. rewrite weight_rule. costs.
  assert (C : forall acc c k, work (snd (t_fold (t_concat_nodes t_compact) acc (c_seq (c_pay k) c) l)) = k + work (snd (t_fold (t_concat_nodes t_compact) acc c l))).
  { clear IH. induction l as [|x l IHl]; intros acc c k; cbn [t_fold snd]; [costs; reflexivity|].
    rewrite <- IHl. f_equal. f_equal. f_equal. unfold c_seq, c_pay, work, nest. cbn [fst snd]. f_equal. lia. }
  pose proof (compact_fold l IH [] (c_seq (c_pay (S (length n))) c_none) (1 + length n)) as W. rewrite C in W.
  change (fun acc x => t_concat_nodes t_compact acc x) with (t_concat_nodes t_compact).
  assert (B : S (length n) + work (snd (t_fold (t_concat_nodes t_compact) [] c_none l)) <= 4 * ((1 + length n + weights l) * (1 + length n + weights l))).
  { apply W; [lia|cbn; lia|costs; nia]. }
  lia.
Qed.

(** * Exact work *)

Lemma fold_exact {A} : forall (step : A -> node -> A * cost) (g : node -> nat) l acc c,
  Forall (fun x => forall a, work (snd (step a x)) = g x) l ->
  work (snd (t_fold step acc c l)) = work c + fold_right (fun x w => g x + w) 0 l.
Proof.
  intros step g l. induction l as [|x l IH]; intros acc c H; cbn [t_fold fold_right snd]; [lia|].
  pose proof (Forall_inv H acc) as W. cbn beta in W. rewrite (IH _ _ (Forall_inv_tail H)). costs. lia.
Qed.

Lemma prune_exact : forall names nd, work (snd (t_prune names nd)) + 1 = weight (prune names nd) + nodes (prune names nd).
Proof.
  intros names nd. induction nd as [v|n l IH|] using node_ind'; [cbn [t_prune snd weight prune nodes]; costs; lia| |reflexivity].
  rewrite prune_unfold, weight_rule. cbn [t_prune snd nodes]. costs.
  rewrite (fold_exact _ (fun x => if negb (node2prune names x) then work (snd (t_prune names x)) + 1 else 0) l [] c_none).
  - costs.
    assert (H : fold_right (fun x w => (if negb (node2prune names x) then work (snd (t_prune names x)) + 1 else 0) + w) 0 l =
      weights (prune_list names l) + fold_right (fun x k => nodes x + k) 0 (prune_list names l)).
    { unfold prune_list. induction IH as [|x l E _ IHl]; [reflexivity|]. cbn [fold_right flat_map]. rewrite IHl. destruct (node2prune names x); cbn [negb app fold_right]; [reflexivity|]. rewrite weights_cons. lia. }
    rewrite H. lia.
  - apply Forall_forall. intros x _ a. destruct (negb (node2prune names x)); cbn [snd]; costs; lia.
Qed.

Lemma flatten_exact : forall nd acc, work (snd (t_flatten_acc acc nd)) = weight nd + name_chars nd + length (flatten nd).
Proof.
  intro nd. induction nd as [v|n l IH|] using node_ind'; intro acc; [cbn [t_flatten_acc snd weight name_chars]; costs; cbn; lia| |reflexivity].
  rewrite weight_rule, flatten_rule. cbn [t_flatten_acc snd name_chars length]. costs. change (fun facc x => t_flatten_acc facc x) with t_flatten_acc.
  rewrite (fold_exact t_flatten_acc _ l (acc ++ [FBegin n]) c_none IH). costs. rewrite app_length. cbn [length].
  assert (H : fold_right (fun x w => weight x + name_chars x + length (flatten x) + w) 0 l = weights l + fold_right (fun x k => name_chars x + k) 0 l + length (flat_of l)).
  { clear. induction l as [|x l IH]; [reflexivity|]. cbn [fold_right]. rewrite weights_cons, IH. change (flat_of (x :: l)) with (flatten x ++ flat_of l). rewrite app_length. lia. }
  rewrite H. lia.
Qed.
