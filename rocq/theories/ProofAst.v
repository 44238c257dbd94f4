(** Proofs about rule maps and AST tools. *)
From Coq Require Import Permutation.
From Verif Require Import Base ModelAst ModelParser SpecPos SpecApi SpecAst ProofParser.

(* ------------------------------------------------------------------------------------------- *)
(** * Rule maps *)

Lemma get_filter_other : forall m k n, k <> n ->
  rules_get (filter (fun p => negb (str_eqb (fst p) k)) m) n = rules_get m n.
Proof.
  induction m as [|[a e] m IH]; intros k n H; cbn; [reflexivity|].
  destruct (str_eqb a k) eqn:E; cbn.
  - apply str_eqb_eq in E. subst a. rewrite IH by assumption.
    destruct (str_eqb k n) eqn:E2; [apply str_eqb_eq in E2; contradiction|reflexivity].
  - rewrite IH by assumption. reflexivity.
Qed.

Lemma get_insert_same : forall m k e, rules_get (hm_insert m k e) k = Some e.
Proof. intros. unfold hm_insert. cbn. rewrite str_eqb_refl. reflexivity. Qed.

Lemma get_insert_other : forall m k n e, k <> n -> rules_get (hm_insert m k e) n = rules_get m n.
Proof.
  intros m k n e H. unfold hm_insert. cbn. apply str_eqb_neq in H as H'. rewrite H'. apply get_filter_other. exact H.
Qed.

Lemma rules_get_in : forall m n e, rules_get m n = Some e -> In (n, e) m.
Proof.
  induction m as [|[a x] m IH]; intros n e H; cbn in H; [discriminate|].
  destruct (str_eqb a n) eqn:E.
  - apply str_eqb_eq in E. injection H as <-. subst. left. reflexivity.
  - right. apply IH. exact H.
Qed.

Lemma rules_get_none : forall m n, rules_get m n = None <-> ~ In n (map fst m).
Proof.
  induction m as [|[a x] m IH]; intros n; cbn; [tauto|].
  destruct (str_eqb a n) eqn:E.
  - apply str_eqb_eq in E. subst. split; [discriminate|intro H; exfalso; apply H; left; reflexivity].
  - apply str_eqb_neq in E. rewrite IH. tauto.
Qed.

Lemma in_rules_get : forall m n e, unique_names m -> In (n, e) m -> rules_get m n = Some e.
Proof.
  unfold unique_names. induction m as [|[a x] m IH]; intros n e U H; cbn in *; [tauto|].
  inversion U as [|? ? U1 U2]; subst. destruct H as [H|H].
  - injection H as -> ->. rewrite str_eqb_refl. reflexivity.
  - destruct (str_eqb a n) eqn:E; [|apply IH; assumption].
    apply str_eqb_eq in E. subst. exfalso. apply U1. apply (in_map fst) in H. exact H.
Qed.

Lemma filter_fst_in : forall (f : str * expr -> bool) m n, In n (map fst (filter f m)) -> In n (map fst m).
Proof.
  intros f m n H. apply in_map_iff in H. destruct H as [p [E H]]. apply filter_In in H.
  apply in_map_iff. exists p. tauto.
Qed.

Lemma unique_filter : forall f m, unique_names m -> unique_names (filter f m).
Proof.
  unfold unique_names. induction m as [|[a x] m IH]; intro U; cbn; [constructor|].
  inversion U as [|? ? U1 U2]; subst. destruct (f (a, x)); cbn; [|auto].
  constructor; [|auto]. intro H. apply U1. apply filter_fst_in in H. exact H.
Qed.

Lemma unique_insert : forall m k e, unique_names m -> unique_names (hm_insert m k e).
Proof.
  intros m k e U. unfold hm_insert, unique_names. cbn. constructor; [|apply unique_filter; exact U].
  intro H. apply in_map_iff in H. destruct H as [p [E H]]. apply filter_In in H. destruct H as [_ H].
  rewrite <- E, str_eqb_refl in H. discriminate.
Qed.

Definition insert_all (l : list (str * expr)) (m : rules) : rules :=
  fold_left (fun m p => hm_insert m (fst p) (snd p)) l m.

Lemma unique_insert_all : forall l m, unique_names m -> unique_names (insert_all l m).
Proof. induction l as [|p l IH]; intros m U; cbn; [exact U|]. apply IH. apply unique_insert. exact U. Qed.

Lemma get_insert_all : forall l m n,
  (~ In n (map fst l) /\ rules_get (insert_all l m) n = rules_get m n) \/
  (exists e, rules_get (insert_all l m) n = Some e /\ last_binding l n (Some e)).
Proof.
  induction l as [|[k x] l IH]; intros m n; cbn [insert_all fold_left fst snd map].
  - left. split; [intros []|reflexivity].
  - destruct (IH (hm_insert m k x) n) as [[H1 H2]|[e [H1 H2]]].
    + destruct (str_dec k n) as [->|D].
      * right. exists x. unfold insert_all in H2. rewrite H2, get_insert_same. split; [reflexivity|].
        exists [], l. split; [reflexivity|exact H1].
      * left. unfold insert_all in H2. rewrite H2, get_insert_other by assumption. split; [|reflexivity].
        cbn. intros [E|E]; auto.
    + right. exists e. split; [exact H1|]. destruct H2 as [b [a [-> H2]]].
      exists ((k, x) :: b), a. split; [reflexivity|exact H2].
Qed.

Lemma add_laws : forall m name e,
  rules_get (rules_add m name e) name = Some e /\
  (forall n, n <> name -> rules_get (rules_add m name e) n = rules_get m n) /\
  (unique_names m -> unique_names (rules_add m name e)).
Proof.
  intros m name e. unfold rules_add. split; [apply get_insert_same|]. split.
  - intros n H. apply get_insert_other. congruence.
  - apply unique_insert.
Qed.

Lemma last_binding_app_l : forall a b n e, ~ In n (map fst b) -> last_binding (a ++ b) n (Some e) ->
  last_binding a n (Some e).
Proof.
  intros a b n e H [x [y [E N]]]. revert x E. induction a as [|p a IH]; intros x E; cbn in E.
  - exfalso. apply H. rewrite E. rewrite map_app. apply in_or_app. right. left. reflexivity.
  - destruct x as [|q x]; cbn in E.
    + injection E as -> E. exists [], a. split; [reflexivity|]. intro I. apply N. rewrite <- E, map_app.
      apply in_or_app. left. exact I.
    + injection E as -> E. destruct (IH x E) as [u [v [-> W]]]. exists (q :: u), v. split; [reflexivity|exact W].
Qed.

Lemma last_binding_app_r : forall a b n e, In n (map fst b) -> last_binding (a ++ b) n (Some e) ->
  last_binding b n (Some e).
Proof.
  intros a b n e H [x [y [E N]]]. revert a E. induction x as [|q x IH]; intros a E; cbn in E.
  - destruct a as [|p a]; cbn in E.
    + exists [], y. split; [exact E|exact N].
    + injection E as -> E. exfalso. apply N. rewrite <- E, map_app. apply in_or_app. right. exact H.
  - destruct a as [|p a]; cbn in E.
    + exists (q :: x), y. split; [exact E|exact N].
    + injection E as -> E. exact (IH a E).
Qed.

Lemma last_binding_unique : forall m n e, unique_names m -> last_binding m n (Some e) -> rules_get m n = Some e.
Proof.
  intros m n e U [x [y [-> N]]]. apply in_rules_get; [exact U|]. apply in_or_app. right. left. reflexivity.
Qed.

Lemma merge_laws : forall a b, unique_names a -> unique_names b ->
  (forall n, rules_get (rules_merge a b) n =
             match rules_get a n with Some e => Some e | None => rules_get b n end) /\
  unique_names (rules_merge a b).
Proof.
  intros a b Ua Ub. split; [|apply unique_insert_all; constructor].
  intro n. unfold rules_merge. fold (insert_all (b ++ a) []).
  destruct (get_insert_all (b ++ a) [] n) as [[H1 H2]|[e [H1 H2]]].
  - rewrite H2. cbn. rewrite map_app, in_app_iff in H1.
    assert (A : rules_get a n = None) by (apply rules_get_none; tauto).
    assert (B : rules_get b n = None) by (apply rules_get_none; tauto). rewrite A, B. reflexivity.
  - rewrite H1. destruct (rules_get a n) as [x|] eqn:A.
    + assert (I : In n (map fst a)) by (apply rules_get_in in A; apply (in_map fst) in A; exact A).
      apply (last_binding_app_r _ _ _ _ I) in H2. apply last_binding_unique in H2; congruence.
    + apply rules_get_none in A. apply (last_binding_app_l _ _ _ _ A) in H2.
      apply last_binding_unique in H2; congruence.
Qed.

Lemma macro_laws : forall l,
  (forall n, last_binding l n (rules_get (rules_macro l) n)) /\ unique_names (rules_macro l).
Proof.
  intro l. split; [|apply (unique_insert_all l []); constructor].
  intro n. unfold rules_macro, rules_add, rules_new. fold (insert_all l []).
  destruct (get_insert_all l [] n) as [[H1 H2]|[e [H1 H2]]].
  - rewrite H2. exact H1.
  - rewrite H1. exact H2.
Qed.

Lemma get_permutation : forall m m' n, unique_names m -> Permutation m m' -> rules_get m n = rules_get m' n.
Proof.
  intros m m' n U P.
  assert (U' : unique_names m') by (unfold unique_names in *; apply (Permutation_NoDup (Permutation_map fst P) U)).
  destruct (rules_get m n) as [e|] eqn:E; destruct (rules_get m' n) as [e'|] eqn:E'; try reflexivity.
  - apply rules_get_in in E. apply (Permutation_in _ P) in E. apply in_rules_get in E; congruence.
  - apply rules_get_in in E. apply (Permutation_in _ P) in E. apply in_rules_get in E; congruence.
  - apply rules_get_in in E'. apply (Permutation_in _ (Permutation_sym P)) in E'. apply in_rules_get in E'; congruence.
Qed.

(** The order in which hash maps are iterated does not matter to merge. *)
Lemma merge_order : forall a b a' b' n, unique_names a -> unique_names b -> Permutation a a' -> Permutation b b' ->
  rules_get (rules_merge a b) n = rules_get (rules_merge a' b') n.
Proof.
  intros a b a' b' n Ua Ub Pa Pb.
  assert (Ua' : unique_names a') by (unfold unique_names in *; apply (Permutation_NoDup (Permutation_map fst Pa) Ua)).
  assert (Ub' : unique_names b') by (unfold unique_names in *; apply (Permutation_NoDup (Permutation_map fst Pb) Ub)).
  rewrite (proj1 (merge_laws a b Ua Ub)), (proj1 (merge_laws a' b' Ua' Ub')).
  rewrite (get_permutation a a'), (get_permutation b b') by assumption. reflexivity.
Qed.

(* ------------------------------------------------------------------------------------------- *)
(** * Induction on trees *)

Section NodeInd.
  Variable P : node -> Prop.
  Hypothesis HV : forall v, P (Val v).
  Hypothesis HR : forall n l, Forall P l -> P (Rule n l).
  Hypothesis HE : P EOF.
  Fixpoint node_ind' (nd : node) : P nd :=
    match nd with
    | Val v => HV v
    | Rule n l => HR n l ((fix go (l : list node) : Forall P l :=
                             match l with [] => Forall_nil _ | x :: r => Forall_cons _ (node_ind' x) (go r) end) l)
    | EOF => HE
    end.
End NodeInd.

(** Induction on forests. *)
Lemma forest_ind : forall P : list node -> Prop,
  P [] -> (forall v l, P l -> P (Val v :: l)) -> (forall l, P l -> P (EOF :: l)) ->
  (forall n k l, P k -> P l -> P (Rule n k :: l)) -> forall l, P l.
Proof.
  intros P H0 HV HE HR.
  assert (T : forall nd, match nd with Rule _ k => P k | _ => True end).
  { induction nd as [v|n k IH|] using node_ind'; try exact I.
    induction k as [|x k IHk]; [exact H0|]. inversion IH as [|? ? I1 I2]; subst.
    destruct x; auto. }
  induction l as [|x l IH]; [exact H0|]. specialize (T x). destruct x; auto.
Qed.

Lemma name_in_spec : forall names n, name_in names n = true <-> In n names.
Proof.
  intros names n. unfold name_in. rewrite existsb_exists. split.
  - intros [x [H E]]. apply str_eqb_eq in E. subst. exact H.
  - intro H. exists n. split; [exact H|apply str_eqb_refl].
Qed.

Lemma name_in_false : forall names n, name_in names n = false <-> ~ In n names.
Proof.
  intros names n. rewrite <- name_in_spec. apply iff_sym, not_true_iff_false.
Qed.

Lemma existsb_listed : forall names n, existsb (str_eqb n) names = name_in names n.
Proof.
  intros names n. unfold name_in. induction names as [|x l IH]; cbn; [reflexivity|]. rewrite IH, str_eqb_sym. reflexivity.
Qed.

(* ------------------------------------------------------------------------------------------- *)
(** * prune *)

Definition prune_list (names : list str) (l : list node) : list node :=
  flat_map (fun x => if node2prune names x then [] else [prune names x]) l.

Lemma prune_unfold : forall names n l, prune names (Rule n l) = Rule n (prune_list names l).
Proof.
  intros names n l. cbn [prune]. f_equal.
  assert (H : forall acc, (fix prune_vn (acc l : list node) : list node :=
      match l with [] => acc | x :: r => prune_vn (if negb (node2prune names x) then acc ++ [prune names x] else acc) r end) acc l
      = acc ++ prune_list names l).
  { unfold prune_list. induction l as [|x l IH]; intro acc; cbn; [rewrite app_nil_r; reflexivity|]. rewrite IH.
    destruct (node2prune names x); cbn; [reflexivity|]. rewrite <- app_assoc. reflexivity. }
  apply H.
Qed.

Lemma prune_list_pruned : forall names l, pruned names l (prune_list names l).
Proof.
  intros names. induction l as [|v l IH|l IH|n k l IHk IH] using forest_ind; unfold prune_list; cbn [flat_map node2prune]; try (constructor; exact IH).
  destruct (name_in names n) eqn:E.
  - apply pr_drop; [apply name_in_spec; exact E|exact IH].
  - rewrite prune_unfold. cbn [app]. apply pr_keep; [apply name_in_false; exact E|exact IHk|exact IH].
Qed.

Lemma pruned_det : forall names l a, pruned names l a -> forall b, pruned names l b -> a = b.
Proof.
  intros names l a H. induction H; intros b Hb; inversion Hb; subst; try contradiction; f_equal; auto. f_equal; auto.
Qed.

Lemma prune_spec : forall names n l l', prune names (Rule n l) = Rule n l' <-> pruned names l l'.
Proof.
  intros names n l l'. rewrite prune_unfold. split; intro H.
  - injection H as <-. apply prune_list_pruned.
  - f_equal. apply (pruned_det names l); [apply prune_list_pruned|exact H].
Qed.

Lemma prune_leaf : forall names, (forall v, prune names (Val v) = Val v) /\ prune names EOF = EOF.
Proof. split; reflexivity. Qed.

(** Nothing named remains, and every remaining node comes from a node of the tree. *)
Lemma pruned_no_names : forall names l l', pruned names l l' ->
  forall x, In x l' -> ~ has_name names x /\ forall y, below y x -> ~ has_name names y.
Proof.
  intros names l l' H. induction H as [|v l l' H IH|l l' H IH|n k l l' Hin H IH|n k k' l l' Hin H1 IH1 H2 IH2]; intros x Hx.
  - destruct Hx.
  - destruct Hx as [<-|Hx]; [|auto]. split; [intros [? [? [E _]]]; discriminate|intros y B; inversion B].
  - destruct Hx as [<-|Hx]; [|auto]. split; [intros [? [? [E _]]]; discriminate|intros y B; inversion B].
  - auto.
  - destruct Hx as [<-|Hx]; [|auto]. split.
    + intros [m [q [E I]]]. injection E as <- <-. contradiction.
    + intros y B. inversion B as [? ? I1|? z ? I1 I2]; subst.
      * apply IH1. exact I1.
      * apply (IH1 z I1). exact I2.
Qed.

Lemma prune_no_names : forall names nd x, below x (prune names nd) -> ~ has_name names x.
Proof.
  intros names nd x B. destruct nd as [v|n l|]; try (inversion B; fail). rewrite prune_unfold in B.
  pose proof (pruned_no_names names l _ (prune_list_pruned names l)) as H.
  inversion B as [? ? I1|? z ? I1 I2]; subst.
  - apply H. exact I1.
  - apply (H z I1). exact I2.
Qed.

Lemma prune_list_app : forall a b l, prune_list b (prune_list a l) = prune_list (a ++ b) l.
Proof.
  intros a b. induction l as [|v l IH|l IH|n k l IHk IH] using forest_ind; unfold prune_list in *; cbn [flat_map node2prune].
  - reflexivity.
  - cbn. f_equal. exact IH.
  - cbn. f_equal. exact IH.
  - assert (E : name_in (a ++ b) n = name_in a n || name_in b n) by (unfold name_in; apply existsb_app).
    rewrite E. destruct (name_in a n); cbn [orb app]; [exact IH|].
    rewrite prune_unfold. cbn [app flat_map node2prune]. destruct (name_in b n); cbn [app]; [exact IH|].
    rewrite !prune_unfold. f_equal; [|exact IH]. f_equal. exact IHk.
Qed.

Lemma prune_app : forall a b nd, prune b (prune a nd) = prune (a ++ b) nd.
Proof. intros a b [v|n l|]; try reflexivity. rewrite !prune_unfold, prune_list_app. reflexivity. Qed.

Lemma prune_list_ext : forall a b, (forall n, In n a <-> In n b) -> forall l, prune_list a l = prune_list b l.
Proof.
  intros a b H l.
  apply (pruned_det a l); [apply prune_list_pruned|]. 
  assert (T : forall l l', pruned b l l' -> pruned a l l').
  { intros u u' P. induction P as [|v u u' P IH|u u' P IH|n k u u' I P IH|n k k' u u' I P1 IH1 P2 IH2].
    - constructor.
    - constructor. exact IH.
    - constructor. exact IH.
    - apply pr_drop; [apply H; exact I|exact IH].
    - apply pr_keep; [|exact IH1|exact IH2]. intro X. apply H in X. contradiction. }
  apply T, prune_list_pruned.
Qed.

Lemma prune_ext : forall a b, (forall n, In n a <-> In n b) -> forall nd, prune a nd = prune b nd.
Proof. intros a b H [v|n l|]; try reflexivity. rewrite !prune_unfold. f_equal. apply prune_list_ext. exact H. Qed.

Lemma prune_idem : forall names nd, prune names (prune names nd) = prune names nd.
Proof.
  intros names nd. rewrite prune_app. apply prune_ext. intro n. rewrite in_app_iff. tauto.
Qed.

Lemma prune_comm : forall a b nd, prune a (prune b nd) = prune b (prune a nd).
Proof. intros a b nd. rewrite !prune_app. apply prune_ext. intro n. rewrite !in_app_iff. tauto. Qed.

(* ------------------------------------------------------------------------------------------- *)
(** * flatten *)

Definition flat_of (l : list node) : list fnode := flat_map flatten l.

Lemma flatten_acc_app : forall nd acc, flatten_acc acc nd = acc ++ flatten nd.
Proof.
  unfold flatten.
  assert (F : forall l, Forall (fun nd => forall acc, flatten_acc acc nd = acc ++ flatten_acc [] nd) l ->
    forall acc, (fix fold (facc : list fnode) (l : list node) : list fnode :=
         match l with [] => facc | x :: r => fold (flatten_acc facc x) r end) acc l = acc ++ flat_map (flatten_acc []) l).
  { induction l as [|x l IH]; intros H acc; cbn; [rewrite app_nil_r; reflexivity|].
    inversion H as [|? ? H1 H2]; subst. rewrite IH by assumption. rewrite H1, app_assoc. reflexivity. }
  induction nd as [v|n l IH|] using node_ind'; intro acc; cbn [flatten_acc].
  - reflexivity.
  - rewrite !(F l IH). cbn [app]. rewrite <- !app_assoc. reflexivity.
  - rewrite app_nil_r. reflexivity.
Qed.

Lemma flatten_rule : forall n l, flatten (Rule n l) = FBegin n :: flat_of l ++ [FEnd n].
Proof.
  intros n l. unfold flatten at 1. cbn [flatten_acc].
  assert (F : forall acc, (fix fold (facc : list fnode) (l : list node) : list fnode :=
         match l with [] => facc | x :: r => fold (flatten_acc facc x) r end) acc l = acc ++ flat_of l).
  { unfold flat_of. induction l as [|x l IH]; intro acc; cbn; [rewrite app_nil_r; reflexivity|].
    rewrite IH. rewrite flatten_acc_app, app_assoc. reflexivity. }
  rewrite F. cbn [app]. reflexivity.
Qed.

Lemma flat_of_cons : forall x l, flat_of (x :: l) = flatten x ++ flat_of l.
Proof. reflexivity. Qed.

Lemma flat_of_rule : forall n k l, flat_of (Rule n k :: l) = FBegin n :: flat_of k ++ FEnd n :: flat_of l.
Proof. intros. rewrite flat_of_cons, flatten_rule. cbn [app]. rewrite <- app_assoc. reflexivity. Qed.

Lemma flat_of_reads : forall l, reads (flat_of l) (flat_map drop_eof l).
Proof.
  induction l as [|v l IH|l IH|n k l IHk IH] using forest_ind.
  - constructor.
  - cbn. constructor. exact IH.
  - cbn. exact IH.
  - rewrite flat_of_rule. cbn [flat_map drop_eof app]. constructor; assumption.
Qed.

Lemma flatten_reads : forall nd, reads (flatten nd) (drop_eof nd).
Proof.
  intro nd. pose proof (flat_of_reads [nd]) as H. cbn in H. rewrite !app_nil_r in H. exact H.
Qed.

Lemma reads_balanced : forall t f, reads t f -> balanced t.
Proof. intros t f H. induction H; constructor; assumption. Qed.

(** The bracketing is unambiguous: a well-bracketed list followed by an end token splits in one way. *)
Lemma reads_split : forall t1 f1, reads t1 f1 -> forall t2 f2 n m r1 r2, reads t2 f2 ->
  t1 ++ FEnd n :: r1 = t2 ++ FEnd m :: r2 -> t1 = t2 /\ n = m /\ r1 = r2 /\ f1 = f2.
Proof.
  intros t1 f1 H. induction H as [|v t f H IH|n t1 f1 t2 f2 H1 IH1 H2 IH2]; intros t2' f2' a b r1 r2 H' E.
  - inversion H'; subst; cbn in E; try discriminate. injection E as -> ->. auto.
  - inversion H' as [|v' t' f' H''|]; subst; cbn in E; try discriminate.
    injection E as -> E. destruct (IH _ _ _ _ _ _ H'' E) as [-> [-> [-> ->]]]. auto.
  - inversion H' as [| |n' t1' g1 t2'' g2 G1 G2]; subst; cbn in E; try discriminate.
    injection E as -> E. rewrite <- !app_assoc in E. cbn in E.
    destruct (IH1 _ _ _ _ _ _ G1 E) as [-> [_ [E2 ->]]].
    destruct (IH2 _ _ _ _ _ _ G2 E2) as [-> [-> [-> ->]]]. auto.
Qed.

Lemma reads_det : forall t f f', reads t f -> reads t f' -> f = f'.
Proof.
  intros t f f' H H'. destruct (reads_split t f H t f' [] [] [] [] H' eq_refl) as [_ [_ [_ E]]]. exact E.
Qed.

Lemma reads_flat : forall t f, reads t f -> flat_of f = t.
Proof.
  intros t f H. induction H as [|v t f H IH|n t1 f1 t2 f2 H1 IH1 H2 IH2].
  - reflexivity.
  - rewrite flat_of_cons, IH. reflexivity.
  - rewrite flat_of_rule, IH1, IH2. reflexivity.
Qed.

Lemma balanced_reads : forall t, balanced t -> exists f, reads t f.
Proof.
  intros t H. induction H as [|v l H [f IH]|n l1 l2 H1 [f1 IH1] H2 [f2 IH2]].
  - exists []. constructor.
  - exists (Val v :: f). constructor. exact IH.
  - exists (Rule n f1 :: f2). constructor; assumption.
Qed.

Lemma drop_eof_free_list : forall l, fold_right (fun x P => eof_free x /\ P) True l -> flat_map drop_eof l = l.
Proof.
  induction l as [|v l IH|l IH|n k l IHk IH] using forest_ind; cbn [fold_right flat_map drop_eof app eof_free]; intro H.
  - reflexivity.
  - f_equal. apply IH. apply H.
  - destruct H as [[] _].
  - destruct H as [H1 H2]. rewrite IHk, IH by assumption. reflexivity.
Qed.

Lemma drop_eof_free : forall nd, eof_free nd -> drop_eof nd = [nd].
Proof.
  intros [v|n l|] H; cbn [drop_eof]; [reflexivity| |destruct H]. rewrite drop_eof_free_list by exact H. reflexivity.
Qed.

Lemma flatten_lossless : forall a b, flatten a = flatten b <-> drop_eof a = drop_eof b.
Proof.
  intros a b. split; intro H.
  - apply (reads_det (flatten a)); [apply flatten_reads|]. rewrite H. apply flatten_reads.
  - pose proof (reads_flat _ _ (flatten_reads a)) as A. pose proof (reads_flat _ _ (flatten_reads b)) as B. congruence.
Qed.

Lemma flatten_inj : forall a b, eof_free a -> eof_free b -> flatten a = flatten b -> a = b.
Proof.
  intros a b Ha Hb E. apply flatten_lossless in E. rewrite (drop_eof_free a Ha), (drop_eof_free b Hb) in E. congruence.
Qed.

Lemma flat_of_text : forall l, flat_map ftext (flat_of l) = flat_map leaves l.
Proof.
  induction l as [|v l IH|l IH|n k l IHk IH] using forest_ind.
  - reflexivity.
  - cbn. f_equal. exact IH.
  - cbn. exact IH.
  - rewrite flat_of_rule. cbn [flat_map ftext app leaves]. rewrite flat_map_app. cbn [flat_map ftext app]. rewrite IHk, IH. reflexivity.
Qed.

Lemma flatten_text : forall nd, flat_map ftext (flatten nd) = leaves nd.
Proof.
  intro nd. pose proof (flat_of_text [nd]) as H. cbn in H. rewrite !app_nil_r in H. exact H.
Qed.

(** prune on token streams. *)
Lemma skip_inside : forall names l d r, skip names (S d) (flat_of l ++ r) = skip names (S d) r.
Proof.
  intros names. induction l as [|v l IH|l IH|n k l IHk IH] using forest_ind; intros d r.
  - reflexivity.
  - cbn. apply IH.
  - cbn. apply IH.
  - rewrite flat_of_rule. cbn [app]. rewrite <- app_assoc. cbn [app skip]. rewrite IHk. cbn [skip]. apply IH.
Qed.

Lemma prune_flat : forall names l r, skip names 0 (flat_of l ++ r) = flat_of (prune_list names l) ++ skip names 0 r.
Proof.
  intros names. induction l as [|v l IH|l IH|n k l IHk IH] using forest_ind; intros r.
  - reflexivity.
  - cbn. f_equal. apply IH.
  - cbn. apply IH.
  - rewrite flat_of_rule. cbn [app]. rewrite <- app_assoc. cbn [app skip]. rewrite existsb_listed.
    unfold prune_list. cbn [flat_map node2prune]. destruct (name_in names n) eqn:E.
    + rewrite skip_inside. cbn [skip app]. apply IH.
    + rewrite prune_unfold. cbn [app]. fold (prune_list names l). rewrite flat_of_rule.
      rewrite IHk. cbn [skip app]. rewrite IH. rewrite <- app_assoc. reflexivity.
Qed.

Lemma prune_flatten : forall names n l,
  flatten (prune names (Rule n l)) = FBegin n :: skip names 0 (flat_of l) ++ [FEnd n].
Proof.
  intros names n l. rewrite prune_unfold, flatten_rule. f_equal. f_equal.
  pose proof (prune_flat names l []) as H. cbn [skip] in H. rewrite !app_nil_r in H. congruence.
Qed.

(* ------------------------------------------------------------------------------------------- *)
(** * pass_through_except *)

Lemma pthr_vn_flat : forall names l, pthr_vn names l = flat_map (pthr names) l.
Proof.
  intros names l. unfold pthr_vn.
  assert (H : forall acc, fold_left (fun acc x => acc ++ pthr names x) l acc = acc ++ flat_map (pthr names) l).
  { induction l as [|x l IH]; intro acc; cbn; [rewrite app_nil_r; reflexivity|]. rewrite IH, app_assoc. reflexivity. }
  apply H.
Qed.

Lemma pthr_rule : forall names n l,
  pthr names (Rule n l) = if name_in names n then [Rule n (pthr_vn names l)] else pthr_vn names l.
Proof.
  intros names n l. cbn [pthr node2keep].
  assert (H : forall acc, (fix go (acc l : list node) : list node :=
      match l with [] => acc | x :: r => go (acc ++ pthr names x) r end) acc l = acc ++ flat_map (pthr names) l).
  { induction l as [|x l IH]; intro acc; cbn; [rewrite app_nil_r; reflexivity|]. rewrite IH, app_assoc. reflexivity. }
  rewrite H, pthr_vn_flat. reflexivity.
Qed.

Lemma pthr_vn_cons : forall names x l, pthr_vn names (x :: l) = pthr names x ++ pthr_vn names l.
Proof. intros. rewrite !pthr_vn_flat. reflexivity. Qed.

Lemma pthr_vn_app : forall names a b, pthr_vn names (a ++ b) = pthr_vn names a ++ pthr_vn names b.
Proof. intros. rewrite !pthr_vn_flat. apply flat_map_app. Qed.

Lemma pthr_spliced : forall names l, spliced names l (pthr_vn names l).
Proof.
  intros names. induction l as [|v l IH|l IH|n k l IHk IH] using forest_ind.
  - constructor.
  - rewrite pthr_vn_cons. constructor. exact IH.
  - rewrite pthr_vn_cons. constructor. exact IH.
  - rewrite pthr_vn_cons, pthr_rule. destruct (name_in names n) eqn:E.
    + apply sp_keep; [apply name_in_spec; exact E|exact IHk|exact IH].
    + apply sp_open; [apply name_in_false; exact E|exact IHk|exact IH].
Qed.

Lemma spliced_det : forall names l a, spliced names l a -> forall b, spliced names l b -> a = b.
Proof.
  intros names l a H. induction H; intros b Hb; inversion Hb; subst; try contradiction; f_equal; auto. f_equal; auto.
Qed.

Lemma pass_through_spec : forall names n l l', pass_through_except names (Rule n l) = Rule n l' <-> spliced names l l'.
Proof.
  intros names n l l'. cbn [pass_through_except]. split; intro H.
  - injection H as <-. apply pthr_spliced.
  - f_equal. apply (spliced_det names l); [apply pthr_spliced|exact H].
Qed.

Lemma pass_through_leaf : forall names, (forall v, pass_through_except names (Val v) = Val v) /\ pass_through_except names EOF = EOF.
Proof. split; reflexivity. Qed.

Lemma spliced_app : forall names a a', spliced names a a' -> forall b b', spliced names b b' ->
  spliced names (a ++ b) (a' ++ b').
Proof.
  intros names a a' Ha.
  induction Ha as [|v l l' H IH|l l' H IH|n k k' l l' Hin H1 IH1 H2 IH2|n k k' l l' Hin H1 IH1 H2 IH2]; intros b b' Hb; cbn [app].
  - exact Hb.
  - constructor. auto.
  - constructor. auto.
  - apply sp_keep; auto.
  - rewrite <- app_assoc. apply sp_open; auto.
Qed.

Lemma spliced_idem : forall names l l', spliced names l l' -> spliced names l' l'.
Proof.
  intros names l l' H.
  induction H as [|v l l' H IH|l l' H IH|n k k' l l' Hin H1 IH1 H2 IH2|n k k' l l' Hin H1 IH1 H2 IH2].
  - constructor.
  - constructor. exact IH.
  - constructor. exact IH.
  - apply sp_keep; assumption.
  - apply spliced_app; assumption.
Qed.

Lemma pass_through_idem : forall names nd,
  pass_through_except names (pass_through_except names nd) = pass_through_except names nd.
Proof.
  intros names [v|n l|]; try reflexivity. cbn [pass_through_except]. f_equal.
  apply (spliced_det names (pthr_vn names l)); [apply pthr_spliced|].
  apply (spliced_idem names l). apply pthr_spliced.
Qed.

Lemma spliced_frontier : forall names l l', spliced names l l' -> flat_map frontier l' = flat_map frontier l.
Proof.
  intros names l l' H. induction H; cbn [flat_map frontier]; rewrite ?flat_map_app; congruence.
Qed.

Lemma pass_through_frontier : forall names nd, frontier (pass_through_except names nd) = frontier nd.
Proof.
  intros names [v|n l|]; try reflexivity. cbn [pass_through_except frontier].
  apply (spliced_frontier names). apply pthr_spliced.
Qed.

Lemma spliced_names : forall names l l', spliced names l l' ->
  forall x, (In x l' \/ exists y, In y l' /\ below x y) -> forall n k, x = Rule n k -> In n names.
Proof.
  intros names l l' H. 
  induction H as [|v l l' H IH|l l' H IH|n k k' l l' Hin H1 IH1 H2 IH2|n k k' l l' Hin H1 IH1 H2 IH2]; intros x Hx m q E; subst x.
  - destruct Hx as [[]|[y [[] _]]].
  - destruct Hx as [[Hx|Hx]|[y [[Hy|Hy] B]]]; try discriminate.
    + apply (IH _ (or_introl Hx) _ _ eq_refl).
    + subst y. inversion B.
    + apply (IH _ (or_intror (ex_intro _ y (conj Hy B))) _ _ eq_refl).
  - destruct Hx as [[Hx|Hx]|[y [[Hy|Hy] B]]]; try discriminate.
    + apply (IH _ (or_introl Hx) _ _ eq_refl).
    + subst y. inversion B.
    + apply (IH _ (or_intror (ex_intro _ y (conj Hy B))) _ _ eq_refl).
  - destruct Hx as [[Hx|Hx]|[y [[Hy|Hy] B]]].
    + injection Hx as <- <-. exact Hin.
    + apply (IH2 _ (or_introl Hx) _ _ eq_refl).
    + subst y. inversion B as [? ? I1|? z ? I1 I2]; subst.
      * apply (IH1 _ (or_introl I1) _ _ eq_refl).
      * apply (IH1 _ (or_intror (ex_intro _ z (conj I1 I2))) _ _ eq_refl).
    + apply (IH2 _ (or_intror (ex_intro _ y (conj Hy B))) _ _ eq_refl).
  - destruct Hx as [Hx|[y [Hy B]]].
    + apply in_app_or in Hx. destruct Hx as [Hx|Hx].
      * apply (IH1 _ (or_introl Hx) _ _ eq_refl).
      * apply (IH2 _ (or_introl Hx) _ _ eq_refl).
    + apply in_app_or in Hy. destruct Hy as [Hy|Hy].
      * apply (IH1 _ (or_intror (ex_intro _ y (conj Hy B))) _ _ eq_refl).
      * apply (IH2 _ (or_intror (ex_intro _ y (conj Hy B))) _ _ eq_refl).
Qed.

Lemma pass_through_names : forall names nd n k, below (Rule n k) (pass_through_except names nd) -> In n names.
Proof.
  intros names [v|m l|] n k B; try (inversion B; fail). cbn [pass_through_except] in B.
  apply (spliced_names names l _ (pthr_spliced names l) (Rule n k)) with (k := k); [|reflexivity].
  inversion B as [? ? I1|? z ? I1 I2]; subst; [left; exact I1|right; exists z; auto].
Qed.

Lemma spliced_flat : forall names l l', spliced names l l' -> flat_of l' = filter (listed names) (flat_of l).
Proof.
  intros names l l' H. induction H as [|v l l' H IH|l l' H IH|n k k' l l' Hin H1 IH1 H2 IH2|n k k' l l' Hin H1 IH1 H2 IH2].
  - reflexivity.
  - cbn. f_equal. exact IH.
  - exact IH.
  - rewrite !flat_of_rule. cbn [filter listed]. rewrite existsb_listed. apply name_in_spec in Hin. rewrite Hin.
    rewrite filter_app. cbn [filter listed]. rewrite existsb_listed, Hin. rewrite IH1, IH2. reflexivity.
  - rewrite flat_of_rule. cbn [filter listed]. rewrite existsb_listed. apply name_in_false in Hin. rewrite Hin.
    rewrite filter_app. cbn [filter listed]. rewrite existsb_listed, Hin. rewrite <- IH1, <- IH2.
    unfold flat_of. apply flat_map_app.
Qed.

Lemma pass_through_flatten : forall names n l,
  flatten (pass_through_except names (Rule n l)) = FBegin n :: filter (listed names) (flat_of l) ++ [FEnd n].
Proof.
  intros names n l. cbn [pass_through_except]. rewrite flatten_rule. f_equal. f_equal.
  apply spliced_flat. apply pthr_spliced.
Qed.

(* ------------------------------------------------------------------------------------------- *)
(** * compact *)

(** [compact_nodes] with accumulator [acc]. *)
Definition compact_loop := fix compact_nodes (acc : list node) (l : list node) : list node :=
  match l with [] => acc | x :: r => compact_nodes (concat_nodes compact acc x) r end.

Lemma compact_rule : forall n l, compact (Rule n l) = Rule n (compact_loop [] l).
Proof. reflexivity. Qed.

Lemma last_val_snoc : forall l x, last_val (l ++ [x]) = match x with Val v => Some v | _ => None end.
Proof.
  induction l as [|y l IH]; intro x; cbn [app last_val].
  - destruct x; reflexivity.
  - destruct (l ++ [x]) as [|z t] eqn:E; [destruct l; discriminate|]. rewrite <- E, IH. destruct y; reflexivity.
Qed.

Lemma last_val_nil : last_val [] = None. Proof. reflexivity. Qed.

Lemma compact_loop_snoc : forall l acc x, compact_loop (acc ++ [x]) l = acc ++ compact_loop [x] l.
Proof.
  induction l as [|y l IH]; intros acc x; [reflexivity|]. cbn [compact_loop].
  change [x] with ([] ++ [x]) at 2. unfold concat_nodes. rewrite !last_val_snoc.
  destruct y as [w|n k|]; destruct x as [v|m q|]; rewrite ?removelast_last; cbn [app];
    try (rewrite IH; reflexivity);
    try (rewrite IH; rewrite <- app_assoc; cbn [app];
         match goal with |- _ = _ ++ compact_loop [?a; ?b] _ => change [a; b] with ([a] ++ [b]); rewrite (IH [a] b) end; reflexivity).
Qed.

Lemma compact_loop_step : forall x l, (forall v, x <> Val v) -> compact_loop [x] l = x :: compact_loop [] l.
Proof.
  intros x [|y l] H; [reflexivity|]. cbn [compact_loop]. unfold concat_nodes.
  destruct x as [v|m q|]; [exfalso; apply (H v); reflexivity| |]; cbn [last_val];
  destruct y as [w|n k|]; cbn [app];
    match goal with |- compact_loop [?a; ?b] _ = _ => change [a; b] with ([a] ++ [b]); rewrite (compact_loop_snoc l [a] b) end; reflexivity.
Qed.

Lemma compact_loop_run : forall vs v l, compact_loop [Val v] (map Val vs ++ l) = compact_loop [Val (v ++ concat vs)] l.
Proof.
  induction vs as [|w vs IH]; intros v l; cbn [map app concat]; [rewrite app_nil_r; reflexivity|].
  cbn [compact_loop concat_nodes last_val removelast app]. rewrite IH, app_assoc. reflexivity.
Qed.

Lemma compact_loop_stop : forall v l, ~ starts_with_val l -> compact_loop [Val v] l = Val v :: compact_loop [] l.
Proof.
  intros v [|y l] H; [reflexivity|]. destruct y as [w|n k|].
  - exfalso. apply H. exists w, l. reflexivity.
  - cbn [compact_loop concat_nodes app].
    match goal with |- compact_loop [?a; ?b] _ = _ => change [a; b] with ([a] ++ [b]); rewrite (compact_loop_snoc l [a] b) end. reflexivity.
  - cbn [compact_loop concat_nodes app].
    match goal with |- compact_loop [?a; ?b] _ = _ => change [a; b] with ([a] ++ [b]); rewrite (compact_loop_snoc l [a] b) end. reflexivity.
Qed.

Lemma val_run : forall l, exists vs r, l = map Val vs ++ r /\ ~ starts_with_val r.
Proof.
  induction l as [|x l IH].
  - exists [], []. split; [reflexivity|]. intros [v [r E]]. discriminate.
  - destruct x as [v|n k|].
    + destruct IH as [vs [r [-> H]]]. exists (v :: vs), r. split; [reflexivity|exact H].
    + exists [], (Rule n k :: l). split; [reflexivity|]. intros [v [r E]]. discriminate.
    + exists [], (EOF :: l). split; [reflexivity|]. intros [v [r E]]. discriminate.
Qed.

Fixpoint node_size (nd : node) : nat :=
  match nd with Rule _ l => S (fold_right (fun x a => node_size x + a) 0 l) | _ => 1 end.
Definition forest_size (l : list node) : nat := fold_right (fun x a => node_size x + a) 0 l.

Lemma compact_loop_compacted : forall l, compacted l (compact_loop [] l).
Proof.
  assert (G : forall s l, forest_size l <= s -> compacted l (compact_loop [] l)).
  { induction s as [|s IH]; intros l Hs.
    - destruct l as [|x l]; [constructor|]. cbn in Hs. destruct x; cbn in Hs; lia.
    - destruct l as [|x l]; [constructor|]. destruct x as [v|n k|].
      + destruct (val_run l) as [vs [r [-> Hr]]]. 
        change (Val v :: map Val vs ++ r) with (map Val (v :: vs) ++ r).
        cbn [map app compact_loop concat_nodes last_val].
        rewrite compact_loop_run, compact_loop_stop by exact Hr.
        apply (co_run (v :: vs)); [discriminate|exact Hr|]. apply IH.
        assert (A : forest_size r <= forest_size (map Val vs ++ r)).
        { clear. induction vs as [|w vs IHv]; [apply le_n|]. unfold forest_size in *. cbn. lia. }
        cbn in Hs. unfold forest_size in *. lia.
      + cbn [compact_loop concat_nodes app last_val]. rewrite compact_loop_step by discriminate. rewrite compact_rule.
        cbn in Hs. unfold forest_size in IH. constructor; apply IH; lia.
      + cbn [compact_loop concat_nodes app last_val]. rewrite compact_loop_step by discriminate.
        cbn in Hs. unfold forest_size in IH. constructor; apply IH; lia. }
  intro l. apply (G (forest_size l)). lia.
Qed.

Lemma run_split : forall vs ws a b, ~ starts_with_val a -> ~ starts_with_val b ->
  map Val vs ++ a = map Val ws ++ b -> vs = ws /\ a = b.
Proof.
  induction vs as [|v vs IH]; intros ws a b Ha Hb E; destruct ws as [|w ws]; cbn in E.
  - auto.
  - exfalso. apply Ha. exists w, (map Val ws ++ b). exact E.
  - exfalso. apply Hb. exists v, (map Val vs ++ a). congruence.
  - injection E as -> E. destruct (IH ws a b Ha Hb E) as [-> ->]. auto.
Qed.

Lemma compacted_det : forall l a, compacted l a -> forall b, compacted l b -> a = b.
Proof.
  intros l a H.
  induction H as [|l l' H IH|n k k' l l' H1 IH1 H2 IH2|vs l l' Hne Hl H IH]; intros b Hb.
  - inversion Hb as [| | |vs l l' Hne Hl H E E2]; [reflexivity|]. destruct vs as [|v vs]; [contradiction|discriminate].
  - inversion Hb as [|? ? H3| |vs m m' Hne Hl H3 E E2]; subst; [f_equal; auto|].
    destruct vs as [|v vs]; [contradiction|discriminate].
  - inversion Hb as [| |? ? k2 ? l2 H3 H4|vs m m' Hne Hl H3 E E2]; subst; [f_equal; [f_equal|]; auto|].
    destruct vs as [|v vs]; [contradiction|discriminate].
  - destruct vs as [|v vs]; [contradiction|]. inversion Hb as [E|? ? H3 E|? ? ? ? ? H3 H4 E|ws m m' Hne' Hm H3 E E2]; subst; try discriminate.
    apply (run_split ws (v :: vs) m l Hm Hl) in E. destruct E as [-> ->]. f_equal. auto.
Qed.

Lemma compact_spec : forall n l l', compact (Rule n l) = Rule n l' <-> compacted l l'.
Proof.
  intros n l l'. rewrite compact_rule. split; intro H.
  - injection H as <-. apply compact_loop_compacted.
  - f_equal. apply (compacted_det l); [apply compact_loop_compacted|exact H].
Qed.

Lemma compact_leaf : (forall v, compact (Val v) = Val v) /\ compact EOF = EOF.
Proof. split; reflexivity. Qed.

Lemma leaves_run : forall vs, flat_map leaves (map Val vs) = concat vs.
Proof. induction vs as [|v vs IH]; cbn; [reflexivity|]. rewrite IH. reflexivity. Qed.

Lemma compacted_leaves : forall l l', compacted l l' -> flat_map leaves l' = flat_map leaves l.
Proof.
  intros l l' H. induction H; cbn [flat_map leaves]; rewrite ?flat_map_app, ?leaves_run; congruence.
Qed.

Lemma compact_leaves : forall nd, leaves (compact nd) = leaves nd.
Proof.
  intros [v|n l|]; try reflexivity. rewrite compact_rule. cbn [leaves]. apply compacted_leaves, compact_loop_compacted.
Qed.

Lemma compacted_starts : forall l l', compacted l l' -> starts_with_val l' -> starts_with_val l.
Proof.
  intros l l' H [v [r E]]. inversion H as [|? ? ? E1 E2|? ? ? ? ? ? ? E1 E2|vs m m' Hne Hm H3 E1 E2]; subst; try discriminate.
  destruct vs as [|w vs]; [contradiction|]. exists w, (map Val vs ++ m). reflexivity.
Qed.

Lemma compacted_idem : forall l l', compacted l l' -> compacted l' l'.
Proof.
  intros l l' H. induction H as [|l l' H IH|n k k' l l' H1 IH1 H2 IH2|vs l l' Hne Hl H IH]; try (constructor; assumption).
  assert (E : Val (concat vs) :: l' = map Val [concat vs] ++ l') by reflexivity. rewrite E at 1.
  replace (Val (concat vs)) with (Val (concat [concat vs])) by (cbn; rewrite app_nil_r; reflexivity).
  apply co_run; [discriminate| |exact IH]. intro S. apply Hl. apply (compacted_starts l l'); assumption.
Qed.

Lemma compact_idem : forall nd, compact (compact nd) = compact nd.
Proof.
  intros [v|n l|]; try reflexivity. rewrite compact_rule. apply compact_spec.
  apply (compacted_idem l), compact_loop_compacted.
Qed.

Lemma compacted_no_adjacent : forall l l', compacted l l' ->
  (forall pre v w post, l' <> pre ++ Val v :: Val w :: post) /\ (forall x, In x l' -> ~ adjacent_vals x).
Proof.
  intros l l' H. induction H as [|l l' H [IH1 IH2]|n k k' l l' H1 [IHk1 IHk2] H2 [IH1 IH2]|vs l l' Hne Hl H [IH1 IH2]].
  - split; [intros pre v w post E; destruct pre; discriminate|intros x []].
  - split.
    + intros [|p pre] v w post E; cbn in E; [discriminate|]. injection E as _ E. apply IH1 in E. exact E.
    + intros x [<-|Hx]; [intro A; inversion A|auto].
  - split.
    + intros [|p pre] v w post E; cbn in E; [discriminate|]. injection E as _ E. apply IH1 in E. exact E.
    + intros x [<-|Hx]; [|auto]. intro A. inversion A as [m pre v w post E|m pre y post A1 E]; subst.
      * apply (IHk1 pre v w post). reflexivity.
      * apply (IHk2 y); [apply in_or_app; right; left; reflexivity|exact A1].
  - split.
    + intros [|p pre] v w post E; cbn in E.
      * injection E as _ E. apply Hl. apply (compacted_starts l l'); [exact H|]. exists w, post. exact E.
      * injection E as _ E. apply IH1 in E. exact E.
    + intros x [<-|Hx]; [intro A; inversion A|auto].
Qed.

Lemma compact_no_adjacent : forall nd, ~ adjacent_vals (compact nd).
Proof.
  intros [v|n l|] A; try (inversion A; fail). rewrite compact_rule in A.
  destruct (compacted_no_adjacent l _ (compact_loop_compacted l)) as [H1 H2].
  inversion A as [m pre v w post [E1 E]|m pre y post A1 [E1 E]].
  - apply (H1 pre v w post). congruence.
  - apply (H2 y); [rewrite <- E|exact A1]. apply in_or_app. right. left. reflexivity.
Qed.

(* ------------------------------------------------------------------------------------------- *)
(** * Helpers *)


Lemma h_split : forall l, decides (split_first_nodes l) (fun r => l = fst r :: snd r).
Proof. intros [|x l]; unfold decides; cbn; (split; [|split; congruence]); intros [a b]; cbn; split; congruence. Qed.

Lemma h_val : forall l, decides (consume_val l) (fun r => l = Val (fst r) :: snd r).
Proof. intros [|[v|n k|] l]; unfold decides; cbn; (split; [|split; congruence]); intros [a b]; cbn; split; congruence. Qed.

Lemma h_this : forall v l, decides (consume_this_value v l) (fun r => l = Val v :: r).
Proof.
  intros v [|[w|n k|] l]; unfold decides; cbn; try (split; [|split; congruence]; intros r; split; congruence).
  destruct (str_eqb w v) eqn:E.
  - apply str_eqb_eq in E. subst. split; [|split; congruence]. intro r; split; congruence.
  - apply str_eqb_neq in E. split; [|split; congruence]. intro r; split; congruence.
Qed.

Lemma h_peek : forall l, decides (peek_first_node l) (fun x => exists r, l = x :: r).
Proof.
  intros [|x l]; unfold decides; cbn; (split; [|split; congruence]); intro y; split.
  - congruence.
  - intros [r E]. congruence.
  - intro E. injection E as ->. exists l. reflexivity.
  - intros [r E]. congruence.
Qed.

Lemma h_node_val : forall nd, decides (get_node_val nd) (fun v => nd = Val v).
Proof. intros [v|n k|]; unfold decides; cbn; (split; [|split; congruence]); intro y; split; congruence. Qed.

Lemma h_name_nodes : forall nd, decides (get_nodename_and_nodes nd) (fun r => nd = Rule (fst r) (snd r)).
Proof. intros [v|n k|]; unfold decides; cbn; (split; [|split; congruence]); intros [a b]; cbn; split; congruence. Qed.

Lemma h_unique : forall l, decides (get_nodes_unique_val l) (fun v => l = [Val v]).
Proof. intros [|[v|n k|] [|y l]]; unfold decides; cbn; (split; [|split; congruence]); intro; split; congruence. Qed.

Lemma h_sub : forall name l, decides (consume_node_get_subnodes_for_rule_name_is name l) (fun r => l = Rule name (snd r) :: fst r).
Proof.
  intros name [|[w|n k|] l]; unfold decides;
    try (split; [|split; discriminate]; intros [a b]; split; intro H; discriminate).
  cbn. destruct (str_eqb n name) eqn:E.
  - apply str_eqb_eq in E. subst. split; [|split; congruence]. intros [a b]; cbn; split; congruence.
  - apply str_eqb_neq in E. split; [|split; congruence]. intros [a b]; cbn; split; congruence.
Qed.

Lemma h_empty : forall l, decides (check_empty_nodes l) (fun _ => l = []).
Proof. intros [|x l]; unfold decides; cbn; (split; [|split; congruence]); intros []; split; congruence. Qed.

Lemma h_fsplit : forall l, decides (fsplit_first_nodes l) (fun r => l = fst r :: snd r).
Proof. intros [|x l]; unfold decides; cbn; (split; [|split; congruence]); intros [a b]; cbn; split; congruence. Qed.

Lemma h_fstart : forall name l, decides (fconsume_node_start_rule_name name l) (fun r => l = FBegin name :: r).
Proof.
  intros name [|[w|n|n|] l]; unfold decides; cbn; try (split; [|split; congruence]; intros r; split; congruence).
  destruct (str_eqb n name) eqn:E.
  - apply str_eqb_eq in E. subst. split; [|split; congruence]. intro r; split; congruence.
  - apply str_eqb_neq in E. split; [|split; congruence]. intro r; split; congruence.
Qed.

Lemma h_fend : forall name l, decides (fconsume_node_end_rule_name name l) (fun r => l = FEnd name :: r).
Proof.
  intros name [|[w|n|n|] l]; unfold decides; cbn; try (split; [|split; congruence]; intros r; split; congruence).
  destruct (str_eqb n name) eqn:E.
  - apply str_eqb_eq in E. subst. split; [|split; congruence]. intro r; split; congruence.
  - apply str_eqb_neq in E. split; [|split; congruence]. intro r; split; congruence.
Qed.

Lemma h_fpeek : forall l, decides (fpeek_first_node l) (fun x => exists r, l = x :: r).
Proof.
  intros [|x l]; unfold decides; cbn; (split; [|split; congruence]); intro y; split.
  - congruence.
  - intros [r E]. congruence.
  - intro E. injection E as ->. exists l. reflexivity.
  - intros [r E]. congruence.
Qed.

Lemma h_fnode_val : forall nd, decides (fget_node_val nd) (fun v => nd = FVal v).
Proof. intros [v|n|n|]; unfold decides; cbn; (split; [|split; congruence]); intro y; split; congruence. Qed.

Lemma h_fthis : forall v l, decides (fconsume_this_value v l) (fun r => l = FVal v :: r).
Proof.
  intros v [|[w|n|n|] l]; unfold decides; cbn; try (split; [|split; congruence]; intros r; split; congruence).
  destruct (str_eqb w v) eqn:E.
  - apply str_eqb_eq in E. subst. split; [|split; congruence]. intro r; split; congruence.
  - apply str_eqb_neq in E. split; [|split; congruence]. intro r; split; congruence.
Qed.

Lemma h_fname : forall nd, decides (fget_nodename nd) (fun n => nd = FBegin n \/ nd = FEnd n).
Proof.
  intros [v|n|n|]; unfold decides; cbn; (split; [|split; congruence]); intro y; split; intro H;
    try congruence; try (left; congruence); try (right; congruence); destruct H as [H|H]; congruence.
Qed.

Lemma h_fval : forall l, decides (fconsume_val l) (fun r => l = FVal (fst r) :: snd r).
Proof. intros [|[v|n|n|] l]; unfold decides; cbn; (split; [|split; congruence]); intros [a b]; cbn; split; congruence. Qed.

(** The errors of the rule-consuming helpers name what was expected and what was found. *)
Lemma h_sub_error : forall name n k l, n <> name ->
  consume_node_get_subnodes_for_rule_name_is name (Rule n k :: l) =
  Err (AstError (s_ "expected " ++ name ++ s_ " node, received " ++ n) None).
Proof. intros name n k l H. unfold consume_node_get_subnodes_for_rule_name_is. cbn [split_first_nodes bind]. apply str_eqb_neq in H. rewrite H. reflexivity. Qed.

Lemma h_fstart_error : forall name n l, n <> name ->
  fconsume_node_start_rule_name name (FBegin n :: l) =
  Err (AstError (s_ "expected " ++ name ++ s_ " node, received " ++ n) None).
Proof. intros name n l H. unfold fconsume_node_start_rule_name. cbn [fsplit_first_nodes bind]. apply str_eqb_neq in H. rewrite H. reflexivity. Qed.

Lemma h_fend_error : forall name n l, n <> name ->
  fconsume_node_end_rule_name name (FEnd n :: l) =
  Err (AstError (s_ "expected " ++ name ++ s_ " node, received " ++ n) None).
Proof. intros name n l H. unfold fconsume_node_end_rule_name. cbn [fsplit_first_nodes bind]. apply str_eqb_neq in H. rewrite H. reflexivity. Qed.
