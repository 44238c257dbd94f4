(** Proofs about histories of rule sets. *)
From Verif Require Import Base ModelAst ModelParser ModelPeg SpecAst SpecApi SpecPegApi SpecHistory.
From Verif Require Import ProofParser ProofAst ProofApi ProofConsume ProofPegApi.
From Coq Require Import Permutation.

Lemma lb_some_in : forall h n e, last_binding h n (Some e) -> In n (map fst h).
Proof. intros h n e (x & y & -> & _). rewrite map_app. apply in_or_app. right. left. reflexivity. Qed.

Lemma lb_app_r : forall a b n r, In n (map fst b) -> last_binding b n r -> last_binding (a ++ b) n r.
Proof.
  intros a b n [e|] I H; [|contradiction]. destruct H as (x & y & -> & N). exists (a ++ x), y.
  rewrite <- app_assoc. split; [reflexivity|exact N].
Qed.

Lemma lb_app_l : forall a b n r, ~ In n (map fst b) -> last_binding a n r -> last_binding (a ++ b) n r.
Proof.
  intros a b n [e|] I H.
  - destruct H as (x & y & -> & N). exists x, (y ++ b). rewrite <- app_assoc. split; [reflexivity|].
    rewrite map_app, in_app_iff. tauto.
  - cbn in *. rewrite map_app, in_app_iff. tauto.
Qed.

Lemma lb_fun : forall h n r r', last_binding h n r -> last_binding h n r' -> r = r'.
Proof.
  induction h as [|[k x] h IH] using rev_ind; intros n r r' H H'.
  - destruct r as [e|]; [destruct H as ([|? ?] & y & E & _); discriminate|].
    destruct r' as [e|]; [destruct H' as ([|? ?] & y & E & _); discriminate|reflexivity].
  - destruct (str_eqb k n) eqn:E.
    + apply str_eqb_eq in E. subst k.
      assert (X : forall q, last_binding (h ++ [(n, x)]) n q -> q = Some x).
      { intros [e|] Q.
        - apply last_binding_app_r in Q; [|left; reflexivity]. destruct Q as ([|? [|? ?]] & y & Q & _); cbn in Q; try discriminate.
          injection Q as -> _. reflexivity.
        - exfalso. apply Q. rewrite map_app. apply in_or_app. right. left. reflexivity. }
      rewrite (X _ H), (X _ H'). reflexivity.
    + assert (N : ~ In n (map fst [(k, x)])).
      { cbn. intros [->|[]]. rewrite (proj2 (str_eqb_eq n n) eq_refl) in E. discriminate. }
      assert (X : forall q, last_binding (h ++ [(k, x)]) n q -> last_binding h n q).
      { intros [e|] Q; [exact (last_binding_app_l _ _ _ _ N Q)|]. intro I. apply Q. rewrite map_app. apply in_or_app. left. exact I. }
      exact (IH n r r' (X _ H) (X _ H')).
Qed.

Lemma unique_last : forall m n, unique_names m -> last_binding m n (rules_get m n).
Proof.
  intros m n U. destruct (rules_get m n) as [e|] eqn:E; [|apply rules_get_none; exact E].
  apply rules_get_in in E. apply in_split in E. destruct E as (x & y & ->). exists x, y. split; [reflexivity|].
  unfold unique_names in U. rewrite map_app in U. cbn in U. apply NoDup_remove_2 in U. rewrite in_app_iff in U. tauto.
Qed.

Lemma answered_unique : forall s rs, answers s (Ok rs) -> unique_names rs.
Proof.
  intros s rs (_ & f0 & H). destruct (rules_from_peg_ok s f0 rs (H f0 (le_n f0))) as (_ & l & _ & ->). exact (proj1 (built_get l)).
Qed.

Lemma history_laws : forall rs h, history rs h ->
  unique_names rs /\ forall n, last_binding h n (rules_get rs n).
Proof.
  intros rs h H. induction H as [|m U|l|s rs A|rs h n e H [U L]|a ha b hb Ha [Ua La] Hb [Ub Lb]|rs h rs' H [U L] P].
  - split; [constructor|]. intro n. intros [].
  - split; [exact U|]. intro n. exact (unique_last m n U).
  - destruct (macro_laws l) as [L U]. split; assumption.
  - pose proof (answered_unique s rs A) as U. split; [exact U|]. intro n. exact (unique_last rs n U).
  - destruct (add_laws rs n e) as (G & O & U'). split; [exact (U' U)|]. intro k. destruct (str_eqb k n) eqn:E.
    + apply str_eqb_eq in E. subst k. rewrite G. exists h, []. split; [reflexivity|intros []].
    + assert (N : k <> n) by (intros ->; rewrite (proj2 (str_eqb_eq n n) eq_refl) in E; discriminate).
      rewrite (O k N). apply lb_app_l; [|apply L]. cbn. intros [X|[]]. congruence.
  - destruct (merge_laws a b Ua Ub) as (G & U). split; [exact U|]. intro n. rewrite G. specialize (La n). specialize (Lb n).
    destruct (rules_get a n) as [e|].
    + apply lb_app_r; [exact (lb_some_in ha n e La)|exact La].
    + apply lb_app_l; [exact La|exact Lb].
  - split; [exact (Permutation_NoDup (Permutation_map fst P) U)|]. intro n. rewrite <- (get_permutation rs rs' n U P). apply L.
Qed.

(** Rule sets with the same bindings are the same map. *)
Lemma unique_entries : forall m, unique_names m -> NoDup m.
Proof. intros m U. exact (NoDup_map_inv fst m U). Qed.

Lemma same_map : forall a b, unique_names a -> unique_names b ->
  ((forall n, rules_get a n = rules_get b n) <-> Permutation a b).
Proof.
  intros a b Ua Ub. split; [|intros P n; exact (get_permutation a b n Ua P)].
  intro H. apply NoDup_Permutation; [exact (unique_entries a Ua)|exact (unique_entries b Ub)|]. intros [n e]. split; intro I.
  - apply rules_get_in. rewrite <- H. exact (in_rules_get a n e Ua I).
  - apply rules_get_in. rewrite H. exact (in_rules_get b n e Ub I).
Qed.

Lemma same_history : forall rs h rs' h', history rs h -> history rs' h' -> (same_in_the_end h h' <-> Permutation rs rs').
Proof.
  intros rs h rs' h' H H'. destruct (history_laws rs h H) as (U & L). destruct (history_laws rs' h' H') as (U' & L').
  rewrite <- (same_map rs rs' U U'). split.
  - intros S n. apply (lb_fun h' n); [|apply L']. apply S. apply L.
  - intros S n r. split; intro Q.
    + rewrite (lb_fun h n r _ Q (L n)), S. apply L'.
    + rewrite (lb_fun h' n r _ Q (L' n)), <- S. apply L.
Qed.

Lemma histories_parse_alike : forall rs h rs' h', history rs h -> history rs' h' -> same_in_the_end h h' ->
  forall fuel s d, parse_with_debug fuel s rs d = parse_with_debug fuel s rs' d.
Proof.
  intros rs h rs' h' H H' S fuel s d. apply parse_reachable. intros n _.
  apply (same_history rs h rs' h' H H') in S. exact (get_permutation rs rs' n (proj1 (history_laws rs h H)) S).
Qed.

Lemma one_macro : forall rs h, history rs h -> Permutation rs (rules_macro h) /\
  forall fuel s d, parse_with_debug fuel s rs d = parse_with_debug fuel s (rules_macro h) d.
Proof.
  intros rs h H. assert (S : same_in_the_end h h) by (intros n r; tauto). split.
  - exact (proj1 (same_history rs h _ h H (h_macro h)) S).
  - exact (histories_parse_alike rs h _ h H (h_macro h) S).
Qed.

Lemma any_map : forall rs, (exists h, history rs h) <-> unique_names rs.
Proof. intro rs. split; [intros [h H]; exact (proj1 (history_laws rs h H))|]. intro U. exists rs. exact (h_map rs U). Qed.

(** ... and the macro alone can build each of them. *)
Lemma macro_map : forall rs, unique_names rs -> Permutation rs (rules_macro rs).
Proof. intros rs U. exact (proj1 (one_macro rs rs (h_map rs U))). Qed.

(** The laws of the operations, as equalities of maps. *)
Lemma perm_get : forall a b, unique_names a -> unique_names b -> (forall n, rules_get a n = rules_get b n) -> Permutation a b.
Proof. intros a b Ua Ub H. exact (proj1 (same_map a b Ua Ub) H). Qed.

Lemma add_get : forall m n e k, rules_get (rules_add m n e) k = if str_eqb k n then Some e else rules_get m k.
Proof.
  intros m n e k. destruct (add_laws m n e) as (G & O & _). destruct (str_eqb k n) eqn:E.
  - apply str_eqb_eq in E. subst k. exact G.
  - apply O. intros ->. rewrite (proj2 (str_eqb_eq n n) eq_refl) in E. discriminate.
Qed.

Section Laws.
  Variables a b c : rules.
  Hypothesis Ua : unique_names a.
  Hypothesis Ub : unique_names b.
  Hypothesis Uc : unique_names c.

  Lemma merge_assoc : Permutation (rules_merge a (rules_merge b c)) (rules_merge (rules_merge a b) c).
  Proof.
    destruct (merge_laws a b Ua Ub) as (G1 & U1). destruct (merge_laws b c Ub Uc) as (G2 & U2).
    destruct (merge_laws a _ Ua U2) as (G3 & U3). destruct (merge_laws _ c U1 Uc) as (G4 & U4).
    apply perm_get; [exact U3|exact U4|]. intro n. rewrite G3, G4, G1, G2. destruct (rules_get a n); reflexivity.
  Qed.

  Lemma merge_self : Permutation (rules_merge a a) a.
  Proof. destruct (merge_laws a a Ua Ua) as (G & U). apply perm_get; [exact U|exact Ua|]. intro n. rewrite G. destruct (rules_get a n); reflexivity. Qed.

  Lemma new_unique : unique_names rules_new. Proof. constructor. Qed.

  Lemma merge_new_l : Permutation (rules_merge rules_new a) a.
  Proof. destruct (merge_laws _ a new_unique Ua) as (G & U). apply perm_get; [exact U|exact Ua|]. intro n. rewrite G. reflexivity. Qed.

  Lemma merge_new_r : Permutation (rules_merge a rules_new) a.
  Proof. destruct (merge_laws a _ Ua new_unique) as (G & U). apply perm_get; [exact U|exact Ua|]. intro n. rewrite G. destruct (rules_get a n); reflexivity. Qed.

  Lemma merge_comm : Permutation (rules_merge a b) (rules_merge b a) <-> agree a b.
  Proof.
    destruct (merge_laws a b Ua Ub) as (G & U). destruct (merge_laws b a Ub Ua) as (G' & U'). rewrite <- (same_map _ _ U U'). split.
    - intros H n x y X Y. specialize (H n). rewrite G, G', (in_rules_get a n x Ua X), (in_rules_get b n y Ub Y) in H. congruence.
    - intros H n. rewrite G, G'. destruct (rules_get a n) as [x|] eqn:X; destruct (rules_get b n) as [y|] eqn:Y; try reflexivity.
      f_equal. exact (H n x y (rules_get_in _ _ _ X) (rules_get_in _ _ _ Y)).
  Qed.

  Lemma add_as_merge : forall n e, Permutation (rules_add a n e) (rules_merge (rules_macro [(n, e)]) a).
  Proof.
    intros n e. destruct (macro_laws [(n, e)]) as (_ & U1). destruct (merge_laws _ a U1 Ua) as (G & U).
    apply perm_get; [exact (proj2 (proj2 (add_laws a n e)) Ua)|exact U|]. intro k. rewrite G, add_get.
    change (rules_macro [(n, e)]) with (rules_add rules_new n e). rewrite add_get. destruct (str_eqb k n); reflexivity.
  Qed.

  Lemma add_again : forall n e e', Permutation (rules_add (rules_add a n e) n e') (rules_add a n e').
  Proof.
    intros n e e'. pose proof (proj2 (proj2 (add_laws a n e)) Ua) as U1.
    apply perm_get; [exact (proj2 (proj2 (add_laws _ n e')) U1)|exact (proj2 (proj2 (add_laws a n e')) Ua)|]. intro k.
    rewrite !add_get. destruct (str_eqb k n); reflexivity.
  Qed.

  Lemma add_comm : forall n m e e', n <> m -> Permutation (rules_add (rules_add a n e) m e') (rules_add (rules_add a m e') n e).
  Proof.
    intros n m e e' N. pose proof (proj2 (proj2 (add_laws a n e)) Ua) as U1. pose proof (proj2 (proj2 (add_laws a m e')) Ua) as U2.
    apply perm_get; [exact (proj2 (proj2 (add_laws _ m e')) U1)|exact (proj2 (proj2 (add_laws _ n e)) U2)|]. intro k.
    rewrite !add_get. destruct (str_eqb k n) eqn:E; destruct (str_eqb k m) eqn:E'; try reflexivity.
    apply str_eqb_eq in E. apply str_eqb_eq in E'. congruence.
  Qed.

  (** A merge of a set with additions: the receiver's additions survive. *)
  Lemma merge_add : forall n e, Permutation (rules_merge (rules_add a n e) b) (rules_add (rules_merge a b) n e).
  Proof.
    intros n e. pose proof (proj2 (proj2 (add_laws a n e)) Ua) as U1. destruct (merge_laws _ b U1 Ub) as (G & U).
    destruct (merge_laws a b Ua Ub) as (G' & U'). apply perm_get; [exact U|exact (proj2 (proj2 (add_laws _ n e)) U')|]. intro k.
    rewrite G, !add_get, G'. destruct (str_eqb k n); reflexivity.
  Qed.
End Laws.

Lemma lb_dec : forall h n, exists r, last_binding h n r.
Proof. intros h n. exists (rules_get (rules_macro h) n). apply macro_laws. Qed.

Lemma overwritten : forall h1 h2 n e, In n (map fst h2) -> same_in_the_end (h1 ++ (n, e) :: h2) (h1 ++ h2).
Proof.
  intros h1 h2 n e I.
  assert (X : forall k r, last_binding (h1 ++ h2) k r -> last_binding (h1 ++ (n, e) :: h2) k r).
  { intros k r H. destruct (in_dec (list_eq_dec N.eq_dec) k (map fst h2)) as [J|J].
    - destruct (lb_dec h2 k) as [r' R]. rewrite (lb_fun _ _ _ _ H (lb_app_r h1 h2 k r' J R)).
      change ((n, e) :: h2) with ([(n, e)] ++ h2). rewrite app_assoc. exact (lb_app_r (h1 ++ [(n, e)]) h2 k r' J R).
    - destruct (lb_dec h1 k) as [r' R]. rewrite (lb_fun _ _ _ _ H (lb_app_l h1 h2 k r' J R)).
      apply lb_app_l; [|exact R]. cbn. intros [->|K]; contradiction. }
  intros k r. split; [|apply X]. intro H. destruct (lb_dec (h1 ++ h2) k) as [r' R].
  rewrite (lb_fun _ _ _ _ H (X k r' R)). exact R.
Qed.

Lemma distinct_order : forall h h', NoDup (map fst h) -> Permutation h h' -> same_in_the_end h h'.
Proof.
  intros h h' U P n r. assert (U' : unique_names h') by exact (Permutation_NoDup (Permutation_map fst P) U).
  pose proof (get_permutation h h' n U P) as G. split; intro H.
  - rewrite (lb_fun h n _ _ H (unique_last h n U)), G. exact (unique_last h' n U').
  - rewrite (lb_fun h' n _ _ H (unique_last h' n U')), <- G. exact (unique_last h n U).
Qed.
