(** Programs that walk over a tree: proofs. *)
From Verif Require Import Base ModelAst ModelParser SpecApi SpecAst SpecVisit.
From Verif Require Import ProofParser ProofAst.

Section Visit.
Variable B : Type.
Variable on_val : str -> outcome ast_error B.
Variable on_rule : str -> list B -> outcome ast_error B.
Notation fold_node := (fold_node B on_val on_rule).
Notation folds := (folds B on_val on_rule).
Notation visit := (visit B on_val on_rule).
Notation visit_all := (visit_all B on_val on_rule).
Notation visit_nodes := (visit_nodes B on_val on_rule).

Lemma fold_rule : forall n kids, fold_node (Rule n kids) = let? bs := folds kids in let? b := on_rule n bs in Ok [b].
Proof. reflexivity. Qed.
Lemma folds_cons : forall k r, folds (k :: r) = let? b := fold_node k in let? bs := folds r in Ok (b ++ bs).
Proof. reflexivity. Qed.

(** Where a list of nodes ends. *)
Definition closes (l : list fnode) : Prop := l = [] \/ exists n r, l = FEnd n :: r.

Lemma visit_closes : forall f l, closes l -> visit (S f) l = Ok ([], l).
Proof. intros f l [->|(n & r & ->)]; reflexivity. Qed.
Lemma visit_val : forall f v l, visit (S f) (FVal v :: l) = let? b := on_val v in let? (bs, r) := visit f l in Ok (b :: bs, r).
Proof. reflexivity. Qed.
Lemma visit_rule : forall f n l, visit (S f) (FBegin n :: l) =
  let? (kids, r) := visit f l in let? r' := fconsume_node_end_rule_name n r in let? b := on_rule n kids in let? (bs, r'') := visit f r' in Ok (b :: bs, r'').
Proof.
  intros f n l. cbn [SpecVisit.visit fpeek_first_node fget_node_val fget_nodename bind]. unfold fconsume_node_start_rule_name. cbn [fsplit_first_nodes bind]. rewrite str_eqb_refl. reflexivity.
Qed.
Lemma end_same : forall n l, fconsume_node_end_rule_name n (FEnd n :: l) = Ok l.
Proof. intros n l. unfold fconsume_node_end_rule_name. cbn [fsplit_first_nodes bind]. rewrite str_eqb_refl. reflexivity. Qed.
Lemma end_ok : forall n l r, fconsume_node_end_rule_name n l = Ok r -> l = FEnd n :: r.
Proof.
  intros n l r H. unfold fconsume_node_end_rule_name in H. destruct l as [|[v|m|m|] l]; cbn [fsplit_first_nodes bind] in H; try discriminate.
  destruct (str_eqb m n) eqn:E; [|discriminate]. apply str_eqb_eq in E. injection H as <-. rewrite E. reflexivity.
Qed.

Lemma visit_reads : forall t forest, reads t forest -> forall rest f, closes rest -> length (t ++ rest) < f ->
  visit f (t ++ rest) = let? bs := folds forest in Ok (bs, rest).
Proof.
  intros t forest H. induction H as [|v t forest H IH|n t1 f1 t2 f2 H1 IH1 H2 IH2]; intros rest f C L.
  - destruct f as [|f]; [lia|]. exact (visit_closes f rest C).
  - cbn [app length] in *. destruct f as [|f]; [lia|]. rewrite visit_val, folds_cons. cbn [SpecVisit.fold_node]. destruct (on_val v) as [b|e| |]; try reflexivity. cbn [bind].
    rewrite (IH rest f C) by lia. destruct (folds forest); reflexivity.
  - cbn [app length] in *. destruct f as [|f]; [lia|]. rewrite visit_rule, folds_cons, fold_rule. rewrite <- app_assoc in *. cbn [app] in *. rewrite app_length in L. cbn [length] in L. rewrite app_length in L.
    rewrite (IH1 (FEnd n :: t2 ++ rest) f) by ((right; eauto) || (rewrite app_length; cbn [length]; rewrite app_length; lia)).
    destruct (folds f1) as [bs|e| |]; try reflexivity. cbn [bind]. rewrite end_same. cbn [bind]. destruct (on_rule n bs) as [b|e| |]; try reflexivity. cbn [bind].
    rewrite (IH2 rest f C) by (rewrite app_length; lia). destruct (folds f2); reflexivity.
Qed.

Lemma visit_ok : forall f l bs r, visit f l = Ok (bs, r) -> exists t forest, l = t ++ r /\ reads t forest /\ folds forest = Ok bs /\ closes r.
Proof.
  induction f as [|f IH]; intros l bs r H; [discriminate|]. destruct l as [|[v|n|n|] l].
  - rewrite visit_closes in H by (left; reflexivity). injection H as <- <-. exists [], []. repeat split; [constructor|left; reflexivity].
  - rewrite visit_val in H. destruct (on_val v) as [b|e| |] eqn:V; try discriminate. cbn [bind] in H. destruct (visit f l) as [[bs' r']|e| |] eqn:E; try discriminate. injection H as <- <-.
    destruct (IH _ _ _ E) as (t & forest & -> & R & F & C). exists (FVal v :: t), (Val v :: forest). split; [reflexivity|]. split; [constructor; exact R|]. split; [|exact C].
    rewrite folds_cons. cbn [SpecVisit.fold_node]. rewrite V. cbn [bind]. rewrite F. reflexivity.
  - rewrite visit_rule in H. destruct (visit f l) as [[kids r1]|e| |] eqn:E; try discriminate. cbn [bind] in H. destruct (fconsume_node_end_rule_name n r1) as [r2|e| |] eqn:N; try discriminate. cbn [bind] in H.
    destruct (on_rule n kids) as [b|e| |] eqn:V; try discriminate. cbn [bind] in H. destruct (visit f r2) as [[bs' r3]|e| |] eqn:E2; try discriminate. injection H as <- <-.
    destruct (IH _ _ _ E) as (t1 & f1 & -> & R1 & F1 & C1). destruct (IH _ _ _ E2) as (t2 & f2 & -> & R2 & F2 & C2). apply end_ok in N. subst r1.
    exists (FBegin n :: t1 ++ FEnd n :: t2), (Rule n f1 :: f2). split; [cbn [app]; rewrite <- app_assoc; reflexivity|]. split; [constructor; assumption|]. split; [|exact C2].
    rewrite folds_cons, fold_rule, F1. cbn [bind]. rewrite V. cbn [bind]. rewrite F2. reflexivity.
  - rewrite visit_closes in H by (right; eauto). injection H as <- <-. exists [], []. repeat split; [constructor|right; eauto].
  - discriminate.
Qed.

Definition answers {E A} (o : outcome E A) : Prop := o <> Panic /\ o <> Fuel.
Lemma visit_answers : (forall v, answers (on_val v)) -> (forall n k, answers (on_rule n k)) -> forall f l, length l < f -> answers (visit f l).
Proof.
  intros AV AR. induction f as [|f IH]; intros l L; [lia|]. destruct l as [|[v|n|n|] l]; cbn [length] in L.
  - split; discriminate.
  - rewrite visit_val. destruct (on_val v) as [b|e| |] eqn:V; cbn [bind]; [|split; discriminate|destruct (AV v) as [A _]; destruct (A V)|destruct (AV v) as [_ A]; destruct (A V)].
    destruct (IH l ltac:(lia)) as [A1 A2]. destruct (visit f l) as [[bs r]|e| |]; cbn [bind]; try (split; discriminate); congruence.
  - rewrite visit_rule. destruct (IH l ltac:(lia)) as [A1 A2]. destruct (visit f l) as [[kids r]|e| |] eqn:E; cbn [bind]; try (split; discriminate); try congruence.
    destruct (fconsume_node_end_rule_name n r) as [r2|e| |] eqn:N; cbn [bind]; [|split; discriminate| |].
    + destruct (on_rule n kids) as [b|e| |] eqn:V; cbn [bind]; [|split; discriminate|destruct (AR n kids) as [A _]; destruct (A V)|destruct (AR n kids) as [_ A]; destruct (A V)].
      destruct (visit_ok _ _ _ _ E) as (t & forest & -> & _). apply end_ok in N. subst r. rewrite app_length in L. cbn [length] in L. destruct (IH r2 ltac:(lia)) as [A3 A4].
      destruct (visit f r2) as [[bs r3]|e| |]; cbn [bind]; try (split; discriminate); congruence.
    + exfalso. unfold fconsume_node_end_rule_name in N. destruct r as [|[|m|m|] r]; cbn [fsplit_first_nodes bind] in N; try discriminate. destruct (str_eqb m n); discriminate.
    + exfalso. unfold fconsume_node_end_rule_name in N. destruct r as [|[|m|m|] r]; cbn [fsplit_first_nodes bind] in N; try discriminate. destruct (str_eqb m n); discriminate.
  - rewrite visit_closes by (right; eauto). split; discriminate.
  - split; discriminate.
Qed.

Lemma visit_all_reads : forall f t forest, reads t forest -> length t < f -> visit_all f t = folds forest.
Proof.
  intros f t forest R L. unfold SpecVisit.visit_all. pose proof (visit_reads t forest R [] f (or_introl eq_refl)) as E. rewrite app_nil_r in E. rewrite (E L).
  destruct (folds forest); reflexivity.
Qed.
Lemma visit_all_ok : forall f l bs, visit_all f l = Ok bs -> exists forest, reads l forest /\ folds forest = Ok bs.
Proof.
  intros f l bs H. unfold SpecVisit.visit_all in H. destruct (visit f l) as [[bs' r]|e| |] eqn:E; try discriminate. cbn [bind] in H. destruct (visit_ok _ _ _ _ E) as (t & forest & -> & R & F & _).
  destruct r as [|x r]; [|discriminate]. injection H as <-. rewrite app_nil_r. eauto.
Qed.
Lemma visit_all_answers : (forall v, answers (on_val v)) -> (forall n k, answers (on_rule n k)) -> forall f l, length l < f -> answers (visit_all f l).
Proof.
  intros AV AR f l L. unfold SpecVisit.visit_all. destruct (visit_answers AV AR f l L) as [A1 A2]. destruct (visit f l) as [[bs [|x r]]|e| |]; cbn [bind fpeek_first_node]; try (split; discriminate); congruence.
Qed.

(** [EOF] nodes give nothing. *)
Lemma folds_app : forall a b, folds (a ++ b) = let? x := folds a in let? y := folds b in Ok (x ++ y).
Proof.
  induction a as [|k a IH]; intro b; [cbn [app SpecVisit.folds bind]; destruct (folds b); reflexivity|]. cbn [app]. rewrite !folds_cons. destruct (fold_node k) as [x|e| |]; try reflexivity. cbn [bind].
  rewrite IH. destruct (folds a) as [y|e| |]; try reflexivity. cbn [bind]. destruct (folds b) as [z|e| |]; try reflexivity. cbn [bind]. rewrite app_assoc. reflexivity.
Qed.
Lemma folds_drop : forall nd, folds (drop_eof nd) = fold_node nd.
Proof.
  fix F 1. intros [v|n kids|]; [| |reflexivity].
  - cbn [drop_eof]. rewrite folds_cons. destruct (fold_node (Val v)) as [b|e| |]; try reflexivity. cbn. rewrite app_nil_r. reflexivity.
  - cbn [drop_eof]. rewrite folds_cons. assert (E : folds (flat_map drop_eof kids) = folds kids).
    { clear n. induction kids as [|k r IH]; [reflexivity|]. cbn [flat_map]. rewrite folds_app, IH, (F k), folds_cons. reflexivity. }
    rewrite !fold_rule, E. destruct (folds kids) as [bs|e| |]; try reflexivity. cbn [bind]. destruct (on_rule n bs); reflexivity.
Qed.

(** ** Slices of nodes *)

Lemma nodes_cons : forall f nd rest, visit_nodes (S f) (nd :: rest) =
  let? b := match nd with
            | Val v => on_val v
            | Rule n kids => let? bs := visit_nodes f kids in on_rule n bs
            | EOF => Err (ast_mk_error (s_ "expected node::Rule") None)
            end in
  let? bs := visit_nodes f rest in Ok (b :: bs).
Proof. intros f [v|n kids|] rest; reflexivity. Qed.
Lemma eof_free_kids : forall n kids, eof_free (Rule n kids) -> Forall eof_free kids.
Proof. intros n kids. induction kids as [|k r IH]; intro H; [constructor|]. cbn in H. destruct H as [H1 H2]. constructor; [exact H1|exact (IH H2)]. Qed.
Lemma visit_nodes_folds : forall f nodes, Forall eof_free nodes -> list_sum (map tree_size nodes) < f -> visit_nodes f nodes = folds nodes.
Proof.
  induction f as [|f IH]; intros nodes K L; [lia|]. destruct nodes as [|nd rest]; [reflexivity|]. rewrite nodes_cons, folds_cons. inversion K as [|? ? K1 K2]; subst. cbn [map list_sum fold_right] in L.
  change (fold_right Nat.add 0 (map tree_size rest)) with (list_sum (map tree_size rest)) in L.
  destruct nd as [v|n kids|]; [| |destruct K1].
  - cbn [tree_size] in L. rewrite (IH rest K2) by lia. cbn [SpecVisit.fold_node]. destruct (on_val v) as [b|e| |]; reflexivity.
  - cbn [tree_size] in L. rewrite (IH rest K2) by lia. rewrite (IH kids (eof_free_kids n kids K1)) by lia. rewrite fold_rule. destruct (folds kids) as [bs|e| |]; try reflexivity. cbn [bind].
    destruct (on_rule n bs); reflexivity.
Qed.
Lemma visit_nodes_eof : forall f rest, exists e, visit_nodes (S f) (EOF :: rest) = Err e.
Proof. intros f rest. rewrite nodes_cons. eexists. reflexivity. Qed.
End Visit.

(** The program that builds the tree again. *)
Lemma rebuild : forall l, Forall eof_free l -> folds node (fun v => Ok (Val v)) (fun n k => Ok (Rule n k)) l = Ok l.
Proof.
  assert (N : forall nd, eof_free nd -> fold_node node (fun v => Ok (Val v)) (fun n k => Ok (Rule n k)) nd = Ok [nd]).
  { fix F 1. intros [v|n kids|] K; [reflexivity| |destruct K]. rewrite fold_rule.
    assert (E : folds node (fun v => Ok (Val v)) (fun n k => Ok (Rule n k)) kids = Ok kids); [|rewrite E; reflexivity]. apply eof_free_kids in K.
    induction kids as [|k r IH]; [reflexivity|]. inversion K as [|? ? K1 K2]; subst. rewrite folds_cons, (F k K1). cbn [bind]. rewrite (IH K2). reflexivity. }
  induction l as [|k r IH]; intro K; [reflexivity|]. inversion K as [|? ? K1 K2]; subst. rewrite folds_cons, (N k K1). cbn [bind]. rewrite (IH K2). reflexivity.
Qed.
Lemma drop_eof_free : forall nd, eof_free nd -> drop_eof nd = [nd].
Proof.
  fix F 1. intros [v|n kids|] K; [reflexivity| |destruct K]. cbn [drop_eof]. f_equal. f_equal. apply eof_free_kids in K.
  induction kids as [|k r IH]; [reflexivity|]. inversion K as [|? ? K1 K2]; subst. cbn [flat_map]. rewrite (F k K1), (IH K2). reflexivity.
Qed.
Lemma drop_is_free : forall nd, Forall eof_free (drop_eof nd).
Proof.
  fix F 1. intros [v|n kids|]; [repeat constructor| |constructor]. cbn [drop_eof]. constructor; [|constructor].
  assert (E : Forall eof_free (flat_map drop_eof kids)) by (induction kids as [|k r IH]; [constructor|]; cbn [flat_map]; apply Forall_app; split; [exact (F k)|exact IH]).
  revert E. generalize (flat_map drop_eof kids). intros l E. induction E as [|k r K E IH]; [exact I|]. cbn. split; [exact K|exact IH].
Qed.

Lemma reads_balanced : forall t f, reads t f -> balanced t.
Proof. intros t f H. induction H; constructor; assumption. Qed.
Lemma balanced_reads : forall t, balanced t -> exists f, reads t f.
Proof. intros t H. induction H as [|v l H [f R]|n l1 l2 H1 [f1 R1] H2 [f2 R2]]; eexists; econstructor; eassumption. Qed.

Lemma folds_total : forall B on_val on_rule, (forall v, exists b, on_val v = Ok b) -> (forall n (kids : list B), exists b, on_rule n kids = Ok b) ->
  forall l, exists bs, folds B on_val on_rule l = Ok bs.
Proof.
  intros B on_val on_rule TV TR. assert (N : forall nd, exists bs, fold_node B on_val on_rule nd = Ok bs).
  { fix F 1. intros [v|n kids|]; [destruct (TV v) as [b E]; exists [b]; cbn; rewrite E; reflexivity| |exists []; reflexivity]. rewrite fold_rule.
    assert (E : exists bs, folds B on_val on_rule kids = Ok bs).
    { induction kids as [|k r [bs IH]]; [exists []; reflexivity|]. destruct (F k) as [b E]. rewrite folds_cons, E. cbn [bind]. rewrite IH. eexists. reflexivity. }
    destruct E as [bs E]. rewrite E. cbn [bind]. destruct (TR n bs) as [b E2]. rewrite E2. eexists. reflexivity. }
  induction l as [|k r [bs IH]]; [exists []; reflexivity|]. destruct (N k) as [b E]. rewrite folds_cons, E. cbn [bind]. rewrite IH. eexists. reflexivity.
Qed.
Lemma visit_total : forall B on_val on_rule tokens fuel, length tokens < fuel ->
  (forall v, exists b, on_val v = Ok b) -> (forall n kids, exists b, on_rule n kids = Ok b) ->
  ((exists bs, visit_all B on_val on_rule fuel tokens = Ok bs) <-> balanced tokens) /\
  ((exists er, visit_all B on_val on_rule fuel tokens = Err er) <-> ~ balanced tokens).
Proof.
  intros B on_val on_rule tokens fuel L TV TR.
  assert (K : (exists bs, visit_all B on_val on_rule fuel tokens = Ok bs) <-> balanced tokens).
  { split; [intros [bs H]; destruct (visit_all_ok _ _ _ _ _ _ H) as (f & R & _); exact (reads_balanced _ _ R)|].
    intro H. destruct (balanced_reads _ H) as [f R]. rewrite (visit_all_reads _ _ _ fuel _ _ R L). exact (folds_total B on_val on_rule TV TR f). }
  split; [exact K|]. destruct (visit_all_answers B on_val on_rule ltac:(intro v; destruct (TV v) as [b E]; rewrite E; split; discriminate)
    ltac:(intros n k; destruct (TR n k) as [b E]; rewrite E; split; discriminate) fuel tokens L) as [A1 A2].
  rewrite <- K. destruct (visit_all B on_val on_rule fuel tokens) as [bs|e| |]; [| |congruence|congruence].
  - split; [intros [er E]; discriminate|intro N; destruct N; eauto].
  - split; [intros _ [bs E]; discriminate|eauto].
Qed.
