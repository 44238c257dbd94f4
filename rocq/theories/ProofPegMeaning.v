(** What the rules of a text look like, which definitions win, and which accepted texts are refused. *)
From Verif Require Import Base ModelAst ModelParser ModelPegRules ModelPeg SpecPos SpecSyntax SpecPegApi SpecPeg SpecApi ProofParser ProofEngine ProofConsume PegLeaf ProofPegBuild ProofPegPrint.

(* ------------------------------------------------------------------------------------------- *)
(** * Plain rules *)

Lemma plain_list : forall es, fold_right (fun x P => plain x /\ P) True es <-> Forall plain es.
Proof.
  induction es as [|e es IH]; cbn; split; intro H; [constructor|exact I| |].
  - destruct H. constructor; [assumption|]. apply IH. assumption.
  - inversion H; subst. split; [assumption|]. apply IH. assumption.
Qed.

Lemma atom_plain : forall t e, atom_text t e -> plain e.
Proof. intros t e H. destruct H as [t v L|cs rg t (_ & N & _)|t N|]; cbn; auto. Qed.

Lemma seq_of_plain : forall es, es <> [] -> Forall plain es -> plain (seq_of es).
Proof.
  intros es N F. destruct es as [|e [|e2 es]]; [congruence|inversion F; assumption|]. cbn [seq_of plain]. split; [cbn; lia|].
  apply plain_list. exact F.
Qed.

Lemma choice_of_plain : forall es, es <> [] -> Forall plain es -> plain (choice_of es).
Proof.
  intros es N F. destruct es as [|e [|e2 es]]; [congruence|inversion F; assumption|]. cbn [choice_of plain]. split; [cbn; lia|].
  apply plain_list. exact F.
Qed.

Lemma text_plain :
  (forall t e, unit_text t e -> plain e) /\ (forall t e, item_text t e -> plain e) /\
  (forall t es, seq_text t es -> es <> [] /\ Forall plain es) /\
  (forall t xs, choice_text t xs -> xs <> [] /\ Forall plain xs) /\ (forall t e, expr_text t e -> plain e).
Proof.
  apply expr_text_ind5; intros; cbn [plain] in *; auto 8.
  - eapply atom_plain; eassumption.
  - split; [discriminate|]. constructor; [exact I|constructor].
  - split; [discriminate|]. constructor; [assumption|constructor].
  - split; [discriminate|]. match goal with H : _ /\ Forall _ _ |- _ => destruct H end. constructor; assumption.
  - match goal with H : _ /\ Forall _ _ |- _ => destruct H end. split; [discriminate|]. constructor; [|constructor]. apply seq_of_plain; assumption.
  - repeat match goal with H : _ /\ Forall _ _ |- _ => destruct H end. split; [discriminate|].
    constructor; [|assumption]. apply seq_of_plain; assumption.
  - match goal with H : _ /\ Forall _ _ |- _ => destruct H end. apply choice_of_plain; assumption.
Qed.

(** Every definition of a grammar text. *)
Inductive def_all (P : str -> expr -> Prop) : def -> Prop :=
| da_def n e : P n e -> def_all P (Def n e)
| da_mod m l : Forall (def_all P) l -> def_all P (Mod m l).

Lemma defs_all : (forall t d, def_text t d -> def_all (fun n e => rule_name n /\ plain e) d) /\
  (forall t l, defs_text t l -> Forall (def_all (fun n e => rule_name n /\ plain e)) l).
Proof.
  apply def_text_ind2; intros.
  - constructor. split; [assumption|]. eapply (proj2 (proj2 (proj2 (proj2 text_plain)))); eassumption.
  - constructor. assumption.
  - constructor; [assumption|constructor].
  - constructor; assumption.
Qed.

Lemma bindings_all : forall P l, Forall (def_all P) l -> forall k e, bindings l k = Some e -> P k e.
Proof.
  intros P. assert (SZ : forall n l, fold_right (fun x n => def_size x + n) 0 l <= n -> Forall (def_all P) l ->
    forall env, (forall k e, env k = Some e -> P k e) -> forall k e, fold_left define l env k = Some e -> P k e).
  { induction n as [|n IH]; intros l L F.
    { destruct F as [|d l]; [intros env H k e E; exact (H k e E)|]. destruct d; cbn in L; lia. }
    induction F as [|d l Fd F IHl]; intros env H k e E; [exact (H k e E)|]. cbn [fold_left] in E. cbn in L.
    apply (IHl ltac:(lia) (define env d)) with (k := k); [|exact E]. clear k e E IHl.
    intros k e E. destruct Fd as [m x Px|m b Fb].
    - cbn in E. destruct (str_eqb m k) eqn:Q; [|exact (H k e E)]. apply str_eqb_eq in Q. subst m. injection E as <-. exact Px.
    - cbn in E. destruct (env k) as [e0|] eqn:Ek; [injection E as <-; exact (H k e0 Ek)|].
      refine (IH b _ Fb (fun _ => None) _ k e E); [cbn in L; lia|]. intros k0 e0 X. discriminate. }
  intros l F k e E. refine (SZ _ l (Nat.le_refl _) F (fun _ => None) _ k e E). intros k0 e0 X. discriminate.
Qed.

Lemma bindings_plain : forall s l, grammar_text s l -> forall k e, bindings l k = Some e -> rule_name k /\ plain e.
Proof.
  intros s l (b & r & _ & D & _) k e E. exact (bindings_all _ l (proj2 defs_all r l D) k e E).
Qed.

Lemma plain_sane : forall e, plain e -> sane e.
Proof.
  intro e. induction e as [a|es IH|es IH|e IH|e mn mx IH|n] using expr_ind'; cbn [plain sane]; intro H.
  - exact I.
  - destruct H as [_ H]. apply plain_list in H. apply sane_list. rewrite Forall_forall in *. auto.
  - destruct H as [_ H]. apply plain_list in H. apply sane_list. rewrite Forall_forall in *. auto.
  - auto.
  - destruct H as [H [[-> ->]|[[-> ->]|[-> ->]]]]; (split; [auto|]); (exact I || lia).
  - exact I.
Qed.

(* ------------------------------------------------------------------------------------------- *)
(** * Which definition wins *)

Lemma fold_define_app : forall l1 l2 env k, fold_left define (l1 ++ l2) env k = fold_left define l2 (fold_left define l1 env) k.
Proof. intros. rewrite fold_left_app. reflexivity. Qed.

(** What a block adds to an environment, without its plain definitions of [k]. *)
Lemma fold_define_noplain : forall k l env, (forall e, ~ In (Def k e) l) ->
  (forall e, env k = Some e -> fold_left define l env k = Some e).
Proof.
  intros k l. induction l as [|d l IH]; intros env N e E; cbn [fold_left]; [exact E|].
  apply IH; [intros e' I; apply (N e'); right; exact I|]. destruct d as [n x|m b]; cbn.
  - destruct (str_eqb n k) eqn:Q; [|exact E]. apply str_eqb_eq in Q. subst n. exfalso. apply (N x). left. reflexivity.
  - rewrite E. reflexivity.
Qed.

Lemma str_eqb_same : forall a : str, str_eqb a a = true.
Proof. intro a. apply str_eqb_eq. reflexivity. Qed.

Lemma fold_define_none : forall k l env, env k = None -> (forall e, ~ In (Def k e) l) ->
  (forall m b, In (Mod m b) l -> bindings b k = None) -> fold_left define l env k = None.
Proof.
  intros k l. induction l as [|d l IH]; intros env E N M; cbn [fold_left]; [exact E|]. apply IH.
  - destruct d as [n x|m b]; cbn.
    + destruct (str_eqb n k) eqn:Q; [|exact E]. apply str_eqb_eq in Q. subst n. exfalso. apply (N x). left. reflexivity.
    + rewrite E. apply (M m b). left. reflexivity.
  - intros e I. apply (N e). right. exact I.
  - intros m b I. apply (M m b). right. exact I.
Qed.

Lemma def_in_dec : forall k l, (exists e, In (Def k e) l) \/ (forall e, ~ In (Def k e) l).
Proof.
  intros k l. induction l as [|d l IH]; [right; intros e []|]. destruct IH as [(e & I)|N]; [left; exists e; right; exact I|].
  destruct d as [n x|m b].
  - destruct (str_eqb n k) eqn:Q.
    + apply str_eqb_eq in Q. subst n. left. exists x. left. reflexivity.
    + right. intros e [I|I]; [|exact (N e I)]. injection I as -> _. rewrite str_eqb_same in Q. discriminate.
  - right. intros e [I|I]; [discriminate|exact (N e I)].
Qed.

Lemma last_def : forall k l, (exists e, In (Def k e) l) -> exists l1 e l2, l = l1 ++ Def k e :: l2 /\ forall e', ~ In (Def k e') l2.
Proof.
  intros k l. induction l as [|d l IH]; intros (e & I); [destruct I|]. destruct (def_in_dec k l) as [H|N].
  - destruct (IH H) as (l1 & x & l2 & -> & F). exists (d :: l1), x, l2. split; [reflexivity|exact F].
  - destruct I as [->|I]; [|exfalso; exact (N e I)]. exists [], e, l. split; [reflexivity|exact N].
Qed.

Definition dsize (l : list def) : nat := fold_right (fun x n => def_size x + n) 0 l.
Lemma dsize_app : forall a b, dsize (a ++ b) = dsize a + dsize b.
Proof. induction a as [|x a IH]; intro b; [reflexivity|]. change (def_size x + dsize (a ++ b) = def_size x + dsize a + dsize b). rewrite IH. lia. Qed.
Lemma dsize_in : forall m b l, In (Mod m b) l -> dsize b < dsize l.
Proof.
  intros m b l. induction l as [|d l IH]; [intros []|]. change (dsize (d :: l)) with (def_size d + dsize l). intros [->|I]; [cbn [def_size]; change (fold_right _ 0 b) with (dsize b); lia|]. specialize (IH I). lia.
Qed.

Lemma fold_plain_last : forall k e l1 l2 env, (forall e', ~ In (Def k e') l2) -> fold_left define (l1 ++ Def k e :: l2) env k = Some e.
Proof.
  intros k e l1 l2 env F. rewrite fold_define_app. cbn [fold_left]. apply fold_define_noplain; [exact F|].
  cbn. rewrite str_eqb_same. reflexivity.
Qed.

Lemma defined_iff : forall n l k, dsize l <= n -> (bindings l k = None <-> ~ defined k l).
Proof.
  induction n as [|n IH]; intros l k L.
  { destruct l as [|d l]; [|destruct d; cbn in L; lia]. split; [|reflexivity]. intros _ H.
    inversion H; subst; match goal with H : In _ [] |- _ => destruct H end. }
  destruct (def_in_dec k l) as [H|N].
  - destruct (last_def k l H) as (l1 & e & l2 & -> & F). unfold bindings. rewrite fold_plain_last by exact F. split; [discriminate|].
    intro D. exfalso. apply D. apply (dk_plain k e). apply in_or_app. right. left. reflexivity.
  - split.
    + intros B D. inversion D as [e l0 I|m b l0 I Db]; subst; [exact (N e I)|].
      assert (X : bindings b k <> None).
      { intro Y. apply (IH b k) in Y; [contradiction|]. pose proof (dsize_in m b l I). lia. }
      apply in_split in I. destruct I as (l1 & l2 & ->). unfold bindings in B. rewrite fold_define_app in B. cbn [fold_left] in B.
      destruct (bindings b k) as [e|] eqn:Eb; [|congruence].
      set (env := fold_left define l1 (fun _ => None)) in B.
      assert (Y : exists e', define env (Mod m b) k = Some e').
      { cbn. destruct (env k); [eauto|]. exists e. exact Eb. }
      destruct Y as [e' Y]. rewrite (fold_define_noplain k l2 _) with (e := e') in B; [discriminate| |exact Y].
      intros e0 I0. apply (N e0). apply in_or_app. right. right. exact I0.
    + intro D. apply fold_define_none; [reflexivity|exact N|]. intros m b I. apply (IH b k).
      * pose proof (dsize_in m b l I). lia.
      * intro Db. apply D. eapply dk_module; eassumption.
Qed.

Lemma first_module : forall k l, (forall e, ~ In (Def k e) l) -> (exists m b, In (Mod m b) l /\ bindings b k <> None) ->
  exists l1 m b l2 e, l = l1 ++ Mod m b :: l2 /\ bindings b k = Some e /\ forall m' b', In (Mod m' b') l1 -> bindings b' k = None.
Proof.
  intros k l. induction l as [|d l IH]; intros N (m & b & I & B); [destruct I|].
  assert (Rest : (forall m' b', d = Mod m' b' -> bindings b' k = None) ->
    exists l1 m b l2 e, d :: l = l1 ++ Mod m b :: l2 /\ bindings b k = Some e /\ forall m' b', In (Mod m' b') l1 -> bindings b' k = None).
  { intro Hd. destruct I as [->|I]; [exfalso; apply B; apply (Hd m b); reflexivity|].
    destruct IH as (l1 & m1 & b1 & l2 & e & -> & E & F); [intros e I'; apply (N e); right; exact I'|exists m, b; auto|].
    exists (d :: l1), m1, b1, l2, e. split; [reflexivity|]. split; [exact E|]. intros m' b' [X|X]; [exact (Hd m' b' X)|exact (F m' b' X)]. }
  destruct d as [n x|m0 b0]; [apply Rest; discriminate|].
  destruct (bindings b0 k) as [e0|] eqn:E0.
  - exists [], m0, b0, l, e0. split; [reflexivity|]. split; [exact E0|]. intros m' b' [].
  - apply Rest. intros m' b' X. injection X as <- <-. exact E0.
Qed.

Lemma bindings_winner : forall n l k e, dsize l <= n -> (bindings l k = Some e <-> winner k l e).
Proof.
  induction n as [|n IH]; intros l k e L.
  { destruct l as [|d l]; [|destruct d; cbn in L; lia]. split; [discriminate|]. intro H.
    inversion H; subst; match goal with H : _ ++ _ :: _ = [] |- _ => symmetry in H; apply app_cons_not_nil in H; destruct H end. }
  assert (MW : forall l1 m b l2, l = l1 ++ Mod m b :: l2 -> (forall e', ~ In (Def k e') (l1 ++ l2)) ->
     (forall m' b', In (Mod m' b') l1 -> bindings b' k = None) -> forall e0, bindings b k = Some e0 -> bindings l k = Some e0).
  { intros l1 m b l2 -> N F e0 E. unfold bindings. rewrite fold_define_app. cbn [fold_left].
    apply fold_define_noplain; [intros e' I; apply (N e'); apply in_or_app; right; exact I|].
    cbn. rewrite (fold_define_none k l1); [exact E|reflexivity| |exact F]. intros e' I. apply (N e'). apply in_or_app. left. exact I. }
  split.
  - intro B. destruct (def_in_dec k l) as [H|N].
    + destruct (last_def k l H) as (l1 & x & l2 & -> & F). unfold bindings in B. rewrite fold_plain_last in B by exact F.
      injection B as <-. constructor. exact F.
    + assert (X : exists m b, In (Mod m b) l /\ bindings b k <> None).
      { assert (DD : forall l0 : list def, (forall m b, In (Mod m b) l0 -> bindings b k = None) \/ (exists m b, In (Mod m b) l0 /\ bindings b k <> None)).
        { induction l0 as [|d l0 IH0]; [left; intros m b []|]. destruct IH0 as [IH0|(m & b & I & X)]; [|right; exists m, b; split; [right; exact I|exact X]].
          destruct d as [n0 x|m b]; [left; intros m b [I|I]; [discriminate|exact (IH0 m b I)]|].
          destruct (bindings b k) eqn:Eb; [right; exists m, b; split; [left; reflexivity|congruence]|].
          left. intros m' b' [I|I]; [injection I as <- <-; exact Eb|exact (IH0 m' b' I)]. }
        destruct (DD l) as [Y|Y]; [|exact Y]. unfold bindings in B. rewrite fold_define_none in B; [discriminate|reflexivity|exact N|exact Y]. }
      destruct (first_module k l N X) as (l1 & m & b & l2 & e0 & El & E & F).
      assert (N' : forall e', ~ In (Def k e') (l1 ++ l2)).
      { intros e' I. apply (N e'). rewrite El. apply in_app_iff in I. apply in_app_iff. destruct I; [left; assumption|right; right; assumption]. }
      rewrite (MW l1 m b l2 El N' F e0 E) in B. injection B as <-. rewrite El. apply wn_module; [exact N'| |].
      * intros m' b' I. apply (defined_iff (dsize b') b' k); [lia|]. exact (F m' b' I).
      * apply IH; [|exact E]. rewrite El in L. pose proof (dsize_in m b (l1 ++ Mod m b :: l2) ltac:(apply in_or_app; right; left; reflexivity)). lia.
  - intro W. destruct W as [l1 e l2 F|l1 m b l2 e N F W].
    + unfold bindings. apply fold_plain_last. exact F.
    + apply (MW l1 m b l2 eq_refl N).
      * intros m' b' I. apply (defined_iff (dsize b') b' k); [lia|]. exact (F m' b' I).
      * apply IH; [|exact W]. pose proof (dsize_in m b (l1 ++ Mod m b :: l2) ltac:(apply in_or_app; right; left; reflexivity)). lia.
Qed.

(* ------------------------------------------------------------------------------------------- *)
(** * Line breaks and equals signs *)

Lemma def_text_marks : (forall t d, def_text t d -> (In ch_cr t \/ In ch_nl t) /\ In 61%N t) /\
  (forall t l, defs_text t l -> (In ch_cr t \/ In ch_nl t) /\ In 61%N t).
Proof.
  apply def_text_ind2.
  - intros n b1 b2 t e r b3 _ _ _ _ R _. apply end_has_eol in R. rewrite !in_app_iff. split; [tauto|].
    right. right. left. left. reflexivity.
  - intros m b1 b2 t l r b3 _ _ _ _ [_ E] R _. apply end_has_eol in R. rewrite !in_app_iff. split; [tauto|].
    right. right. right. right. left. exact E.
  - auto.
  - intros t d r l _ [H1 H2] _ _. rewrite !in_app_iff. split; tauto.
Qed.

Lemma plain_no_eof : forall e, plain e -> ~ has_atom AEOF e.
Proof.
  intros e P H. induction H as [|e es I H IH|e es I H IH|e H IH|e mn mx H IH]; cbn [plain] in P.
  - exact P.
  - destruct P as [_ P]. apply plain_list in P. rewrite Forall_forall in P. exact (IH (P e I)).
  - destruct P as [_ P]. apply plain_list in P. rewrite Forall_forall in P. exact (IH (P e I)).
  - exact (IH P).
  - exact (IH (proj1 P)).
Qed.
