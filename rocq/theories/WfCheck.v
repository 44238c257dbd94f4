(** A decision procedure for [well_formed], used on concrete rule sets. *)
From Verif Require Import Base ModelAst ModelParser SpecPeg SpecWf ProofParser.

Definition memb (n : str) (l : list str) : bool := existsb (fun x => str_eqb x n) l.

Lemma memb_in : forall n l, memb n l = true <-> In n l.
Proof.
  intros n l. unfold memb. rewrite existsb_exists. split.
  - intros (x & X1 & X2). apply str_eqb_eq in X2. subst. exact X1.
  - intro H. exists n. split; [exact H|apply str_eqb_refl].
Qed.

(** [e] may match the empty string, given the rules [ns] that may. *)
Fixpoint nullb (ns : list str) (e : expr) : bool :=
  match e with
  | Simple (Literal []) | Simple AEOF => true
  | Simple _ => false
  | And es => forallb (nullb ns) es
  | Or es => existsb (nullb ns) es
  | Not _ => true
  | Repeat e1 mn _ => (mn =? 0) || nullb ns e1
  | RuleName n => memb n ns
  end.

(** Rules that may be called first. *)
Fixpoint firsts (ns : list str) (e : expr) : list str :=
  match e with
  | Simple _ => []
  | And es =>
      (fix go (l : list expr) : list str :=
         match l with
         | [] => []
         | x :: r => firsts ns x ++ (if nullb ns x then go r else [])
         end) es
  | Or es => flat_map (firsts ns) es
  | Not e1 => firsts ns e1
  | Repeat e1 _ _ => firsts ns e1
  | RuleName n => [n]
  end.

Fixpoint loopsb (ns : list str) (e : expr) : bool :=
  match e with
  | Simple _ | RuleName _ => true
  | And es | Or es => forallb (loopsb ns) es
  | Not e1 => loopsb ns e1
  | Repeat e1 _ mx =>
      loopsb ns e1 && match mx with None | Some 0 => negb (nullb ns e1) | Some (S _) => true end
  end.

Fixpoint iter {A} (n : nat) (f : A -> A) (x : A) : A := match n with 0 => x | S k => f (iter k f x) end.

Definition null_step (rs : rules) (ns : list str) : list str :=
  map fst (filter (fun p => nullb ns (snd p)) rs).
Definition null_set (rs : rules) : list str := iter (length rs) (null_step rs) [].

(** Names whose first calls are all in [done] (or undefined). *)
Definition order_step (rs : rules) (ns done : list str) : list str :=
  map fst (filter (fun p => forallb (fun m => memb m done || negb (memb m (map fst rs))) (firsts ns (snd p))) rs).
Definition order_set (rs : rules) (ns : list str) (k : nat) : list str := iter k (order_step rs ns) [].

Definition wf_check (rs : rules) : bool :=
  let ns := null_set rs in
  let done := order_set rs ns (length rs) in
  forallb (fun p => implb (nullb ns (snd p)) (memb (fst p) ns)) rs &&
  forallb (fun p => memb (fst p) done) rs &&
  forallb (fun p => loopsb ns (snd p)) rs.

Lemma get_in : forall (rs : rules) n e, rules_get rs n = Some e -> In (n, e) rs.
Proof.
  intros rs n e. induction rs as [|[k x] l IH]; intro H; cbn in H; [discriminate|].
  destruct (str_eqb k n) eqn:E; [|right; auto]. apply str_eqb_eq in E. injection H as <-. subst. left. reflexivity.
Qed.

Section Sound.
Variable rs : rules.
Variable ns : list str.
Hypothesis CL : forall n e, rules_get rs n = Some e -> nullb ns e = true -> In n ns.

Lemma nullb_sound : forall e, may_be_empty (rules_get rs) e -> nullb ns e = true.
Proof.
  intros e H. induction H; cbn [nullb]; try reflexivity.
  - apply andb_true_iff. split; assumption.
  - apply existsb_exists. exists e. split; assumption.
  - rewrite IHmay_be_empty. apply orb_true_r.
  - apply memb_in. eapply CL; eassumption.
Qed.

Lemma firsts_sound : forall e n, calls_first (rules_get rs) e n -> In n (firsts ns e).
Proof.
  intros e n H. induction H; cbn [firsts].
  - left. reflexivity.
  - apply in_or_app. left. exact IHcalls_first.
  - apply in_or_app. right. rewrite nullb_sound by assumption. exact IHcalls_first.
  - apply in_flat_map. exists e. split; assumption.
  - exact IHcalls_first.
  - exact IHcalls_first.
Qed.

Lemma loopsb_sound : forall e x mn mx, loopsb ns e = true -> occurs (Repeat x mn mx) e -> unlimited mx ->
  ~ may_be_empty (rules_get rs) x.
Proof.
  intros e x mn mx L O. remember (Repeat x mn mx) as sub eqn:E. induction O; intros U ME.
  - subst. cbn [loopsb] in L. apply andb_true_iff in L. destruct L as [_ L]. apply nullb_sound in ME.
    destruct U; subst; rewrite ME in L; discriminate.
  - cbn [loopsb] in L. rewrite forallb_forall in L. exact (IHO (L _ H) U ME).
  - cbn [loopsb] in L. rewrite forallb_forall in L. exact (IHO (L _ H) U ME).
  - cbn [loopsb] in L. exact (IHO L U ME).
  - cbn [loopsb] in L. apply andb_true_iff in L. exact (IHO (proj1 L) U ME).
Qed.

(** Every rule is in some stage of the order, and only calls first rules of earlier stages. *)
Lemma order_sound : forall k n, In n (order_set rs ns k) -> (forall p, In p rs -> rules_get rs (fst p) = Some (snd p)) ->
  Acc (fun a b => rule_calls (rules_get rs) b a) n.
Proof.
  induction k as [|k IH]; intros n H ND; [destruct H|].
  cbn [order_set iter] in H. unfold order_step in H. apply in_map_iff in H. destruct H as ([n' e] & E & H). cbn in E. subst n'.
  apply filter_In in H. destruct H as [H1 H2]. cbn [snd] in H2. rewrite forallb_forall in H2.
  constructor. intros m (Dm & e' & E' & C). pose proof (ND _ H1) as X; cbn [fst snd] in X; rewrite X in E'; injection E' as <-; clear X.
  apply firsts_sound in C. apply H2 in C. apply orb_true_iff in C. destruct C as [C|C].
  - apply memb_in in C. exact (IH m C ND).
  - exfalso. apply negb_true_iff in C. destruct (rules_get rs m) as [x|] eqn:X; [|congruence].
    apply get_in in X. apply (in_map fst) in X. apply memb_in in X. cbn in X. congruence.
Qed.
End Sound.

Lemma acc_no_cycle : forall A (R : A -> A -> Prop) x, Acc (fun a b => R b a) x -> ~ clos_trans A R x x.
Proof.
  intros A R x H C.
  assert (X : forall y z, clos_trans A R y z -> Acc (fun a b => R b a) y -> Acc (fun a b => R b a) z).
  { intros y z T. induction T as [y z T|y z w T1 IH1 T2 IH2]; intro A0; [inversion A0; auto|auto]. }
  assert (W : Acc (fun a b => clos_trans A R b a) x).
  { clear C. induction H as [x H IH]. constructor. intros y T.
    assert (Y : forall a b, clos_trans A R a b -> (forall c, R a c -> Acc (fun p q => clos_trans A R q p) c) -> Acc (fun p q => clos_trans A R q p) b).
    { intros a b T'. induction T' as [a b T'|a b c T1 IH1 T2 IH2]; intro K; [auto|].
      apply IH2. intros c0 R0. specialize (IH1 K). inversion IH1 as [IH1']. apply IH1'. apply t_step. exact R0. }
    apply (Y x y T). exact IH. }
  clear H X. induction W as [x H IH]. exact (IH x C C).
Qed.

(** Keys are unique in every map the API builds. *)
Definition uniqueb (rs : rules) : bool :=
  (fix go (l : list str) : bool := match l with [] => true | n :: r => negb (memb n r) && go r end) (map fst rs).

Lemma uniqueb_get : forall rs, uniqueb rs = true -> forall p, In p rs -> rules_get rs (fst p) = Some (snd p).
Proof.
  unfold uniqueb. induction rs as [|[k e] rs IH]; intros U p H; [destruct H|]. cbn in U. apply andb_true_iff in U. destruct U as [U1 U2].
  cbn [rules_get]. destruct H as [<-|H]; [cbn; rewrite str_eqb_refl; reflexivity|].
  destruct (str_eqb k (fst p)) eqn:E; [|exact (IH U2 p H)]. apply str_eqb_eq in E. apply negb_true_iff in U1.
  exfalso. apply (in_map fst) in H. rewrite <- E in H. apply memb_in in H. congruence.
Qed.

Theorem wf_check_sound : forall rs, uniqueb rs = true -> wf_check rs = true -> well_formed (rules_get rs).
Proof.
  intros rs U H. unfold wf_check in H. apply andb_true_iff in H. destruct H as [H H3]. apply andb_true_iff in H. destruct H as [H1 H2].
  rewrite forallb_forall in H1, H2, H3. set (ns := null_set rs) in *.
  assert (CL : forall n e, rules_get rs n = Some e -> nullb ns e = true -> In n ns).
  { intros n e G N. apply get_in in G. specialize (H1 _ G). cbn in H1. rewrite N in H1. cbn in H1. apply memb_in. exact H1. }
  split.
  - intro n. destruct (rules_get rs n) as [e|] eqn:G.
    + apply acc_no_cycle. apply (order_sound rs ns CL (length rs)); [|exact (uniqueb_get rs U)].
      apply get_in in G. specialize (H2 _ G). apply memb_in in H2. exact H2.
    + intro C. assert (X : forall a b, clos_trans str (rule_calls (rules_get rs)) a b -> rules_get rs a <> None).
      { intros a b T. induction T as [a b (_ & e & E & _)|]; [congruence|assumption]. }
      exact (X n n C G).
  - intros n e x mn mx G O Un. apply (loopsb_sound rs ns CL e x mn mx); [|exact O|exact Un].
    apply get_in in G. exact (H3 _ G).
Qed.

Lemma uniqueb_nodup : forall rs, NoDup (map fst rs) -> uniqueb rs = true.
Proof.
  unfold uniqueb. induction rs as [|[k e] rs IH]; intro H; [reflexivity|]. cbn in *. inversion H as [|? ? H1 H2]; subst.
  apply andb_true_iff. split; [|exact (IH H2)]. apply negb_true_iff. destruct (memb k (map fst rs)) eqn:M; [|reflexivity].
  apply memb_in in M. contradiction.
Qed.
