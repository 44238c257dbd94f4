(** Proofs: character classes as sets of chars. *)
From Verif Require Import Base ModelAst ModelParser ModelGcode ModelClass SpecPeg SpecRefactor SpecApi.
From Verif Require Import ProofParser ProofEngine ProofGcode.

Section Classes.
Variable G : str -> option expr.

Lemma class_dec : forall cs rs c, in_class cs rs c \/ ~ in_class cs rs c.
Proof. intros cs rs c. rewrite <- match_char_iff. destruct (match_char cs rs c); [left; reflexivity|right; discriminate]. Qed.

Lemma peg_class : forall cs rs s r, peg G (ematch cs rs) s r <->
  (exists c s1, s = c :: s1 /\ in_class cs rs c /\ r = PMatch [Val [c]] s1) \/
  ((forall c s1, s = c :: s1 -> ~ in_class cs rs c) /\ r = PFail).
Proof.
  intros cs rs s r. split.
  - intro D. inversion D; subst; [left; eauto|right; eauto].
  - intros [(c & s1 & E & I & R)|[N R]]; subst; constructor; assumption.
Qed.

Lemma class_total : forall cs rs s, exists r, peg G (ematch cs rs) s r.
Proof.
  intros cs rs [|c s]; [exists PFail; constructor; discriminate|]. destruct (class_dec cs rs c) as [I|I].
  - exists (PMatch [Val [c]] s). constructor. exact I.
  - exists PFail. constructor. intros c' s' E. injection E as E1 E2. subst. exact I.
Qed.

(** An expression whose outcomes are those of the class of the chars with [P]. *)
Definition picks (e : expr) (P : char -> Prop) : Prop :=
  forall s r, peg G e s r <->
    (exists c s1, s = c :: s1 /\ P c /\ r = PMatch [Val [c]] s1) \/ ((forall c s1, s = c :: s1 -> ~ P c) /\ r = PFail).

Lemma class_picks : forall cs rs, picks (ematch cs rs) (in_class cs rs).
Proof. intros cs rs s r. apply peg_class. Qed.

Lemma picks_equiv : forall e e' P, picks e P -> picks e' P -> equiv G e e'.
Proof. intros e e' P H H' s r. rewrite (H s r), (H' s r). reflexivity. Qed.

Lemma picks_ext : forall e P P', (forall c, P c <-> P' c) -> picks e P -> picks e P'.
Proof.
  intros e P P' X H s r. rewrite (H s r). split; (intros [(c & s1 & E & I & R)|[N R]]; [left|right]).
  - exists c, s1. rewrite <- X. auto.
  - split; [|exact R]. intros c s1 E Y. apply (N c s1 E). apply X. exact Y.
  - exists c, s1. rewrite X. auto.
  - split; [|exact R]. intros c s1 E Y. apply (N c s1 E). apply X. exact Y.
Qed.

(** Two classes are interchangeable exactly when they have the same members. *)
Lemma classes_equiv : forall cs rs cs' rs',
  equiv G (ematch cs rs) (ematch cs' rs') <-> (forall c, in_class cs rs c <-> in_class cs' rs' c).
Proof.
  assert (A : forall cs rs cs' rs', equiv G (ematch cs rs) (ematch cs' rs') -> forall c, in_class cs rs c -> in_class cs' rs' c).
  { intros cs rs cs' rs' E c I. assert (D : peg G (ematch cs rs) [c] (PMatch [Val [c]] [])) by (constructor; exact I).
    apply E in D. apply peg_class in D. destruct D as [(c' & s1 & X & I' & _)|[_ X]]; [|discriminate]. injection X as X _. subst. exact I'. }
  intros cs rs cs' rs'. split.
  - intros E c. split; [apply (A _ _ _ _ E)|]. apply (A cs' rs' cs rs). intros s r. symmetry. apply E.
  - intro X. apply (picks_equiv _ _ (in_class cs' rs')); [|apply class_picks]. apply (picks_ext _ (in_class cs rs)); [exact X|apply class_picks].
Qed.

Lemma or_inv : forall a b s r, peg G (Or [a; b]) s r <->
  (peg G a s r /\ r <> PFail) \/ (peg G a s PFail /\ peg G b s r).
Proof.
  intros a b s r. split.
  - intro D. inversion D; subst; [left; split; assumption|]. right. split; [assumption|].
    match goal with H : peg G (Or [b]) s r |- _ => inversion H; subst; [assumption|] end.
    match goal with H : peg G (Or []) s r |- _ => inversion H; subst; assumption end.
  - intros [[A N]|[A B]]; [apply peg_or_first; assumption|]. apply peg_or_next; [exact A|].
    destruct r; [apply peg_or_first; [exact B|discriminate]| |apply peg_or_first; [exact B|discriminate]].
    apply peg_or_next; [exact B|constructor].
Qed.

(** A choice of expressions that pick chars. *)
Lemma or_picks : forall a b P Q, picks a P -> picks b Q -> (forall c, P c \/ ~ P c) -> picks (Or [a; b]) (fun c => P c \/ Q c).
Proof.
  intros a b P Q HA HB DP s r. rewrite or_inv, (HA s r), (HA s PFail), (HB s r). split.
  - intros [[[(c & s1 & E & I & R)|[N R]] NF]|[[(c & s1 & E & I & R)|[N _]] H]]; try discriminate; try congruence.
    + left. exists c, s1. tauto.
    + destruct H as [(c & s1 & E & I & R)|[N' R]].
      * left. exists c, s1. tauto.
      * right. split; [|exact R]. intros c s1 E [X|X]; [apply (N c s1 E X)|apply (N' c s1 E X)].
  - intros [(c & s1 & E & I & R)|[N R]].
    + destruct (DP c) as [X|X].
      * left. split; [left; exists c, s1; tauto|subst; discriminate].
      * right. split; [right; split; [|reflexivity]|left; exists c, s1; tauto]. intros c' s' E'. subst s. injection E' as E1 E2. subst. exact X.
    + right. split; right; (split; [|assumption || reflexivity]); intros c s1 E X; apply (N c s1 E); tauto.
Qed.

(** [!a b]. *)
Lemma not_picks : forall a b P Q, picks a P -> picks b Q -> (forall c, P c \/ ~ P c) -> picks (And [Not a; b]) (fun c => ~ P c /\ Q c).
Proof.
  intros a b P Q HA HB DP s r. split.
  - intro D. inversion D as [| | | | | | | | | |e es s0 ts s1 r0 N B E1 E2 E3|e es s0 r0 N ST E1 E2 E3| | | | | | | | | | | |]; subst.
    + inversion N; subst. match goal with H : peg G a s1 ?x, ST : stops ?x |- _ => apply HA in H; destruct H as [(c & q & E & I & R)|[NP _]]; [subst; contradiction|] end.
      inversion B; subst.
      * match goal with H : peg G (And []) _ _ |- _ => inversion H; subst end. cbn.
        match goal with H : peg G b _ _ |- _ => apply HB in H; destruct H as [(c & q & E & I & R)|[_ R]]; [|discriminate] end.
        injection R as R1 R2. subst. left. exists c, q. split; [reflexivity|]. split; [split; [apply (NP c q eq_refl)|exact I]|reflexivity].
      * match goal with H : peg G b _ _, ST : stops ?x |- _ => apply HB in H; destruct H as [(c & q & E & I & R)|[NQ R]]; [subst; contradiction|] end.
        subst. right. split; [|reflexivity]. intros c q E [_ X]. apply (NQ c q E X).
    + inversion N; subst; [|contradiction]. match goal with H : peg G a _ _ |- _ => apply HA in H; destruct H as [(c & q & E & I & R)|[_ R]]; [|discriminate] end.
      right. split; [|reflexivity]. intros c' q' E' [X _]. subst s. injection E' as E1 E2. subst. exact (X I).
  - intros [(c & s1 & E & [NP I] & R)|[N R]]; subst.
    + change (PMatch [Val [c]] s1) with (prepend [] (prepend [Val [c]] (PMatch [] s1))). eapply peg_and_cons.
      * eapply peg_not_ok; [apply HA; right; split; [|reflexivity]|exact Logic.I]. intros c' q E. injection E as E1 E2. subst. exact NP.
      * eapply peg_and_cons; [apply HB; left; exists c, s1; auto|constructor].
    + destruct s as [|c s].
      * change PFail with (prepend [] PFail). eapply peg_and_cons.
        -- eapply peg_not_ok; [apply HA; right; split; [|reflexivity]|exact Logic.I]. discriminate.
        -- apply peg_and_stop; [apply HB; right; split; [discriminate|reflexivity]|exact Logic.I].
      * destruct (DP c) as [X|X].
        -- apply peg_and_stop; [|exact Logic.I]. eapply peg_not_fail. apply HA. left. exists c, s. auto.
        -- change PFail with (prepend [] PFail). eapply peg_and_cons.
           ++ eapply peg_not_ok; [apply HA; right; split; [|reflexivity]|exact Logic.I]. intros c' q E. injection E as E1 E2. subst. exact X.
           ++ apply peg_and_stop; [apply HB; right; split; [|reflexivity]|exact Logic.I]. intros c' q E Y. injection E as E1 E2. subst. apply (N c' q eq_refl). auto.
Qed.

Lemma dot_picks : picks dot_ (fun _ => True).
Proof.
  intros s r. split.
  - intro D. inversion D; subst; [left; eauto|right; split; [discriminate|reflexivity]].
  - intros [(c & s1 & E & _ & R)|[N R]]; subst; [constructor|]. destruct s as [|c s]; [constructor|]. destruct (N c s eq_refl Logic.I).
Qed.

Lemma lit_picks : forall c, picks (lit [c]) (fun x => x = c).
Proof.
  intros c s r. split.
  - intro D. inversion D; subst; [left; exists c, rest; auto|].
    right. split; [|reflexivity]. intros x s1 E X. subst. match goal with H : forall rest, _ <> [c] ++ rest |- _ => apply (H s1); reflexivity end.
  - intros [(x & s1 & E & X & R)|[N R]]; subst.
    + apply (peg_lit_ok G [c] s1).
    + constructor. intros rest E. apply (N c rest E). reflexivity.
Qed.

End Classes.

Lemma in_class_app : forall cs rs cs' rs' c, in_class (cs ++ cs') (rs ++ rs') c <-> in_class cs rs c \/ in_class cs' rs' c.
Proof.
  intros cs rs cs' rs' c. unfold in_class. rewrite in_app_iff. split.
  - intros [[H|H]|(lo & hi & H & B)]; [tauto..|]. apply in_app_or in H. destruct H as [H|H]; [left|right]; right; exists lo, hi; auto.
  - intros [[H|(lo & hi & H & B)]|[H|(lo & hi & H & B)]]; [tauto| |tauto|]; right; exists lo, hi; (split; [apply in_or_app; auto|exact B]).
Qed.

Lemma in_chars : forall cs c, in_class cs [] c <-> In c cs.
Proof. intros cs c. unfold in_class. split; [intros [H|(lo & hi & [] & _)]; exact H|intro H; left; exact H]. Qed.

Lemma in_range : forall lo hi c, in_class [] [(lo, hi)] c <-> (lo <= c <= hi)%N.
Proof.
  intros lo hi c. unfold in_class. split.
  - intros [[]|(a & b & [E|[]] & B)]. injection E as E1 E2. subst. exact B.
  - intro B. right. exists lo, hi. split; [left; reflexivity|exact B].
Qed.

Lemma in_more : forall cs lo hi rs c, in_class cs ((lo, hi) :: rs) c <-> (lo <= c <= hi)%N \/ in_class cs rs c.
Proof.
  intros cs lo hi rs c. rewrite <- in_range. apply (in_class_app [] [(lo, hi)] cs rs c).
Qed.

Lemma ematch_forms : forall chars pairs, ematch_from_to chars pairs = ematch_from2 chars pairs /\ ematch_from2 chars pairs = ematch chars pairs.
Proof.
  intros chars pairs. split; [|reflexivity]. unfold ematch_from_to, ematch_from2. do 3 f_equal.
  assert (A : forall l v : list (char * char), fold_left (fun v p => v ++ [p]) l v = v ++ l).
  { induction l as [|p l IH]; intro v; cbn; [rewrite app_nil_r; reflexivity|]. rewrite IH, <- app_assoc. reflexivity. }
  exact (A pairs []).
Qed.
