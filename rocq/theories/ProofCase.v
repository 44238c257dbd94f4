(** Proofs: rules that ignore the difference between some chars. *)
From Verif Require Import Base ModelAst ModelParser ModelCost SpecPeg SpecPos SpecApi SpecSwap SpecCase.
From Verif Require Import ProofParser ProofEngine ProofApi ProofSwap ProofRun ProofRunDet.

Lemma ascii_letters_all : forall c, ascii_char c -> In c ascii_letters.
Proof.
  intros c H. unfold ascii_letters. apply in_map_iff. exists (N.to_nat c). unfold ascii_char in H. split; [apply N2Nat.id|]. apply in_seq. lia.
Qed.

Lemma in_class_b_ok : forall cs rs c, in_class_b cs rs c = true <-> in_class cs rs c.
Proof.
  intros cs rs c. unfold in_class_b, in_class. rewrite orb_true_iff, !existsb_exists. split.
  - intros [(x & H & E)|([lo hi] & H & E)]; [left; apply N.eqb_eq in E; subst; exact H|]. right. cbn in E. apply andb_prop in E. destruct E as [E1 E2].
    apply N.leb_le in E1, E2. exists lo, hi. auto.
  - intros [H|(lo & hi & H & E1 & E2)]; [left; exists c; split; [exact H|apply N.eqb_refl]|]. right. exists (lo, hi). split; [exact H|]. cbn.
    apply andb_true_intro. split; apply N.leb_le; assumption.
Qed.

Section Case.
Variables (f : char -> char) (G G' : str -> option expr).
Hypothesis FA : forall c, ascii_char c -> ascii_char (f c).
Hypothesis GG : forall n, G' n = option_map (ignoring f) (G n).

Lemma chars_yes : forall p c rest, ascii_char c -> p c = true -> peg G' (chars_with p) (c :: rest) (PMatch [Val [c]] rest).
Proof. intros p c rest A P. apply peg_class_ok. left. apply filter_In. split; [apply ascii_letters_all; exact A|exact P]. Qed.

Lemma chars_no : forall p s, (forall c rest, s = c :: rest -> p c = false) -> peg G' (chars_with p) s PFail.
Proof.
  intros p s H. apply peg_class_fail. intros c rest E [I|(lo & hi & I & _)]; [|exact I]. apply filter_In in I. destruct I as [_ I]. rewrite (H c rest E) in I. discriminate.
Qed.

Definition word (l : str) : expr := And (map (fun x => chars_with (fun c => N.eqb (f c) x)) l).

(** What a spelled-out literal does. *)
Inductive spelled (l : str) (s : str) : presult -> Prop :=
| sp_yes p rest : s = p ++ rest -> map f p = l -> spelled l s (PMatch (map (fun c => Val [c]) p) rest)
| sp_no : (forall p rest, s = p ++ rest -> map f p <> l) -> spelled l s PFail.

Lemma word_peg : forall l s, ascii s -> exists r, peg G' (word l) s r /\ spelled l s r.
Proof.
  induction l as [|x l IH]; intros s A.
  - exists (PMatch [] s). split; [constructor|]. exact (sp_yes [] s [] s eq_refl eq_refl).
  - destruct s as [|c s].
    + exists PFail. split; [apply peg_and_stop; [apply chars_no; discriminate|exact Logic.I]|]. constructor. intros p rest E H. destruct p; discriminate.
    + inversion A as [|? ? AC AS]; subst. destruct (N.eqb (f c) x) eqn:X.
      * destruct (IH s AS) as (r & D & H). apply N.eqb_eq in X. exists (prepend [Val [c]] r). split.
        { eapply peg_and_cons; [apply chars_yes; [exact AC|apply N.eqb_eq; exact X]|exact D]. }
        destruct H as [p rest E M|N]; cbn [prepend].
        { refine (sp_yes _ _ (c :: p) rest _ _); [rewrite E; reflexivity|cbn [map]; rewrite X, M; reflexivity]. }
        { constructor. intros [|c' p] rest E M; [discriminate|]. cbn in E, M. injection E as <- E. injection M as _ M. exact (N p rest E M). }
      * exists PFail. split; [apply peg_and_stop; [apply chars_no; intros ? ? [= <- _]; exact X|exact Logic.I]|]. constructor. intros [|c' p] rest E M; [discriminate|].
        cbn in E, M. injection E as <- E. injection M as M _. apply N.eqb_neq in X. contradiction.
Qed.

Inductive rel : presult -> presult -> Prop :=
| rel_m ts ts' rest : respelled f ts ts' -> ascii rest -> rel (PMatch ts' (map f rest)) (PMatch ts rest)
| rel_f : rel PFail PFail
| rel_a m rest : ascii rest -> rel (PAbort m (map f rest)) (PAbort m rest).

Lemma rel_prepend : forall ts ts' r r', respelled f ts ts' -> rel r r' -> rel (prepend ts' r) (prepend ts r').
Proof.
  intros ts ts' r r' T H. destruct H as [us us' rest U A| |m rest A]; cbn; [|constructor|constructor; exact A]. constructor; [|exact A].
  induction T; cbn; [exact U| | |].
  - rewrite <- app_assoc. constructor; assumption.
  - constructor; assumption.
  - constructor; assumption.
Qed.

Lemma rel_wrap : forall n r r', rel r r' -> rel (wrap n r) (wrap n r').
Proof. intros n r r' H. destruct H; cbn; constructor; try assumption. constructor; [assumption|constructor]. Qed.

Lemma rel_stops : forall r r', rel r r' -> (stops r <-> stops r').
Proof. intros r r' H. destruct H; cbn; tauto. Qed.
Lemma rel_fail : forall r r', rel r r' -> (r = PFail <-> r' = PFail).
Proof. intros r r' H. destruct H; split; congruence. Qed.

Lemma app_ascii : forall a b : str, ascii (a ++ b) -> ascii b.
Proof. intros a b H. apply Forall_app in H. apply H. Qed.

Lemma map_split : forall (s : str) a b, map f s = a ++ b -> exists p q, s = p ++ q /\ map f p = a /\ map f q = b.
Proof. intros s a b H. exact (map_eq_app f s a b H). Qed.

(** What an atom does. *)
Lemma atom_rel : forall a s, ascii s -> exists r r', peg G (Simple a) (map f s) r /\ peg G' (ignoring f (Simple a)) s r' /\ rel r r'.
Proof.
  intros a s A. destruct a as [l|cs rs|m| |].
  - destruct l as [|x l].
    + do 2 eexists. split; [exact (peg_lit_ok G [] (map f s))|]. split; [exact (peg_lit_ok G' [] s)|]. constructor; [|exact A]. constructor; [left; reflexivity|constructor].
    + destruct (word_peg (x :: l) s A) as (r' & D & H). destruct H as [p rest E M|N].
      * exists (PMatch [Val (x :: l)] (map f rest)), (PMatch (map (fun c => Val [c]) p) rest). split; [|split].
        { rewrite E, map_app, M. constructor. }
        { exact D. }
        constructor; [|exact (app_ascii p rest (eq_ind s ascii A _ E))]. rewrite <- M, <- (app_nil_r (map (fun c => Val [c]) p)). apply rs_leaf; [|constructor]. intros ->. discriminate.
      * exists PFail, PFail. split; [|split; [exact D|constructor]]. constructor. intros rest E. apply map_split in E. destruct E as (p & q & E & M & _). exact (N p q E M).
  - destruct s as [|c s].
    + exists PFail, PFail. split; [constructor; discriminate|]. split; [apply chars_no; discriminate|constructor].
    + inversion A as [|? ? AC AS]; subst. destruct (in_class_b cs rs (f c)) eqn:X.
      * exists (PMatch [Val [f c]] (map f s)), (PMatch [Val [c]] s). split; [constructor; apply in_class_b_ok; exact X|]. split; [apply chars_yes; assumption|].
        constructor; [|exact AS]. exact (rs_leaf f [c] [] [] ltac:(discriminate) (rs_nil f)).
      * exists PFail, PFail. split; [constructor; intros ? ? [= <- _] H; apply in_class_b_ok in H; congruence|]. split; [apply chars_no; intros ? ? [= <- _]; exact X|constructor].
  - do 2 eexists. split; [constructor|]. split; [constructor|constructor; exact A].
  - destruct s as [|c s]; [exists PFail, PFail; repeat split; constructor|]. inversion A as [|? ? AC AS]; subst. do 2 eexists. split; [constructor|]. split; [constructor|].
    constructor; [|exact AS]. exact (rs_leaf f [c] [] [] ltac:(discriminate) (rs_nil f)).
  - destruct s as [|c s]; [|exists PFail, PFail; repeat split; constructor]. do 2 eexists. split; [constructor|]. split; [constructor|].
    apply (rel_m [Val (s_ "EOF")] [Val (s_ "EOF")] []); [|constructor]. constructor; [right; reflexivity|constructor].
Qed.

(** From a text with all chars replaced to the text. *)
Lemma there : forall e z r, peg G e z r -> forall s, z = map f s -> ascii s -> exists r', peg G' (ignoring f e) s r' /\ rel r r'.
Proof.
  assert (AT : forall a s r, ascii s -> peg G (Simple a) (map f s) r -> exists r', peg G' (ignoring f (Simple a)) s r' /\ rel r r').
  { intros a s r A D. destruct (atom_rel a s A) as (r1 & r2 & P & P' & R). rewrite (peg_det _ _ _ _ D _ P). eauto. }
  intros e z r D. induction D; intros s' Z A.
  1-9: refine (AT _ s' _ A _); rewrite <- Z; econstructor; eassumption.
  - subst. exists (PMatch [] s'). split; [constructor|]. constructor; [constructor|exact A].
  - destruct (IHD1 s' Z A) as (r1 & P1 & R1). inversion R1 as [us us' rest U AR| |]; subst. destruct (IHD2 rest eq_refl AR) as (r2 & P2 & R2).
    exists (prepend us r2). split; [exact (peg_and_cons G' _ _ _ _ _ _ P1 P2)|apply rel_prepend; assumption].
  - destruct (IHD s' Z A) as (r1 & P1 & R1). exists r1. split; [|exact R1]. apply peg_and_stop; [exact P1|apply (rel_stops _ _ R1); assumption].
  - exists PFail. split; constructor.
  - destruct (IHD s' Z A) as (r1 & P1 & R1). exists r1. split; [|exact R1]. apply peg_or_first; [exact P1|]. intro X. apply (rel_fail _ _ R1) in X. contradiction.
  - destruct (IHD1 s' Z A) as (r1 & P1 & R1). inversion R1; subst. destruct (IHD2 s' eq_refl A) as (r2 & P2 & R2). exists r2. split; [|exact R2]. apply peg_or_next; assumption.
  - destruct (IHD s' Z A) as (r1 & P1 & R1). inversion R1; subst. exists PFail. split; [eapply peg_not_fail; exact P1|constructor].
  - destruct (IHD s' Z A) as (r1 & P1 & R1). subst. exists (PMatch [] s'). split; [eapply peg_not_ok; [exact P1|apply (rel_stops _ _ R1); assumption]|]. constructor; [constructor|exact A].
  - subst. exists (PMatch [] s'). split; [constructor|]. constructor; [constructor|exact A].
  - destruct (IHD1 s' Z A) as (r1 & P1 & R1). inversion R1 as [us us' rest U AR| |]; subst. destruct (IHD2 rest eq_refl AR) as (r2 & P2 & R2).
    exists (prepend us r2). split; [|apply rel_prepend; assumption]. cbn [ignoring]. eapply peg_rep_more; [assumption|exact P1|exact P2].
  - destruct (IHD s' Z A) as (r1 & P1 & R1). inversion R1; subst. exists (PMatch [] s'). split; [apply peg_rep_done; assumption|]. constructor; [constructor|exact A].
  - destruct (IHD s' Z A) as (r1 & P1 & R1). inversion R1; subst. exists PFail. split; [apply peg_rep_short; assumption|constructor].
  - destruct (IHD s' Z A) as (r1 & P1 & R1). inversion R1; subst. eexists. split; [apply peg_rep_abort; eassumption|constructor; assumption].
  - destruct (IHD s' Z A) as (r1 & P1 & R1). exists (wrap n r1). split; [|apply rel_wrap; exact R1]. apply (peg_rule G' n (ignoring f e)); [|exact P1]. rewrite GG, H. reflexivity.
  - subst. eexists. split; [apply peg_rule_missing; rewrite GG, H; reflexivity|]. constructor. exact A.
Qed.

(** And back. *)
Lemma back : forall e' s r', peg G' e' s r' -> forall e, e' = ignoring f e -> ascii s -> exists r, peg G e (map f s) r /\ rel r r'.
Proof.
  assert (AT : forall a s r', ascii s -> peg G' (ignoring f (Simple a)) s r' -> exists r, peg G (Simple a) (map f s) r /\ rel r r').
  { intros a s r' A D. destruct (atom_rel a s A) as (r & r2 & P & P' & R). rewrite (peg_det _ _ _ _ D _ P'). eauto. }
  intros e' s r' D. induction D; intros x E A;
    (destruct x as [a|xs|xs|x|x mn0 mx0|n0];
      [apply (AT a); [exact A|]; rewrite <- E; econstructor; eassumption|..]; cbn [ignoring] in E; try discriminate).
  - destruct xs; [|discriminate]. eexists. split; [constructor|]. constructor; [constructor|exact A].
  - destruct xs as [|x xs]; [discriminate|]. injection E as E1 E2. destruct (IHD1 x E1 A) as (r1 & P1 & R1). inversion R1 as [us us' rest U AR| |]; subst.
    destruct (IHD2 (And xs) eq_refl AR) as (r2 & P2 & R2). exists (prepend us' r2). split; [exact (peg_and_cons G _ _ _ _ _ _ P1 P2)|apply rel_prepend; assumption].
  - destruct xs as [|x xs]; [discriminate|]. injection E as E1 E2. destruct (IHD x E1 A) as (r1 & P1 & R1). exists r1. split; [|exact R1].
    apply peg_and_stop; [exact P1|apply (rel_stops _ _ R1); assumption].
  - destruct xs; [|discriminate]. exists PFail. split; constructor.
  - destruct xs as [|x xs]; [discriminate|]. injection E as E1 E2. destruct (IHD x E1 A) as (r1 & P1 & R1). exists r1. split; [|exact R1].
    apply peg_or_first; [exact P1|]. intro X. apply (rel_fail _ _ R1) in X. contradiction.
  - destruct xs as [|x xs]; [discriminate|]. injection E as E1 E2. destruct (IHD1 x E1 A) as (r1 & P1 & R1). inversion R1; subst.
    destruct (IHD2 (Or xs) eq_refl A) as (r2 & P2 & R2). exists r2. split; [|exact R2]. apply peg_or_next; assumption.
  - injection E as E. destruct (IHD x E A) as (r1 & P1 & R1). inversion R1; subst. exists PFail. split; [eapply peg_not_fail; exact P1|constructor].
  - injection E as E. destruct (IHD x E A) as (r1 & P1 & R1). eexists. split; [eapply peg_not_ok; [exact P1|apply (rel_stops _ _ R1); assumption]|]. constructor; [constructor|exact A].
  - injection E as E <- <-. eexists. split; [constructor|]. constructor; [constructor|exact A].
  - injection E as E <- <-. destruct (IHD1 x E A) as (r1 & P1 & R1). inversion R1 as [us us' rest U AR| |]; subst.
    destruct (IHD2 (Repeat x (pred mn) (option_map pred mx)) eq_refl AR) as (r2 & P2 & R2). exists (prepend us' r2). split; [|apply rel_prepend; assumption].
    eapply peg_rep_more; [assumption|exact P1|exact P2].
  - injection E as E <- <-. destruct (IHD x E A) as (r1 & P1 & R1). inversion R1; subst. eexists. split; [apply peg_rep_done; assumption|]. constructor; [constructor|exact A].
  - injection E as E <- <-. destruct (IHD x E A) as (r1 & P1 & R1). inversion R1; subst. exists PFail. split; [apply peg_rep_short; assumption|constructor].
  - injection E as E <- <-. destruct (IHD x E A) as (r1 & P1 & R1). inversion R1; subst. eexists. split; [apply peg_rep_abort; eassumption|constructor; assumption].
  - injection E as <-. rewrite GG in H. destruct (G n) as [e0|] eqn:N; [|discriminate]. injection H as H. destruct (IHD e0 (eq_sym H) A) as (r1 & P1 & R1).
    exists (wrap n r1). split; [|apply rel_wrap; exact R1]. exact (peg_rule G n e0 _ _ N P1).
  - injection E as <-. rewrite GG in H. destruct (G n) as [e0|] eqn:N; [discriminate|]. eexists. split; [apply peg_rule_missing; exact N|]. constructor. exact A.
Qed.

(** * Calls *)

Variable L : nat.
Definition lits (e : expr) : Prop := forall l, has_atom (Literal l) e -> length l <= L.
Hypothesis LG : forall n e, G n = Some e -> lits e.

Definition end_of (r : presult) : ending := match r with PMatch _ rest => OM rest | PFail => OF | PAbort _ _ => OA end.

Inductive rel_end : ending -> ending -> Prop :=
| re_m rest : ascii rest -> rel_end (OM (map f rest)) (OM rest)
| re_f : rel_end OF OF
| re_a : rel_end OA OA
| re_c : rel_end OC OC.

Lemma rel_end_of : forall r r', rel r r' -> rel_end (end_of r) (end_of r').
Proof. intros r r' H. destruct H; constructor; assumption. Qed.

Lemma simple_costs : forall a s r', peg G' (Simple a) s r' -> costs G' (Simple a) s (end_of r') 1.
Proof. intros a s r' D. destruct r'; cbn; [eapply c_match; exact D|apply c_fail; exact D|eapply c_abort; exact D]. Qed.

Lemma word_costs : forall l s r', peg G' (word l) s r' -> exists k, costs_and G' (map (fun x => chars_with (fun c => N.eqb (f c) x)) l) s (end_of r') k /\ k <= length l.
Proof.
  induction l as [|x l IH]; intros s r' D; unfold word in D; cbn [map] in D.
  - inversion D; subst. exists 0. split; [constructor|apply Nat.le_refl].
  - inversion D as [| | | | | | | | | |? ? ? ts s1 r D1 D2|? ? ? ? D1 ST| | | | | | | | | | | |]; subst.
    + destruct (IH _ _ D2) as (k & K & LE). exists (1 + k). split; [|cbn; lia]. replace (end_of (prepend ts r)) with (end_of r) by (destruct r; reflexivity).
      eapply ca_cons; [exact (simple_costs _ _ _ D1)|exact K].
    + exists 1. split; [|cbn; lia]. pose proof (simple_costs _ _ _ D1) as K. destruct r' as [| |m rest]; [destruct ST|apply ca_fail; exact K|apply ca_halt; [exact K|left; reflexivity]].
Qed.

Lemma atom_costs : forall a s, ascii s -> lits (Simple a) -> forall r, peg G (Simple a) (map f s) r ->
  exists o' k', costs G' (ignoring f (Simple a)) s o' k' /\ rel_end (end_of r) o' /\ k' <= (L + 1) * 1.
Proof.
  intros a s A LA r D. destruct (atom_rel a s A) as (r1 & r' & P & P' & R). rewrite (peg_det _ _ _ _ D _ P). clear r D. exists (end_of r').
  assert (ONE : forall b, ignoring f (Simple a) = Simple b -> exists k', costs G' (ignoring f (Simple a)) s (end_of r') k' /\ rel_end (end_of r1) (end_of r') /\ k' <= (L + 1) * 1).
  { intros b E. exists 1. split; [rewrite E in *; apply simple_costs; exact P'|]. split; [apply rel_end_of; exact R|lia]. }
  destruct a as [[|x l]|cs rs|m| |]; try (eapply ONE; reflexivity). destruct (word_costs (x :: l) s r' P') as (k & K & LE).
  exists (S k). split; [apply c_and; exact K|]. split; [apply rel_end_of; exact R|]. specialize (LA (x :: l) (ha_simple _)). lia.
Qed.

Lemma rel_halts : forall o o', rel_end o o' -> halts o -> halts o'.
Proof. intros o o' H [->| ->]; inversion H; subst; [left|right]; reflexivity. Qed.

Lemma lits_cons : forall e es, (lits (And (e :: es)) -> lits e /\ lits (And es)) /\ (lits (Or (e :: es)) -> lits e /\ lits (Or es)).
Proof.
  intros e es. split; intro H; (split; [intros l X; apply H; econstructor; [left; reflexivity|exact X]|intros l X; apply H; inversion X; subst; econstructor; [right; eassumption|assumption]]).
Qed.

Lemma costs_there :
  (forall e z o k, costs G e z o k -> forall s, z = map f s -> ascii s -> lits e ->
     exists o' k', costs G' (ignoring f e) s o' k' /\ rel_end o o' /\ k' <= (L + 1) * k) /\
  (forall es z o k, costs_and G es z o k -> forall s, z = map f s -> ascii s -> lits (And es) ->
     exists o' k', costs_and G' (map (ignoring f) es) s o' k' /\ rel_end o o' /\ k' <= (L + 1) * k) /\
  (forall es z o k, costs_or G es z o k -> forall s, z = map f s -> ascii s -> lits (Or es) ->
     exists o' k', costs_or G' (map (ignoring f) es) s o' k' /\ rel_end o o' /\ k' <= (L + 1) * k) /\
  (forall e mn mx z o k, costs_rep G e mn mx z o k -> forall s, z = map f s -> ascii s -> lits e ->
     exists o' k', costs_rep G' (ignoring f e) mn mx s o' k' /\ rel_end o o' /\ k' <= (L + 1) * k).
Proof.
  apply costs_mind.
  - intros e z s Z A LE. exists OC, 0. split; [constructor|]. split; [constructor|lia].
  - intros a z s Z A LE. exists OC, 0. split; [constructor|]. split; [constructor|lia].
  - intros a z ts rest D s Z A LE. subst. exact (atom_costs a s A LE _ D).
  - intros a z D s Z A LE. subst. exact (atom_costs a s A LE _ D).
  - intros a z m rest D s Z A LE. subst. exact (atom_costs a s A LE _ D).
  - intros es z o k _ IH s Z A LE. destruct (IH s Z A LE) as (o' & k' & K & R & B). exists o', (S k'). split; [apply c_and; exact K|]. split; [exact R|lia].
  - intros es z o k _ IH s Z A LE. destruct (IH s Z A LE) as (o' & k' & K & R & B). exists o', (S k'). split; [apply c_or; exact K|]. split; [exact R|lia].
  - intros e z rest k _ IH s Z A LE. destruct (IH s Z A (fun l X => LE l (ha_not _ _ X))) as (o' & k' & K & R & B). inversion R; subst.
    exists OF, (S k'). split; [eapply c_not_fail; exact K|]. split; [constructor|lia].
  - intros e z o k _ IH O s Z A LE. destruct (IH s Z A (fun l X => LE l (ha_not _ _ X))) as (o' & k' & K & R & B).
    exists (OM s), (S k'). split; [eapply c_not_ok; [exact K|]; destruct O as [->| ->]; inversion R; auto|]. split; [rewrite Z; constructor; exact A|lia].
  - intros e z o k _ IH s Z A LE. destruct (IH s Z A (fun l X => LE l (ha_not _ _ X))) as (o' & k' & K & R & B).
    exists OC, (S k'). split; [eapply c_not_cut; exact K|]. split; [constructor|lia].
  - intros e mn mx z o k _ IH s Z A LE. destruct (IH s Z A (fun l X => LE l (ha_rep _ _ _ _ X))) as (o' & k' & K & R & B).
    exists o', (S k'). split; [apply c_rep; exact K|]. split; [exact R|lia].
  - intros n e z o k N _ IH s Z A LE. destruct (IH s Z A (LG n e N)) as (o' & k' & K & R & B).
    exists o', (S k'). split; [apply (c_rule G' n (ignoring f e)); [rewrite GG, N; reflexivity|exact K]|]. split; [exact R|lia].
  - intros n z o N H s Z A LE. exists o, 1. split; [apply c_missing; [rewrite GG, N; reflexivity|exact H]|]. split; [destruct H as [->| ->]; constructor|lia].
  - intros z s Z A LE. exists (OM s), 0. split; [constructor|]. split; [rewrite Z; constructor; exact A|lia].
  - intros e es z s1 o k k' _ IH1 _ IH2 s Z A LE. apply lits_cons in LE. destruct LE as [LE1 LE2]. destruct (IH1 s Z A LE1) as (o1 & k1 & K1 & R1 & B1). inversion R1; subst.
    destruct (IH2 rest eq_refl ltac:(assumption) LE2) as (o2 & k2 & K2 & R2 & B2). exists o2, (k1 + k2). split; [eapply ca_cons; eassumption|]. split; [exact R2|lia].
  - intros e es z k _ IH1 s Z A LE. apply lits_cons in LE. destruct LE as [LE1 LE2]. destruct (IH1 s Z A LE1) as (o1 & k1 & K1 & R1 & B1). inversion R1; subst.
    exists OF, k1. split; [apply ca_fail; exact K1|]. split; [constructor|exact B1].
  - intros e es z o k _ IH1 H s Z A LE. apply lits_cons in LE. destruct LE as [LE1 LE2]. destruct (IH1 s Z A LE1) as (o1 & k1 & K1 & R1 & B1).
    exists o1, k1. split; [apply ca_halt; [exact K1|exact (rel_halts _ _ R1 H)]|]. split; [exact R1|exact B1].
  - intros z s Z A LE. exists OF, 0. split; [constructor|]. split; [constructor|lia].
  - intros z s Z A LE. exists OC, 0. split; [constructor|]. split; [constructor|lia].
  - intros e es z s1 k _ IH1 s Z A LE. apply lits_cons in LE. destruct LE as [LE1 LE2]. destruct (IH1 s Z A LE1) as (o1 & k1 & K1 & R1 & B1). inversion R1; subst.
    exists (OM rest), k1. split; [apply co_match; exact K1|]. split; [exact R1|exact B1].
  - intros e es z o k _ IH1 H s Z A LE. apply lits_cons in LE. destruct LE as [LE1 LE2]. destruct (IH1 s Z A LE1) as (o1 & k1 & K1 & R1 & B1).
    exists o1, k1. split; [apply co_halt; [exact K1|exact (rel_halts _ _ R1 H)]|]. split; [exact R1|exact B1].
  - intros e es z o k k' _ IH1 _ IH2 s Z A LE. apply lits_cons in LE. destruct LE as [LE1 LE2]. destruct (IH1 s Z A LE1) as (o1 & k1 & K1 & R1 & B1). inversion R1; subst.
    destruct (IH2 s eq_refl A LE2) as (o2 & k2 & K2 & R2 & B2). exists o2, (k1 + k2). split; [eapply co_next; eassumption|]. split; [exact R2|lia].
  - intros e mn mx z s Z A LE. exists OC, 0. split; [constructor|]. split; [constructor|lia].
  - intros e mn z s1 k _ IH1 s Z A LE. destruct (IH1 s Z A LE) as (o1 & k1 & K1 & R1 & B1). inversion R1; subst.
    exists (OM rest), k1. split; [apply cr_last; exact K1|]. split; [exact R1|exact B1].
  - intros e mn mx z s1 o k k' M _ IH1 _ IH2 s Z A LE. destruct (IH1 s Z A LE) as (o1 & k1 & K1 & R1 & B1). inversion R1; subst.
    destruct (IH2 rest eq_refl ltac:(assumption) LE) as (o2 & k2 & K2 & R2 & B2). exists o2, (k1 + k2). split; [eapply cr_more; eassumption|]. split; [exact R2|lia].
  - intros e mx z k _ IH1 s Z A LE. destruct (IH1 s Z A LE) as (o1 & k1 & K1 & R1 & B1). inversion R1; subst.
    exists (OM s), k1. split; [apply cr_done; exact K1|]. split; [constructor; exact A|exact B1].
  - intros e mn mx z k P _ IH1 s Z A LE. destruct (IH1 s Z A LE) as (o1 & k1 & K1 & R1 & B1). inversion R1; subst.
    exists OF, k1. split; [apply cr_short; assumption|]. split; [constructor|exact B1].
  - intros e mn mx z o k _ IH1 H s Z A LE. destruct (IH1 s Z A LE) as (o1 & k1 & K1 & R1 & B1).
    exists o1, k1. split; [apply cr_halt; [exact K1|exact (rel_halts _ _ R1 H)]|]. split; [exact R1|exact B1].
Qed.

End Case.

(** * The API *)

Section Api.
Variables (f : char -> char) (rs : rules).
Hypothesis FA : forall c, ascii_char c -> ascii_char (f c).
Hypothesis SR : sane_rules rs.
Notation rs' := (ignoring_rules f rs).

Lemma get_ignoring : forall n, rules_get rs' n = option_map (ignoring f) (rules_get rs n).
Proof.
  intro n. unfold ignoring_rules. clear SR. induction rs as [|[m e] r IH]; [reflexivity|]. cbn [map rules_get fst snd]. destruct (str_eqb m n); [reflexivity|exact IH].
Qed.

Lemma ignoring_sane : forall e, sane e -> sane (ignoring f e).
Proof.
  fix IH 1. intros [a|es|es|e|e mn mx|n] H.
  - destruct a as [[|x l]| | | |]; cbn [ignoring]; try exact Logic.I. cbn [map sane fold_right]. split; [exact Logic.I|]. clear. induction l; cbn; auto.
  - cbn [ignoring sane] in *. revert es H. fix IHs 1. intros [|e es] H; cbn in *; [exact Logic.I|]. destruct H as [H1 H2]. split; [apply IH; exact H1|apply IHs; exact H2].
  - cbn [ignoring sane] in *. revert es H. fix IHs 1. intros [|e es] H; cbn in *; [exact Logic.I|]. destruct H as [H1 H2]. split; [apply IH; exact H1|apply IHs; exact H2].
  - exact (IH e H).
  - destruct H as [H1 H2]. split; [exact (IH e H1)|exact H2].
  - exact Logic.I.
Qed.

Lemma sane_ignoring : sane_rules rs'.
Proof. intros n e E. rewrite get_ignoring in E. destruct (rules_get rs n) as [x|] eqn:X; [|discriminate]. injection E as <-. apply ignoring_sane. exact (SR n x X). Qed.

Lemma ascii_map : forall s, ascii s -> ascii (map f s).
Proof. intros s A. induction A; cbn; constructor; auto. Qed.

Lemma main_there : forall s r, ascii s -> peg_main rs (map f s) r -> exists r', peg_main rs' s r' /\ rel f r r'.
Proof. intros s r A D. exact (there f (grammar_of rs) (grammar_of rs') get_ignoring _ _ _ D s eq_refl A). Qed.
Lemma main_back : forall s r', ascii s -> peg_main rs' s r' -> exists r, peg_main rs (map f s) r /\ rel f r r'.
Proof. intros s r' A D. exact (back f (grammar_of rs) (grammar_of rs') get_ignoring _ _ _ D (RuleName main) eq_refl A). Qed.

Lemma respelled_one : forall n us' ts, respelled f ts [Rule n us'] -> exists us, ts = [Rule n us] /\ respelled f us us'.
Proof. intros n us' ts H. inversion H as [| | |? us ? ts0 ? U T]; subst. inversion T; subst. eauto. Qed.
Lemma respelled_from : forall n us ts, respelled f [Rule n us] ts -> exists us', ts = [Rule n us'] /\ respelled f us us'.
Proof.
  intros n us ts H. remember [Rule n us] as z eqn:Z. destruct H as [|l ? ? NE T|? ? ? ? T|m us0 us' ? ? U T]; try discriminate.
  - destruct l; [contradiction|discriminate].
  - injection Z as -> -> ->. inversion T as [|l ? ? NE T' E| |]; subst; [eauto|]. destruct l; [contradiction|discriminate].
Qed.

Lemma accepted_there : forall s ast d d', ascii s -> (exists fuel, parse_with_debug fuel (map f s) rs d = Ok ast) ->
  exists fuel ast', parse_with_debug fuel s rs' d' = Ok ast' /\ respelled f [ast'] [ast].
Proof.
  intros s ast d d' A H. apply (parse_accepts_iff _ rs d SR (ascii_map s A)) in H. pose proof H as H0. apply peg_main_shape in H0. destruct H0 as (e & kids & _ & E & _). injection E as ->.
  destruct (main_there s _ A H) as (r' & D & R). inversion R as [ts ? rest T AR E1 E2| |]; subst. destruct rest; [|discriminate].
  destruct (respelled_one _ _ _ T) as (us & -> & U). destruct (proj2 (parse_accepts_iff s rs' d' sane_ignoring A _) D) as [fuel F]. exists fuel, (Rule main us). auto.
Qed.

Lemma accepted_back : forall s ast' d d', ascii s -> (exists fuel, parse_with_debug fuel s rs' d' = Ok ast') ->
  exists fuel ast, parse_with_debug fuel (map f s) rs d = Ok ast /\ respelled f [ast'] [ast].
Proof.
  intros s ast' d d' A H. apply (parse_accepts_iff _ rs' d' sane_ignoring A) in H. pose proof H as H0. apply peg_main_shape in H0. destruct H0 as (e & kids & _ & E & _). injection E as ->.
  destruct (main_back s _ A H) as (r & D & R). inversion R as [ts ts' rest T AR E1 E2| |]; subst. cbn [map] in D.
  destruct (respelled_from _ _ _ T) as (us' & -> & U). destruct (proj2 (parse_accepts_iff _ rs d SR (ascii_map s A) _) D) as [fuel F]. exists fuel, (Rule main us'). auto.
Qed.

Lemma finished : forall s d d', ascii s -> (exists fuel, parse_with_debug fuel (map f s) rs d <> Fuel) <-> (exists fuel, parse_with_debug fuel s rs' d' <> Fuel).
Proof.
  intros s d d' A. rewrite (parse_terminates_iff _ rs d SR (ascii_map s A)), (parse_terminates_iff _ rs' d' sane_ignoring A). split; intros [r D].
  - destruct (main_there s r A D) as (r' & D' & _). eauto.
  - destruct (main_back s r A D) as (r' & D' & _). eauto.
Qed.

Lemma aborted : forall s m k, ascii s -> aborts rs (map f s) m k <-> aborts rs' s m k.
Proof.
  intros s m k A. unfold aborts. rewrite (parse_abort_iff _ rs m k SR (ascii_map s A)), (parse_abort_iff s rs' m k sane_ignoring A). split; intros (rest & D & K).
  - destruct (main_there s _ A D) as (r' & D' & R). inversion R; subst. eexists. split; [exact D'|]. rewrite !map_length in K. exact K.
  - destruct (main_back s _ A D) as (r & D' & R). inversion R; subst. eexists. split; [exact D'|]. rewrite !map_length. exact K.
Qed.

Lemma calls_there : forall L, (forall n e l, rules_get rs n = Some e -> has_atom (Literal l) e -> length l <= L) ->
  forall s d d' fuel fuel', ascii s -> parse_with_debug fuel (map f s) rs d <> Fuel -> parse_with_debug fuel' s rs' d' <> Fuel ->
  parse_calls fuel' s rs' d' <= (L + 1) * parse_calls fuel (map f s) rs d.
Proof.
  intros L LL s d d' fuel fuel' A NF NF'.
  pose proof (expr_counts rs SR (S fuel) (status_init_debug (map f s) d) (RuleName main) Logic.I (inv_init _ d)) as R.
  change (tally Nat.add rs (S fuel) (status_init_debug (map f s) d) (RuleName main)) with (S (parse_calls fuel (map f s) rs d)) in R.
  change (it_parsing (status_init_debug (map f s) d)) with (map f s) in R.
  set (o := ends (parse_expr rs (S fuel) (status_init_debug (map f s) d) (RuleName main))) in R.
  assert (N : o <> OC).
  { unfold o. rewrite expression_parse_expr. pose proof (parse_no_panic fuel (map f s) rs d (ascii_map s A)) as NP. rewrite parse_unfold in NF, NP.
    destruct (expression_parse rs fuel (status_init_debug (map f s) d)) as [[st nd]|er| |]; cbn [bind ends] in *; [discriminate| |congruence|congruence].
    destruct (is_critical (e_priority er)); discriminate. }
  clearbody o. assert (LG : forall n e, grammar_of rs n = Some e -> lits L e) by (intros n e E l X; exact (LL n e l E X)).
  remember (S (parse_calls fuel (map f s) rs d)) as k eqn:K. remember (RuleName main) as y eqn:Y. remember (map f s) as z eqn:Z.
  destruct R; try discriminate.
  - injection Y as ->. injection K as ->.
    destruct (proj1 (costs_there f (grammar_of rs) (grammar_of rs') get_ignoring L LG) _ _ _ _ R s Z A (LG _ _ H)) as (o' & k' & K' & RE & B).
    assert (C : costs (grammar_of rs') (RuleName main) s o' (S k')) by (apply (c_rule _ main (ignoring f e)); [unfold grammar_of in *; rewrite get_ignoring, H; reflexivity|exact K']).
    assert (N' : o' <> OC) by (intros ->; inversion RE; subst; contradiction).
    pose proof (parse_calls_run rs' s fuel' d' o' (S k') sane_ignoring A NF' C N'). lia.
  - injection Y as ->. injection K as K. assert (C : costs (grammar_of rs') (RuleName main) s OA 1).
    { apply c_missing; [unfold grammar_of in *; rewrite get_ignoring, H; reflexivity|left; reflexivity]. }
    pose proof (parse_calls_run rs' s fuel' d' OA 1 sane_ignoring A NF' C ltac:(discriminate)). lia.
Qed.

End Api.

(** * Examples *)

Fixpoint lits_b (L : nat) (e : expr) : bool :=
  match e with
  | Simple (Literal l) => Nat.leb (length l) L
  | Simple _ | RuleName _ => true
  | And es | Or es => forallb (lits_b L) es
  | Not e | Repeat e _ _ => lits_b L e
  end.

Lemma lits_all : forall rs L, forallb (fun p => lits_b L (snd p)) rs = true -> forall n e l, rules_get rs n = Some e -> has_atom (Literal l) e -> length l <= L.
Proof.
  intros rs L F n e l E H. assert (B : lits_b L e = true).
  { clear H. induction rs as [|[m x] rs IH]; [discriminate|]. cbn in F. apply andb_prop in F. destruct F as [F1 F2].
    cbn [rules_get] in E. destruct (str_eqb m n); [injection E as <-; exact F1|exact (IH F2 E)]. }
  clear E F. induction H as [|e es I H IH|e es I H IH|e H IH|e mn mx H IH]; cbn [lits_b] in B; try (apply IH; first [exact B|exact (proj1 (forallb_forall _ _) B e I)]).
  apply Nat.leb_le. exact B.
Qed.
