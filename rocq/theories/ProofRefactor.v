(** Refactoring rules. *)
From Verif Require Import Base ModelAst ModelParser SpecPeg SpecPos SpecApi SpecWf SpecRefactor.
From Verif Require Import ProofParser ProofEngine ProofApi ProofWf.

Section Congruence.
Variable G : str -> option expr.

Lemma equiv_refl : forall e, equiv G e e.
Proof. intros e s r. tauto. Qed.

Lemma equiv_sym : forall e e', equiv G e e' -> equiv G e' e.
Proof. intros e e' H s r. symmetry. apply H. Qed.

Lemma equiv_trans : forall a b c, equiv G a b -> equiv G b c -> equiv G a c.
Proof. intros a b c H1 H2 s r. rewrite (H1 s r). apply H2. Qed.

Lemma and_half : forall es es', Forall2 (equiv G) es es' -> forall s r, peg G (And es) s r -> peg G (And es') s r.
Proof.
  intros es es' F. induction F as [|e e' es es' E F IH]; intros s r H; [exact H|].
  inversion H; subst.
  - eapply peg_and_cons; [apply E; eassumption|]. apply IH. assumption.
  - apply peg_and_stop; [apply E; assumption|assumption].
Qed.

Lemma or_half : forall es es', Forall2 (equiv G) es es' -> forall s r, peg G (Or es) s r -> peg G (Or es') s r.
Proof.
  intros es es' F. induction F as [|e e' es es' E F IH]; intros s r H; [exact H|].
  inversion H; subst.
  - apply peg_or_first; [apply E; assumption|assumption].
  - apply peg_or_next; [apply E; assumption|]. apply IH. assumption.
Qed.

Lemma not_half : forall e e', equiv G e e' -> forall s r, peg G (Not e) s r -> peg G (Not e') s r.
Proof.
  intros e e' E s r H. inversion H; subst.
  - eapply peg_not_fail. apply E. eassumption.
  - eapply peg_not_ok; [apply E; eassumption|assumption].
Qed.

Lemma rep_half : forall e e', equiv G e e' -> forall x s r, peg G x s r -> forall mn mx, x = Repeat e mn mx -> peg G (Repeat e' mn mx) s r.
Proof.
  intros e e' E x s r H. induction H; intros mn0 mx0 Q; try discriminate Q; injection Q; intros; subst.
  - apply peg_rep_full.
  - eapply peg_rep_more; [assumption|apply E; eassumption|]. apply IHpeg2. reflexivity.
  - apply peg_rep_done; [assumption|]. apply E. assumption.
  - apply peg_rep_short; [assumption|assumption|]. apply E. assumption.
  - apply peg_rep_abort; [assumption|]. apply E. assumption.
Qed.

Lemma forall2_sym : forall es es', Forall2 (equiv G) es es' -> Forall2 (equiv G) es' es.
Proof. intros es es' H. induction H; constructor; [apply equiv_sym; assumption|assumption]. Qed.

Lemma equiv_and : forall es es', Forall2 (equiv G) es es' -> equiv G (And es) (And es').
Proof. intros es es' H s r. split; apply and_half; [exact H|apply forall2_sym; exact H]. Qed.
Lemma equiv_or : forall es es', Forall2 (equiv G) es es' -> equiv G (Or es) (Or es').
Proof. intros es es' H s r. split; apply or_half; [exact H|apply forall2_sym; exact H]. Qed.
Lemma equiv_not : forall e e', equiv G e e' -> equiv G (Not e) (Not e').
Proof. intros e e' H s r. split; apply not_half; [exact H|apply equiv_sym; exact H]. Qed.
Lemma equiv_rep : forall e e' mn mx, equiv G e e' -> equiv G (Repeat e mn mx) (Repeat e' mn mx).
Proof. intros e e' mn mx H s r. split; intro D; eapply rep_half; try exact D; try reflexivity; [exact H|apply equiv_sym; exact H]. Qed.

Lemma replaced_equiv : forall e e', replaced (equiv G) e e' -> equiv G e e'.
Proof.
  assert (K : forall e e', replaced (equiv G) e e' -> equiv G e e').
  { fix IH 3. intros e e' H. destruct H as [e e' H|e|es es' H|es es' H|e e' H|e e' mn mx H].
    - exact H.
    - apply equiv_refl.
    - apply equiv_and. induction H as [|x x' l l' X L IHL]; constructor; [apply IH; exact X|exact IHL].
    - apply equiv_or. induction H as [|x x' l l' X L IHL]; constructor; [apply IH; exact X|exact IHL].
    - apply equiv_not. apply IH. exact H.
    - apply equiv_rep. apply IH. exact H. }
  exact K.
Qed.

Lemma refactored_sound : forall G', refactored G G' -> forall e s r, peg G' e s r -> peg G e s r.
Proof.
  intros G' R e s r H. induction H; try (econstructor; eassumption).
  - specialize (R n). rewrite H in R. destruct (G n) as [e0|] eqn:E; [|contradiction].
    eapply peg_rule; [exact E|]. apply (replaced_equiv _ _ R). exact IHpeg.
  - specialize (R n). rewrite H in R. destruct (G n) as [e0|] eqn:E; [contradiction|]. apply peg_rule_missing. exact E.
Qed.

(** Useful equivalences. *)

Lemma and_prepend_inv : forall e es s r, peg G (And (e :: es)) s r ->
  (exists ts s1 r1, peg G e s (PMatch ts s1) /\ peg G (And es) s1 r1 /\ r = prepend ts r1) \/ (peg G e s r /\ stops r).
Proof. intros e es s r H. inversion H; subst; [left|right; auto]. eauto 7. Qed.

Lemma factor_left : forall x a b, equiv G (Or [And (x :: a); And (x :: b)]) (And [x; Or [And a; And b]]).
Proof.
  assert (PR : forall ts r, prepend ts r = PFail -> r = PFail) by (intros ts [us rest| |m rest]; cbn; congruence).
  assert (PS : forall ts r, stops r -> prepend ts r = r) by (intros ts [us rest| |m rest]; cbn; tauto).
  assert (LAST : forall e s r, peg G e s r -> peg G (And [e]) s r).
  { intros e s r H. destruct r as [us rest| |m rest].
    - replace (PMatch us rest) with (prepend us (PMatch [] rest)) by (cbn; rewrite app_nil_r; reflexivity).
      eapply peg_and_cons; [exact H|constructor].
    - apply peg_and_stop; [exact H|exact I].
    - apply peg_and_stop; [exact H|exact I]. }
  assert (LASTI : forall e s r, peg G (And [e]) s r -> peg G e s r).
  { intros e s r H. apply and_prepend_inv in H. destruct H as [(ts & s1 & r1 & D & N & ->)|[D S]]; [|exact D].
    inversion N; subst. cbn. rewrite app_nil_r. exact D. }
  intros x a b s r. split; intro H.
  - inversion H as [| | | | | | | | | | | | |e es s0 r0 D NF|e es s0 r0 DF D| | | | | | | | |]; subst.
    + apply and_prepend_inv in D. destruct D as [(ts & s1 & r1 & D & N & ->)|[D S]].
      * eapply peg_and_cons; [exact D|]. apply LAST. apply peg_or_first; [exact N|]. intros ->. apply NF. reflexivity.
      * apply peg_and_stop; assumption.
    + apply and_prepend_inv in DF. destruct DF as [(ts & s1 & r1 & D1 & N & E)|[D1 S]].
      * symmetry in E. apply PR in E. subst r1.
        assert (D2 : peg G (And (x :: b)) s r) by (inversion D as [| | | | | | | | | | | | |? ? ? ? D2 NF2|? ? ? ? DF2 D2| | | | | | | | |]; subst; [exact D2|inversion D2; subst; exact DF2]).
        apply and_prepend_inv in D2. destruct D2 as [(ts2 & s2 & r2 & D3 & N2 & ->)|[D3 S]].
        -- pose proof (peg_det _ _ _ _ D1 _ D3) as Q. injection Q as <- <-. eapply peg_and_cons; [exact D1|]. apply LAST.
           apply peg_or_next; [exact N|]. destruct r2 as [us rest| |m rest].
           ++ apply peg_or_first; [exact N2|discriminate].
           ++ apply peg_or_next; [exact N2|constructor].
           ++ apply peg_or_first; [exact N2|discriminate].
        -- pose proof (peg_det _ _ _ _ D1 _ D3) as Q. subst r. contradiction.
      * assert (D2 : peg G (And (x :: b)) s r) by (inversion D as [| | | | | | | | | | | | |? ? ? ? D2 NF2|? ? ? ? DF2 D2| | | | | | | | |]; subst; [exact D2|inversion D2; subst; exact DF2]).
        apply and_prepend_inv in D2. destruct D2 as [(ts2 & s2 & r2 & D3 & N2 & ->)|[D3 S2]].
        -- pose proof (peg_det _ _ _ _ D1 _ D3) as Q. discriminate.
        -- apply peg_and_stop; assumption.
  - apply and_prepend_inv in H. destruct H as [(ts & s1 & r1 & D & N & ->)|[D S]].
    + apply LASTI in N. inversion N as [| | | | | | | | | | | | |e es s0 r0 D2 NF|e es s0 r0 DF D2| | | | | | | | |]; subst.
      * apply peg_or_first; [eapply peg_and_cons; eassumption|]. intro Q. apply PR in Q. contradiction.
      * apply peg_or_next; [change PFail with (prepend ts PFail); eapply peg_and_cons; eassumption|].
        inversion D2 as [| | | | | | | | | | | | |? ? ? ? D3 NF2|? ? ? ? DF2 D3| | | | | | | | |]; subst.
        -- apply peg_or_first; [eapply peg_and_cons; eassumption|]. intro Q. apply PR in Q. contradiction.
        -- inversion D3; subst. apply peg_or_next; [change PFail with (prepend ts PFail); eapply peg_and_cons; eassumption|]. constructor.
    + destruct r as [us rest| |m rest]; [contradiction| |].
      * apply peg_or_next; [apply peg_and_stop; assumption|]. apply peg_or_next; [apply peg_and_stop; assumption|]. constructor.
      * apply peg_or_first; [apply peg_and_stop; assumption|discriminate].
Qed.

(** A repeated alternative is never of use. *)
Lemma drop_repeated : forall es1 e es2 es3, equiv G (Or (es1 ++ e :: es2 ++ e :: es3)) (Or (es1 ++ e :: es2 ++ es3)).
Proof.
  intros es1 e es2 es3 s r.
  assert (F : peg G e s PFail -> forall l, peg G (Or (l ++ e :: es3)) s r <-> peg G (Or (l ++ es3)) s r).
  { intros E l. induction l as [|x l IH]; cbn [app].
    - split; intro H; [|apply peg_or_next; assumption].
      inversion H as [| | | | | | | | | | | | |? ? ? ? D NF|? ? ? ? DF D| | | | | | | | |]; subst; [|exact D].
      exfalso. apply NF. exact (peg_det _ _ _ _ D _ E).
    - split; intro H; (inversion H as [| | | | | | | | | | | | |? ? ? ? D NF|? ? ? ? DF D| | | | | | | | |]; subst;
        [apply peg_or_first; assumption|apply peg_or_next; [exact DF|apply IH; exact D]]). }
  induction es1 as [|x es1 IH]; cbn [app].
  - split; intro H; (inversion H as [| | | | | | | | | | | | |? ? ? ? D NF|? ? ? ? DF D| | | | | | | | |]; subst;
      [apply peg_or_first; assumption|apply peg_or_next; [exact DF|apply F; assumption]]).
  - split; intro H; (inversion H as [| | | | | | | | | | | | |? ? ? ? D NF|? ? ? ? DF D| | | | | | | | |]; subst;
      [apply peg_or_first; assumption|apply peg_or_next; [exact DF|apply IH; exact D]]).
Qed.

(** Nothing after an alternative that never fails is tried. *)
Lemma drop_shadowed : forall es1 e es2, (forall s, ~ peg G e s PFail) -> equiv G (Or (es1 ++ e :: es2)) (Or (es1 ++ [e])).
Proof.
  intros es1 e es2 N s r. induction es1 as [|x es1 IH]; cbn [app].
  - split; intro H; (inversion H as [| | | | | | | | | | | | |? ? ? ? D NF|? ? ? ? DF D| | | | | | | | |]; subst;
      [apply peg_or_first; assumption|exfalso; exact (N _ DF)]).
  - split; intro H; (inversion H as [| | | | | | | | | | | | |? ? ? ? D NF|? ? ? ? DF D| | | | | | | | |]; subst;
      [apply peg_or_first; assumption|apply peg_or_next; [exact DF|apply IH; exact D]]).
Qed.

(** Alternatives that never both succeed. *)
Lemma swap_apart : forall es1 a b es2,
  (forall s r, peg G a s r -> r <> PFail -> peg G b s PFail) -> (forall s r, peg G b s r -> r <> PFail -> peg G a s PFail) ->
  equiv G (Or (es1 ++ a :: b :: es2)) (Or (es1 ++ b :: a :: es2)).
Proof.
  intros es1 a b es2 AB BA s r. induction es1 as [|x es1 IH]; cbn [app].
  - split; intro H.
    + inversion H as [| | | | | | | | | | | | |? ? ? ? D NF|? ? ? ? DF D| | | | | | | | |]; subst.
      * apply peg_or_next; [exact (AB s r D NF)|apply peg_or_first; assumption].
      * inversion D as [| | | | | | | | | | | | |? ? ? ? D' NF|? ? ? ? DF' D'| | | | | | | | |]; subst.
        -- apply peg_or_first; assumption.
        -- apply peg_or_next; [assumption|apply peg_or_next; assumption].
    + inversion H as [| | | | | | | | | | | | |? ? ? ? D NF|? ? ? ? DF D| | | | | | | | |]; subst.
      * apply peg_or_next; [exact (BA s r D NF)|apply peg_or_first; assumption].
      * inversion D as [| | | | | | | | | | | | |? ? ? ? D' NF|? ? ? ? DF' D'| | | | | | | | |]; subst.
        -- apply peg_or_first; assumption.
        -- apply peg_or_next; [assumption|apply peg_or_next; assumption].
  - split; intro H; (inversion H as [| | | | | | | | | | | | |? ? ? ? D NF|? ? ? ? DF D| | | | | | | | |]; subst;
      [apply peg_or_first; assumption|apply peg_or_next; [exact DF|apply IH; exact D]]).
Qed.

Lemma literals_apart : forall c d u v es es' s r, c <> d -> peg G (And (lit (c :: u) :: es)) s r -> r <> PFail -> peg G (And (lit (d :: v) :: es')) s PFail.
Proof.
  intros c d u v es es' s r N H NF. apply peg_and_stop; [|exact I]. apply peg_lit_fail. intros rest ->.
  apply and_prepend_inv in H. destruct H as [(ts & s1 & r1 & D & _ & _)|[D S]]; inversion D; subst; try contradiction.
Qed.

(** The first turn of a repetition. *)
Lemma and_two : forall a b s r, peg G (And [a; b]) s r <->
  (exists ts s1 r', peg G a s (PMatch ts s1) /\ peg G b s1 r' /\ r = prepend ts r') \/ (peg G a s r /\ stops r).
Proof.
  assert (LAST : forall e s r, peg G e s r <-> peg G (And [e]) s r).
  { intros e s r. split; intro H.
    - destruct r as [us rest| |m rest].
      + replace (PMatch us rest) with (prepend us (PMatch [] rest)) by (cbn; rewrite app_nil_r; reflexivity).
        eapply peg_and_cons; [exact H|constructor].
      + apply peg_and_stop; [exact H|exact I].
      + apply peg_and_stop; [exact H|exact I].
    - apply and_prepend_inv in H. destruct H as [(ts & s1 & r1 & D & N & ->)|[D S]]; [|exact D].
      inversion N; subst. cbn. rewrite app_nil_r. exact D. }
  intros a b s r. split; intro H.
  - apply and_prepend_inv in H. destruct H as [(ts & s1 & r1 & D & N & ->)|[D S]]; [left|right; auto].
    exists ts, s1, r1. split; [exact D|]. split; [exact (proj2 (LAST _ _ _) N)|reflexivity].
  - destruct H as [(ts & s1 & r1 & D & N & ->)|[D S]]; [|apply peg_and_stop; assumption].
    eapply peg_and_cons; [exact D|]. exact (proj1 (LAST _ _ _) N).
Qed.

Lemma unroll_needed : forall e mn mx, 0 < mn -> mx <> Some 0 ->
  equiv G (Repeat e mn mx) (And [e; Repeat e (pred mn) (option_map pred mx)]).
Proof.
  intros e mn mx P M s r. split; intro H.
  - apply and_two. inversion H; subst; try lia.
    + left. do 3 eexists. repeat split; eassumption.
    + right. split; [assumption|exact I].
    + right. split; [assumption|exact I].
  - apply and_two in H. destruct H as [(ts & s1 & r' & D & N & ->)|[D S]].
    + eapply peg_rep_more; eassumption.
    + destruct r as [us rest| |m rest]; [contradiction| |].
      * apply peg_rep_short; assumption.
      * apply peg_rep_abort; assumption.
Qed.

Lemma unroll_optional : forall e mx, mx <> Some 0 ->
  equiv G (Repeat e 0 mx) (Or [And [e; Repeat e 0 (option_map pred mx)]; And []]).
Proof.
  intros e mx M.
  assert (NF : forall m s, ~ peg G (Repeat e 0 m) s PFail).
  { intros m s0 H. remember (Repeat e 0 m) as x eqn:X. remember PFail as y eqn:Y. revert m X Y.
    induction H; intros m0 X Y; try discriminate; injection X as -> -> ->; try lia.
    destruct r; try discriminate. eapply IHpeg2; reflexivity. }
  intros s r. split; intro H.
  - inversion H; subst; try lia; try congruence.
    + apply peg_or_first; [apply and_two; left; do 3 eexists; repeat split; eassumption|].
      intro Q. destruct r0; try discriminate. eapply NF; eassumption.
    + apply peg_or_next; [apply and_two; right; split; [assumption|exact I]|]. apply peg_or_first; [constructor|discriminate].
    + apply peg_or_first; [apply and_two; right; split; [assumption|exact I]|discriminate].
  - inversion H as [| | | | | | | | | | | | |? ? ? ? D N|? ? ? ? DF D| | | | | | | | |]; subst.
    + apply and_two in D. destruct D as [(ts & s1 & r' & D & R & ->)|[D S]].
      * eapply (peg_rep_more _ _ 0); eassumption.
      * destruct r as [us rest| |m rest]; [contradiction|congruence|]. apply peg_rep_abort; assumption.
    + apply and_two in DF. inversion D as [| | | | | | | | | | | | |? ? ? ? D' N|? ? ? ? DF' D'| | | | | | | | |]; subst.
      * inversion D'; subst. destruct DF as [(ts & s1 & r' & E & R & Q)|[E S]].
        -- destruct r'; try discriminate. exfalso. eapply NF; eassumption.
        -- apply peg_rep_done; assumption.
      * inversion DF'.
Qed.

End Congruence.

(* ------------------------------------------------------------------------------------------- *)
(** * parse *)

Lemma refactor_ok : forall rs rs' s fuel t, sane_rules rs -> sane_rules rs' -> ascii s -> refactored (grammar_of rs) (grammar_of rs') ->
  parse fuel s rs' = Ok t -> exists fuel', parse fuel' s rs = Ok t.
Proof.
  intros rs rs' s fuel t S S' A R H. destruct (parse_tree fuel s rs' t S' H) as (e' & kids & E' & -> & D & _).
  pose proof (R main) as M. unfold grammar_of in M. rewrite E' in M. destruct (rules_get rs main) as [e|] eqn:E; [|contradiction].
  assert (D2 : peg (grammar_of rs) e s (PMatch kids [])) by (apply (replaced_equiv _ _ _ M), (refactored_sound _ _ R); exact D).
  destruct (proj2 (parse_accepts s rs S A)) as (f & t & F); [exists e, kids; auto|].
  exists f. rewrite F. destruct (parse_tree f s rs t S F) as (e2 & kids2 & E2 & -> & D3 & _). rewrite E in E2. injection E2 as <-.
  pose proof (peg_det _ _ _ _ D2 _ D3) as Q. injection Q as <-. reflexivity.
Qed.

Lemma refactor_err : forall rs rs' s fuel er, sane_rules rs -> sane_rules rs' -> ascii s -> refactored (grammar_of rs) (grammar_of rs') ->
  parse fuel s rs' = Err er -> exists fuel' er', parse fuel' s rs = Err er'.
Proof.
  intros rs rs' s fuel er S S' A R H. destruct (proj1 (parse_rejects s rs' S' A)) as [[r D] N]; [exists fuel, er; exact H|].
  apply (parse_rejects s rs S A). split; [exists r; exact (refactored_sound _ _ R _ _ _ D)|].
  intros (e & ts & E & D2). apply N. inversion D as [| | | | | | | | | | | | | | | | | | | | | |n e' s0 r0 E' D'|n s0 E' ]; subst.
  - exists e', ts. split; [exact E'|]. pose proof (R main) as M. unfold grammar_of in M, E'. rewrite E, E' in M.
    pose proof (refactored_sound _ _ R _ _ _ D') as D3. apply (replaced_equiv _ _ _ M) in D3.
    rewrite (peg_det _ _ _ _ D2 _ D3). exact D'.
  - pose proof (R main) as M. unfold grammar_of in M, E'. rewrite E, E' in M. contradiction.
Qed.

Lemma parse_same : forall f1 f2 s rs o1 o2, parse f1 s rs = o1 -> parse f2 s rs = o2 -> o1 <> Fuel -> o2 <> Fuel -> o1 = o2.
Proof.
  intros f1 f2 s rs o1 o2 H1 H2 N1 N2. unfold parse in *.
  destruct (parse_with_debug_mono f1 (Nat.max f1 f2) s rs false ltac:(lia)) as [M|M]; [congruence|].
  destruct (parse_with_debug_mono f2 (Nat.max f1 f2) s rs false ltac:(lia)) as [M'|M']; congruence.
Qed.

Lemma refactor_iff : forall rs rs' s, sane_rules rs -> sane_rules rs' -> ascii s -> refactored (grammar_of rs) (grammar_of rs') ->
  well_formed (grammar_of rs') ->
  (forall t, (exists fuel, parse fuel s rs = Ok t) <-> (exists fuel, parse fuel s rs' = Ok t)) /\
  ((exists fuel er, parse fuel s rs = Err er) <-> (exists fuel er, parse fuel s rs' = Err er)).
Proof.
  intros rs rs' s S S' A R W.
  pose (b := depth_factor rs' * (length s + 1)). assert (NF : parse b s rs' <> Fuel) by (apply parse_bound; [exact W|apply Nat.le_refl]).
  destruct (parse b s rs') as [t'|er'| |] eqn:P; [| | |contradiction].
  - destruct (refactor_ok rs rs' s b t' S S' A R P) as [f F]. split.
    + intro t. split; intros [g Q].
      * assert (E : Ok t = Ok t') by (eapply (parse_same g f); try eassumption; discriminate). injection E as ->. exists b. exact P.
      * eapply refactor_ok; eassumption.
    + split; intros (g & er & Q); exfalso.
      * assert (E : Err er = Ok t') by (eapply (parse_same g f); try eassumption; discriminate). discriminate.
      * assert (E : Err er = Ok t') by (eapply (parse_same g b); try eassumption; discriminate). discriminate.
  - destruct (refactor_err rs rs' s b er' S S' A R P) as (f & e0 & F). split.
    + intro t. split; intros [g Q]; exfalso.
      * assert (E : Ok t = Err e0) by (eapply (parse_same g f); try eassumption; discriminate). discriminate.
      * assert (E : Ok t = Err er') by (eapply (parse_same g b); try eassumption; discriminate). discriminate.
    + split; intros _; eauto.
  - exfalso. exact (parse_no_panic b s rs' false A P).
Qed.
