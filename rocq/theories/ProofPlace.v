(** Errors of steady, predictive rules stand at the first wrong char. *)
From Verif Require Import Base ModelAst ModelParser SpecPeg SpecPos SpecApi SpecWf SpecReport SpecBnf SpecPlace.
From Verif Require Import PegTools ProofParser ProofEngine ProofSim ProofApi ProofReport ProofBnf ProofLinear ProofViable Examples.

Section Place.
Variable G : str -> option expr.
Variable follow : str -> nexts.
Hypothesis PG : forall n e, G n = Some e -> predictive G follow e (follow n).

(** What is asked of each part. *)
Definition calm (x : expr) : Prop :=
  match x with
  | Repeat y _ _ => decided G y
  | Or es => es <> [] /\ (empty G (Or es) -> forall y, In y es -> ~ empty G y -> decided G y)
  | _ => True
  end.
Definition calm_all (e : expr) : Prop := forall x, occurs x e -> calm x.
Hypothesis CA : forall n e, G n = Some e -> calm_all e.

(** The same first chars; if there are not so many, the same text. *)
Definition agree (k : nat) (s v : str) : Prop := firstn k s = firstn k v.

Lemma agree_le : forall j k s v, j <= k -> agree k s v -> agree j s v.
Proof.
  intros j k s v L A. unfold agree in *. replace (firstn j s) with (firstn j (firstn k s)) by (rewrite firstn_firstn, Nat.min_l by exact L; reflexivity).
  rewrite A, firstn_firstn, Nat.min_l by exact L. reflexivity.
Qed.

Lemma agree_app : forall w k s v, agree (length w + k) (w ++ s) v -> exists z, v = w ++ z /\ agree k s z.
Proof.
  induction w as [|c w IH]; intros k s v A.
  - exists v. split; [reflexivity|exact A].
  - destruct v as [|d v]; [discriminate|]. unfold agree in A. cbn in A. injection A as -> A. destruct (IH k s v A) as (z & -> & Z). exists z. split; [reflexivity|exact Z].
Qed.

Lemma agree_head : forall s c v, agree 1 s (c :: v) -> exists s', s = c :: s'.
Proof. intros [|d s] c v A; unfold agree in A; cbn in A; [discriminate|]. injection A as ->. exists s. reflexivity. Qed.

Lemma agree_cons : forall c s v, agree 1 (c :: s) v -> exists v', v = c :: v'.
Proof. intros c s [|d v] A; unfold agree in A; cbn in A; [discriminate|]. injection A as ->. exists v. reflexivity. Qed.

(** What is generated from texts that look like the one parsed. *)
Definition sharp (e : expr) (F : nexts) (s : str) (r : eresult) : Prop :=
  match r with
  | EMatch ts rest _ _ => forall w, s = w ++ rest -> forall v, agree (S (length w)) s v -> forall w' us z, v = w' ++ z -> F (hd_error z) -> derives G e w' us -> w' = w
  | EFail q => r_rest q = [] \/ (length (r_rest q) < length s /\
      forall v, agree (length s - length (r_rest q)) s v -> forall w us z, v = w ++ z -> F (hd_error z) -> ~ derives G e w us)
  | EAbort _ => True
  end.

Lemma match_text : forall e s ts rest p t, pege G e s (EMatch ts rest p t) -> exists w, s = w ++ rest /\ derives G e w ts.
Proof. intros e s ts rest p t D. exact (peg_derives G _ _ _ (pege_plain G _ _ _ D) _ _ eq_refl). Qed.

Lemma lit_sharp : forall l s rest, lit_stops l s rest -> rest = [] \/ (length rest < length s /\ forall v, agree (length s - length rest) s v -> forall z, v <> l ++ z).
Proof.
  intros l s rest H. induction H as [c l|c l d s N|c l s rest H IH].
  - left. reflexivity.
  - right. split; [cbn; lia|]. intros v A z ->. cbn [length] in A. replace (S (length s) - length s) with 1 in A by lia. unfold agree in A. cbn in A. congruence.
  - destruct IH as [->|[L IH]]; [left; reflexivity|right]. split; [cbn; lia|]. intros v A z ->.
    cbn [length] in A. replace (S (length s) - length rest) with (S (length s - length rest)) in A by lia. unfold agree in A. cbn in A. injection A as A. exact (IH (l ++ z) A z eq_refl).
Qed.

Lemma split_or : forall pre x post F, predictive G follow (Or (pre ++ x :: post)) F -> forall y, In y pre ->
  ~ empty G y /\ (forall c, starts G y c -> ~ starts G x c).
Proof.
  induction pre as [|p pre IH]; intros x post F P y I; [contradiction|]. destruct P as (P1 & P2 & P3 & P4). destruct I as [->|I].
  - split; [apply P2; destruct pre; discriminate|]. intros c Sy (w & ts & D). apply (P3 c Sy). left. exists c. split; [reflexivity|].
    exists w, ts. eapply d_or; [|exact D]. apply in_or_app. right. left. reflexivity.
  - exact (IH x post F P4 y I).
Qed.

Lemma after_or : forall pre x post F, predictive G follow (Or (pre ++ x :: post)) F -> predictive G follow (Or (x :: post)) F.
Proof. induction pre as [|p pre IH]; intros x post F P; [exact P|]. destruct P as (_ & _ & _ & P). exact (IH x post F P). Qed.

Lemma calm_in_and : forall es x, calm_all (And es) -> In x es -> calm_all x.
Proof. intros es x C I y O. apply C. eapply oc_and; eassumption. Qed.

Lemma calm_in_or : forall es x, calm_all (Or es) -> In x es -> calm_all x.
Proof. intros es x C I y O. apply C. eapply oc_or; eassumption. Qed.

Lemma calm_tail : forall x es, calm_all (And (x :: es)) -> calm_all (And es).
Proof.
  intros x es C y O. inversion O; subst; [exact I|]. apply C. eapply oc_and; [right; eassumption|assumption].
Qed.

Lemma calm_turn : forall e mn mx mn' mx', calm_all (Repeat e mn mx) -> calm_all (Repeat e mn' mx').
Proof. intros e mn mx mn' mx' C y O. inversion O; subst; [exact (C _ (oc_here _))|]. apply C. apply oc_rep. assumption. Qed.

Lemma calm_rep : forall e mn mx, calm_all (Repeat e mn mx) -> calm_all e /\ decided G e.
Proof. intros e mn mx C. split; [intros y O; apply C, oc_rep, O|exact (C _ (oc_here _))]. Qed.

Lemma lengths : forall (w s1 rest : str), length (w ++ s1) - length rest = length w + length s1 - length rest.
Proof. intros w s1 rest. rewrite app_length. reflexivity. Qed.

Lemma all_sharp :
  (forall e s r, pege G e s r -> forall F, predictive G follow e F -> calm_all e -> sharp e F s r) /\
  (forall es s o r, choice G es s o r -> forall pre F, predictive G follow (Or (pre ++ es)) F -> calm_all (Or (pre ++ es)) ->
     (forall y, In y pre -> exists q, pege G y s (EFail q)) ->
     match o with
     | None => pre = []
     | Some q => r_rest q = [] \/ (length (r_rest q) < length s /\
         forall v, agree (length s - length (r_rest q)) s v -> forall w us z, v = w ++ z -> F (hd_error z) -> forall y, In y pre -> ~ derives G y w us)
     end -> sharp (Or (pre ++ es)) F s r).
Proof.
  apply pege_choice_ind; intros.
  - (* literal *) cbn. intros w E v A w' us z Ev Fz D. inversion D; subst. apply app_inv_tail in E. exact E.
  - cbn. destruct (lit_sharp _ _ _ H) as [->|[L K]]; [left; reflexivity|right]. split; [exact L|].
    intros v A w us z Ev Fz D. inversion D; subst. exact (K _ A z eq_refl).
  - (* class *) cbn. intros w E v A w' us z Ev Fz D. inversion D; subst.
    assert (w = [c]) by (apply (app_inv_tail rest); symmetry; exact E). subst w.
    apply (agree_le 1) in A; [|lia]. unfold agree in A. cbn in A. congruence.
  - unfold sharp; cbn [r_rest]. destruct rest as [|d rest]; [left; reflexivity|right]. split; [cbn [length]; lia|]. intros v A w us z Ev Fz D. inversion D; subst.
    apply (agree_le 1) in A; [|cbn [length]; lia]. unfold agree in A. cbn in A. injection A as <-. contradiction.
  - left. reflexivity.
  - (* dot *) cbn. intros w E v A w' us z Ev Fz D. inversion D; subst.
    assert (w = [c]) by (apply (app_inv_tail rest); symmetry; exact E). subst w.
    apply (agree_le 1) in A; [|lia]. unfold agree in A. cbn in A. congruence.
  - left. reflexivity.
  - (* end *) cbn. intros w E v A w' us z Ev Fz D. inversion D; subst. rewrite app_nil_r in E. exact E.
  - unfold sharp; cbn [r_rest]. destruct rest as [|d rest]; [left; reflexivity|right]. split; [cbn [length]; lia|]. intros v A w us z Ev Fz D. inversion D; subst.
    cbn in H. specialize (H _ Fz). destruct z; [|discriminate]. apply (agree_le 1) in A; [|cbn [length]; lia]. discriminate.
  - exact I.
  - (* sequence *) cbn. intros w E v A w' us z Ev Fz D. inversion D; subst. symmetry. apply (app_inv_tail s). symmetry. exact E.
  - destruct H3 as [P1 P2]. specialize (H0 _ P1 (calm_in_and _ _ H4 (or_introl eq_refl))). specialize (H2 _ P2 (calm_tail _ _ H4)). cbn in H0.
    destruct (match_text _ _ _ _ _ _ H) as (w1 & E1 & D1). specialize (H0 w1 E1).
    destruct r as [us rest p' t'|q|q]; cbn in H2 |- *; [| |exact I].
    + destruct (match_text _ _ _ _ _ _ H1) as (w2 & E2 & D2). specialize (H2 w2 E2).
      intros w E v A w' us' z Ev Fz D. assert (w = w1 ++ w2) by (subst s s1; rewrite app_assoc in E; apply app_inv_tail in E; symmetry; exact E). subst w.
      inversion D as [| | | | |e' es' a b ta tb Da Db Ew| | | | |]; subst e' es' w' us'.
      assert (A1 : agree (S (length w1)) s v) by (refine (agree_le _ _ _ _ _ A); rewrite app_length; lia).
      assert (a = w1).
      { apply (H0 v A1 a ta (b ++ z)); [rewrite Ev; symmetry; apply app_assoc| |exact Da].
        destruct b as [|c b]; [right; split; [exists tb; exact Db|exact Fz]|left; exists c; split; [reflexivity|exists b, tb; exact Db]]. }
      subst a. f_equal. rewrite E1 in A. rewrite app_length in A. replace (S (length w1 + length w2)) with (length w1 + S (length w2)) in A by lia.
      destruct (agree_app _ _ _ _ A) as (z1 & Ez & A2). rewrite Ez in Ev. rewrite <- app_assoc in Ev. apply app_inv_head in Ev.
      exact (H2 z1 A2 b tb z Ev Fz Db).
    + destruct H2 as [->|[L K]]; [left; reflexivity|right]. rewrite E1, app_length. split; [lia|].
      intros v A w us z Ev Fz D. inversion D as [| | | | |e' es' a b ta tb Da Db Ew| | | | |]; subst e' es' w us.
      replace (length w1 + length s1 - length (r_rest q)) with (length w1 + (length s1 - length (r_rest q))) in A by lia.
      assert (a = w1).
      { apply (H0 v) with (us := ta) (z := b ++ z); [rewrite E1; refine (agree_le _ _ _ _ _ A); lia|rewrite Ev; symmetry; apply app_assoc| |exact Da].
        destruct b as [|c b]; [right; split; [exists tb; exact Db|exact Fz]|left; exists c; split; [reflexivity|exists b, tb; exact Db]]. }
      subst a. destruct (agree_app _ _ _ _ A) as (z1 & Ez & A2). rewrite Ez in Ev. rewrite <- app_assoc in Ev. apply app_inv_head in Ev.
      exact (K z1 A2 b tb z Ev Fz Db).
  - destruct H2 as [P1 P2]. specialize (H0 _ P1 (calm_in_and _ _ H3 (or_introl eq_refl))).
    destruct r as [us rest p' t'|q|q]; [contradiction| |exact I]. cbn in H0 |- *.
    destruct H0 as [->|[L K]]; [left; reflexivity|right]. split; [exact L|]. intros v A w us z Ev Fz D.
    inversion D as [| | | | |e' es' a b ta tb Da Db Ew| | | | |]; subst e' es' w us.
    apply (K v A a ta (b ++ z)); [rewrite Ev; symmetry; apply app_assoc| |exact Da].
    destruct b as [|c b]; [right; split; [exists tb; exact Db|exact Fz]|left; exists c; split; [reflexivity|exists b, tb; exact Db]].
  - (* choice *) apply (H0 [] F H1 H2); [intros y []|reflexivity].
  - contradiction.
  - contradiction.
  - (* repetition *) cbn. intros w E v A w' us z Ev Fz D. symmetry in E. rewrite <- (app_nil_l s) in E at 2. apply app_inv_tail in E. subst w.
    inversion D; subst; [reflexivity|congruence].
  - pose proof H4 as (P1 & P2 & P3). destruct (calm_rep _ _ _ H5) as [C1 C2]. specialize (H1 _ P1 C1). specialize (H3 _ (predictive_turn _ _ _ _ _ _ H4) (calm_turn _ _ _ _ _ H5)).
    cbn in H1. destruct (match_text _ _ _ _ _ _ H0) as (w1 & E1 & D1). specialize (H1 w1 E1).
    assert (N1 : w1 <> []) by (intros ->; apply P2; exists ts; exact D1). destruct w1 as [|c0 w1]; [congruence|]. clear N1.
    assert (Z : forall v w' us z, agree (S (length (c0 :: w1))) s v -> v = w' ++ z -> F (hd_error z) -> derives G (Repeat e mn mx) w' us ->
      exists b tb, w' = (c0 :: w1) ++ b /\ derives G (Repeat e (pred mn) (option_map pred mx)) b tb).
    { intros v w' us z A Ev Fz D. inversion D as [| | | | | | | |e' mx'|e' mn' mx' a b ta tb Nz Da Db|]; subst.
      - exfalso. destruct (agree_cons c0 (w1 ++ s1) ([] ++ z)) as (v' & Ev'); [refine (agree_le _ _ _ _ _ A); cbn; lia|]. cbn in Ev'. subst z.
        apply (P3 c0); [exists w1, ts; exact D1|exact Fz].
      - exists b, tb. split; [|exact Db]. f_equal. apply (H1 _ A a ta (b ++ z)); [symmetry; apply app_assoc| |exact Da].
        destruct b as [|c b]; [right; exact Fz|left]. split; [|exists c; split; [reflexivity|eapply rep_starts; [exact Db|exact P2|reflexivity]]].
        destruct mx as [[|[|m]]|]; cbn; try lia; [congruence|]. inversion Db; subst; cbn in *; congruence. }
    destruct r as [us rest p' t'|q|q]; cbn in H3 |- *; [| |exact I].
    + destruct (match_text _ _ _ _ _ _ H2) as (w2 & E2 & D2). specialize (H3 w2 E2).
      intros w E v A w' us' z Ev Fz D.
      assert (w = (c0 :: w1) ++ w2) by (subst s s1; rewrite app_assoc in E; apply app_inv_tail in E; symmetry; exact E). subst w.
      assert (A1 : agree (S (length (c0 :: w1))) s v) by (refine (agree_le _ _ _ _ _ A); cbn [length app]; rewrite app_length; lia).
      destruct (Z v w' us' z A1 Ev Fz D) as (b & tb & -> & Db). f_equal.
      rewrite E1 in A. rewrite app_length in A. replace (S (length (c0 :: w1) + length w2)) with (length (c0 :: w1) + S (length w2)) in A by lia.
      destruct (agree_app _ _ _ _ A) as (z1 & Ez & A2). rewrite Ez in Ev. rewrite <- app_assoc in Ev. apply app_inv_head in Ev.
      exact (H3 z1 A2 b tb z Ev Fz Db).
    + destruct H3 as [->|[L K]]; [left; reflexivity|right]. rewrite E1, app_length. split; [cbn; lia|].
      intros v A w us z Ev Fz D. replace (length (c0 :: w1) + length s1 - length (r_rest q)) with (length (c0 :: w1) + (length s1 - length (r_rest q))) in A by lia.
      destruct (Z v w us z) as (b & tb & -> & Db); [rewrite E1; refine (agree_le _ _ _ _ _ A); lia|exact Ev|exact Fz|exact D|].
      destruct (agree_app _ _ _ _ A) as (z1 & Ez & A2). rewrite Ez in Ev. rewrite <- app_assoc in Ev. apply app_inv_head in Ev.
      exact (K z1 A2 b tb z Ev Fz Db).
  - (* the last turn *) destruct H2 as (P1 & P2 & P3). destruct (calm_rep _ _ _ H3) as [C1 C2]. cbn. intros w E v A w' us z Ev Fz D.
    symmetry in E. rewrite <- (app_nil_l s) in E at 2. apply app_inv_tail in E. subst w.
    destruct w' as [|c w']; [reflexivity|]. exfalso. pose proof (rep_starts G _ _ _ _ _ D P2 c w' eq_refl) as Sc.
    rewrite Ev in A. destruct (agree_head _ _ _ A) as (s' & ->). exact (C2 c s' Sc (pege_plain G _ _ _ H0)).
  - pose proof H3 as (P1 & P2 & P3). destruct (calm_rep _ _ _ H4) as [C1 C2]. specialize (H2 _ P1 C1). cbn in H2 |- *.
    destruct H2 as [->|[L K]]; [left; reflexivity|right]. split; [exact L|]. intros v A w us z Ev Fz D.
    inversion D as [| | | | | | | |e' mx'|e' mn' mx' a b ta tb Nz Da Db|]; subst; [lia|].
    refine (K _ A a ta (b ++ z) _ _ Da); [symmetry; apply app_assoc|].
    destruct b as [|c b]; [right; exact Fz|left]. split; [|exists c; split; [reflexivity|eapply rep_starts; [exact Db|exact P2|reflexivity]]].
    destruct mx as [[|[|m]]|]; cbn; try lia; [congruence|]. inversion Db; subst; cbn in *; congruence.
  - exact I.
  - (* rule *) destruct H2 as [P1 P2]. specialize (H1 _ (PG n e H) (CA n e H)). destruct r as [us rest p' t'|q|q]; cbn in H1 |- *; [| |exact I].
    + intros w E v A w' us' z Ev Fz D. inversion D; subst. assert (e0 = e) by congruence. subst e0. eapply (H1 w eq_refl); [exact A|reflexivity|apply P2; exact Fz|eassumption].
    + destruct H1 as [->|[L K]]; [left; reflexivity|right]. split; [exact L|]. intros v A w us z Ev Fz D. inversion D; subst. assert (e0 = e) by congruence. subst e0.
      eapply K; [exact A|reflexivity|apply P2; exact Fz|eassumption].
  - exact I.
  - (* no alternatives *) exfalso. subst pre. exact (proj1 (H0 (Or []) (oc_here _)) eq_refl).
  - cbn. rewrite app_nil_r. destruct H2 as [->|[L K]]; [left; reflexivity|right]. split; [exact L|].
    intros v A w us z Ev Fz D. inversion D as [| | | | | |x es w0 ts I Dx| | | |]; subst. exact (K _ A w us z eq_refl Fz x I Dx).
  - (* the alternative that decides *) pose proof (after_or _ _ _ _ H2) as PO. destruct PO as (P1 & P2 & P3 & P4).
    assert (Ie : In e (pre ++ e :: es)) by (apply in_or_app; right; left; reflexivity).
    specialize (H0 _ P1 (calm_in_or _ _ H3 Ie)). destruct r as [us rest p' t'|q|q]; [|exfalso; apply H1; exact I|exact I].
    cbn in H0 |- *. intros w E v A w' us' z Ev Fz D. specialize (H0 w E v A).
    destruct (match_text _ _ _ _ _ _ H) as (w0 & E0 & D0). assert (w0 = w) by (rewrite E in E0; apply app_inv_tail in E0; symmetry; exact E0). subst w0. clear E0.
    inversion D as [| | | | | |y l w0 ts Iy Dy| | | |]; subst l w0 ts. apply in_app_or in Iy. destruct Iy as [Iy|[->|Iy]].
    + (* an alternative that failed *) exfalso. destruct (split_or _ _ _ _ H2 y Iy) as [NE NS].
      destruct w' as [|c w']; [apply NE; exists us'; exact Dy|]. assert (Sy : starts G y c) by (exists w', us'; exact Dy).
      rewrite Ev in A. destruct (agree_head s c (w' ++ z)) as (s' & Es); [refine (agree_le _ _ _ _ _ A); lia|].
      destruct w as [|d w].
      * destruct (H4 y Iy) as (q & Hq). rewrite Es in Hq. refine (proj2 (H3 _ (oc_here _)) _ y _ NE c s' Sy (pege_plain G _ _ _ Hq)).
        -- exists us. eapply d_or; [exact Ie|exact D0].
        -- apply in_or_app. left. exact Iy.
      * rewrite E in Es. injection Es as -> _. apply (NS c Sy). exists w, us. exact D0.
    + exact (H0 w' us' z Ev Fz Dy).
    + (* one that was not tried *) exfalso. destruct w as [|c w].
      * apply P2; [intros ->; exact Iy|exists us; exact D0].
      * assert (Sx : starts G e c) by (exists w, us; exact D0). rewrite E in A. cbn in A.
        destruct (agree_cons c (w ++ rest) v) as (v' & ->); [refine (agree_le _ _ _ _ _ A); lia|]. apply (P3 c Sx). destruct w' as [|d w'].
        -- right. cbn in Ev. subst z. split; [exists us'; eapply d_or; eassumption|exact Fz].
        -- left. injection Ev as -> _. exists d. split; [reflexivity|]. exists w', us'. eapply d_or; eassumption.
  - (* one more failed *) assert (Ee : pre ++ e :: es = (pre ++ [e]) ++ es) by (rewrite <- app_assoc; reflexivity).
    rewrite Ee in *. apply (H2 (pre ++ [e]) F H3 H4).
    + intros y Iy. apply in_app_or in Iy. destruct Iy as [Iy|[<-|[]]]; [exact (H5 y Iy)|exists q; exact H].
    + rewrite <- Ee in H3. pose proof (after_or _ _ _ _ H3) as PO. destruct PO as (P1 & _).
      specialize (H0 _ P1 (calm_in_or _ _ H4 ltac:(apply in_or_app; left; apply in_or_app; right; left; reflexivity))). cbn in H0.
      assert (Zq : forall q0 : report, (forall v, agree (length s - length (r_rest q0)) s v -> forall w us z, v = w ++ z -> F (hd_error z) -> forall y, In y pre -> ~ derives G y w us) ->
        (forall v, agree (length s - length (r_rest q0)) s v -> forall w us z, v = w ++ z -> F (hd_error z) -> ~ derives G e w us) ->
        forall v, agree (length s - length (r_rest q0)) s v -> forall w us z, v = w ++ z -> F (hd_error z) -> forall y, In y (pre ++ [e]) -> ~ derives G y w us).
      { intros q0 K1 K2 v A w us z Ev Fz y Iy. apply in_app_or in Iy. destruct Iy as [Iy|[<-|[]]]; [exact (K1 v A w us z Ev Fz y Iy)|exact (K2 v A w us z Ev Fz)]. }
      unfold further. destruct o as [p0|].
      * destruct (Nat.ltb_spec (length (r_rest p0)) (length (r_rest q))) as [Lt|Ge].
        -- destruct H6 as [H6|[L6 K6]]; [left; exact H6|right]. split; [exact L6|]. apply (Zq p0 K6). intros v A.
           destruct H0 as [H0|[L0 K0]]; [rewrite H0 in Lt; cbn in Lt; lia|]. apply K0. refine (agree_le _ _ _ _ _ A). lia.
        -- destruct H0 as [H0|[L0 K0]]; [left; exact H0|]. destruct H6 as [H6|[L6 K6]].
           ++ left. rewrite H6 in Ge. cbn in Ge. destruct (r_rest q); [reflexivity|cbn in Ge; lia].
           ++ right. split; [exact L0|]. apply (Zq q); [|exact K0]. intros v A. apply K6. refine (agree_le _ _ _ _ _ A). lia.
      * subst pre. destruct H0 as [H0|[L0 K0]]; [left; exact H0|right]. split; [exact L0|]. apply (Zq q); [intros v A w us z Ev Fz y []|exact K0].
Qed.
End Place.

(** * Rule sets *)

Lemma viable_shorter : forall rs s j k, j <= k -> viable rs (firstn k s) -> viable rs (firstn j s).
Proof.
  intros rs s j k L (u & ast & D). exists (skipn j (firstn k s) ++ u), ast. rewrite app_assoc.
  replace (firstn j s) with (firstn j (firstn k s)) by (rewrite firstn_firstn, Nat.min_l by exact L; reflexivity). rewrite firstn_skipn. exact D.
Qed.

Lemma calm_rules : forall rs, productive (grammar_of rs) -> steady rs -> forall n e, grammar_of rs n = Some e -> calm_all (grammar_of rs) e.
Proof.
  intros rs P S n e E x O. pose proof (S n e x E O) as H. pose proof (P n e x E O) as (w & ts & D). destruct x; try exact I; [|exact H].
  split; [intros ->; inversion D; contradiction|exact H].
Qed.

Lemma main_sharp : forall rs s r, productive (grammar_of rs) -> predictive_grammar (grammar_of rs) -> steady rs ->
  pege (grammar_of rs) (RuleName main) s r -> sharp (grammar_of rs) (RuleName main) (fun o => o = None) s r.
Proof.
  intros rs s r P (follow & FM & DM & PG) S H.
  apply (proj1 (all_sharp (grammar_of rs) follow PG (calm_rules rs P S)) _ _ _ H).
  - split; [exact DM|]. intros o ->. exact FM.
  - intros x O. inversion O. exact I.
Qed.

Definition place (s : str) (q : report) : nat := length s - length (r_rest q).

Lemma error_place : forall s debug p q, pn (e_pos (error_at s debug p q)) = place s q.
Proof. intros s debug p q. cbn [e_pos error_at pos_of pn]. unfold before. rewrite firstn_length, Nat.min_l by lia. reflexivity. Qed.

Lemma fail_place : forall rs s q, productive (grammar_of rs) -> predictive_grammar (grammar_of rs) -> steady rs ->
  pege (grammar_of rs) (RuleName main) s (EFail q) -> place s q < length s -> ~ viable rs (firstn (place s q) s).
Proof.
  intros rs s q P PG S H L (u & ast & D). pose proof (main_sharp rs s _ P PG S H) as K. cbn in K. destruct K as [K|[L1 K]].
  - unfold place in L. rewrite K in L. cbn in L. lia.
  - refine (K (firstn (place s q) s ++ u) _ _ _ [] (eq_sym (app_nil_r _)) eq_refl D). unfold agree. fold (place s q).
    assert (Lp : length (firstn (place s q) s) = place s q) by (rewrite firstn_length, Nat.min_l; lia).
    rewrite firstn_app, Lp, Nat.sub_diag, firstn_O, app_nil_r. rewrite firstn_firstn, Nat.min_id. reflexivity.
Qed.

Lemma match_place : forall rs s ts w c rest p t, productive (grammar_of rs) -> predictive_grammar (grammar_of rs) -> steady rs ->
  pege (grammar_of rs) (RuleName main) s (EMatch ts (c :: rest) p t) -> s = w ++ c :: rest -> viable rs w /\ ~ viable rs (w ++ [c]).
Proof.
  intros rs s ts w c rest p t P PG S H E. destruct (match_text _ _ _ _ _ _ _ H) as (w0 & E0 & D0).
  assert (w0 = w) by (rewrite E in E0; apply app_inv_tail in E0; symmetry; exact E0). subst w0. split.
  - inversion D0; subst. exists []. rewrite app_nil_r. eexists. exact D0.
  - intros (u & ast & D). pose proof (main_sharp rs s _ P PG S H) as K. cbn in K. specialize (K w E ((w ++ [c]) ++ u)).
    assert (A : agree (Datatypes.S (length w)) s ((w ++ [c]) ++ u)).
    { rewrite E. replace (w ++ c :: rest) with ((w ++ [c]) ++ rest) by (rewrite <- app_assoc; reflexivity). unfold agree.
      replace (Datatypes.S (length w)) with (length (w ++ [c]) + 0) by (rewrite app_length; cbn; lia). rewrite !firstn_app_2. reflexivity. }
    specialize (K A _ [ast] [] (eq_sym (app_nil_r _)) eq_refl D). apply (f_equal (@length char)) in K. rewrite !app_length in K. cbn in K. lia.
Qed.

Lemma place_before : forall rs fuel s debug er, sane_rules rs -> productive (grammar_of rs) -> predictive_grammar (grammar_of rs) -> ascii s ->
  parse_with_debug fuel s rs debug = Err er -> viable rs (firstn (pn (e_pos er) - 1) s).
Proof.
  intros rs fuel s debug er SR P (follow & FM & DM & PG) A E.
  destruct (errors_follow_good_text rs fuel s debug er SR P DM A E) as (_ & w & ast & D & F).
  exists (skipn (pn (e_pos er) - 1) w), ast. rewrite <- F, firstn_skipn. exact D.
Qed.

Lemma first_wrong_char : forall rs fuel s debug er, sane_rules rs -> productive (grammar_of rs) -> predictive_grammar (grammar_of rs) -> steady rs -> ascii s ->
  parse_with_debug fuel s rs debug = Err er -> (forall ts rest, ~ peg_main rs s (PMatch ts rest)) ->
  viable rs (firstn (pn (e_pos er) - 1) s) /\ (pn (e_pos er) < length s -> ~ viable rs (firstn (pn (e_pos er)) s)).
Proof.
  intros rs fuel s debug er SR P PG S A E N. split; [eapply place_before; eassumption|].
  destruct (proj1 (parse_report_iff s rs debug (Err er) SR A ltac:(discriminate)) (ex_intro _ fuel E)) as (r & D & An).
  inversion An; subst.
  - exfalso. exact (N _ _ (pege_plain _ _ _ _ D)).
  - exfalso. exact (N _ _ (pege_plain _ _ _ _ D)).
  - rewrite error_place. apply fail_place; assumption.
  - exfalso. destruct PG as (follow & FM & DM & PG). refine (no_abort (grammar_of rs) follow PG _ _ _ (pege_plain _ _ _ _ D) (fun o => o = None) _ _ _ eq_refl).
    split; [exact DM|]. intros o ->. exact FM.
Qed.

(** ** Without repetitions nothing is pending *)

Lemma nothing_pending : forall G, (forall n e x mn mx, G n = Some e -> ~ occurs (Repeat x mn mx) e) ->
  (forall e s r, pege G e s r -> (forall x mn mx, ~ occurs (Repeat x mn mx) e) -> forall ts rest p t, r = EMatch ts rest p t -> p = None) /\
  (forall es s o r, choice G es s o r -> (forall x mn mx, ~ occurs (Repeat x mn mx) (Or es)) -> forall ts rest p t, r = EMatch ts rest p t -> p = None).
Proof.
  intros G NR.
  assert (Z : forall x mn mx, ~ (forall y mn' mx', ~ occurs (Repeat y mn' mx') (Repeat x mn mx))) by (intros x mn mx K; exact (K x mn mx (oc_here _))).
  apply pege_choice_ind; intros; try discriminate;
    try (match goal with E : EMatch _ _ _ _ = EMatch _ _ _ _ |- _ => injection E; intros; subst end; reflexivity);
    try (exfalso; eapply Z; eassumption).
  - (* sequence *) destruct r as [us rest' p' t'|q|q]; cbn in H4; try discriminate. injection H4 as <- <- <- <-.
    assert (p' = None). { eapply H2; [|reflexivity]. intros x mn mx O. apply (H3 x mn mx). inversion O; subst. eapply oc_and; [right; eassumption|assumption]. }
    subst p'. eapply H0; [|reflexivity]. intros x mn mx O. apply (H3 x mn mx). eapply oc_and; [left; reflexivity|exact O].
  - subst r. contradiction.
  - eapply H0; eassumption.
  - (* rule *) destruct r as [us rest' p' t'|q|q]; cbn in H3; try discriminate. injection H3 as <- <- <- <-.
    assert (p' = None). { eapply H1; [|reflexivity]. intros x mn mx. eapply NR. exact H. } subst p'. reflexivity.
  - eapply H0; [|eassumption]. intros x mn mx O. apply (H2 x mn mx). eapply oc_or; [left; reflexivity|exact O].
  - eapply H2; [|eassumption]. intros x mn mx O. apply (H3 x mn mx). inversion O; subst. eapply oc_or; [right; eassumption|assumption].
Qed.

Lemma fail_descr : forall G,
  (forall e s r, pege G e s r -> forall q, r = EFail q -> r_descr q <> leftover_msg) /\
  (forall es s o r, choice G es s o r -> (forall q, o = Some q -> r_descr q <> leftover_msg) -> forall q, r = EFail q -> r_descr q <> leftover_msg).
Proof.
  intros G. apply pege_choice_ind; intros; try discriminate;
    try (match goal with E : EFail _ = EFail _ |- _ => injection E as <- end; cbn; discriminate).
  - destruct r; cbn in H3; try discriminate. injection H3 as <-. cbn. apply H2. reflexivity.
  - eapply H0; eassumption.
  - eapply H0; [|eassumption]. discriminate.
  - destruct r; cbn in H4; try discriminate. injection H4 as <-. cbn. apply H3. reflexivity.
  - injection H3 as <-. apply H2. reflexivity.
  - destruct r; cbn in H2; try discriminate. injection H2 as <-. cbn. apply H1. reflexivity.
  - injection H0 as <-. apply H. reflexivity.
  - eapply H0. eassumption.
  - apply H2; [|assumption]. intros q' E. injection E as <-. unfold further. destruct o as [p0|]; [|apply H0; reflexivity].
    destruct (_ <? _); [apply H3; reflexivity|apply H0; reflexivity].
Qed.

Lemma first_wrong_char_plain : forall rs fuel s debug er, sane_rules rs -> productive (grammar_of rs) -> predictive_grammar (grammar_of rs) -> steady rs ->
  without_repetitions rs -> ascii s -> parse_with_debug fuel s rs debug = Err er ->
  (e_descr er = leftover_msg -> pn (e_pos er) < length s /\ viable rs (firstn (pn (e_pos er)) s) /\ ~ viable rs (firstn (pn (e_pos er) + 1) s)) /\
  (e_descr er <> leftover_msg -> viable rs (firstn (pn (e_pos er) - 1) s) /\ (pn (e_pos er) < length s -> ~ viable rs (firstn (pn (e_pos er)) s))).
Proof.
  intros rs fuel s debug er SR P PG S NR A E.
  destruct (proj1 (parse_report_iff s rs debug (Err er) SR A ltac:(discriminate)) (ex_intro _ fuel E)) as (r & D & An).
  inversion An; subst.
  - exfalso. assert (Some q = None); [|discriminate]. refine (proj1 (nothing_pending (grammar_of rs) NR) _ _ _ D _ _ _ _ _ eq_refl). intros x mn mx O. inversion O.
  - split; [intros _|intro N; exfalso; apply N; reflexivity]. rewrite error_place. destruct (match_text _ _ _ _ _ _ _ D) as (w & Ew & Dw).
    destruct (match_place _ _ _ _ _ _ _ _ P PG S D Ew) as [V NV].
    assert (Lp : place s (Report (s_ "not consumed full input") (c :: rest) t) = length w) by (unfold place; cbn [r_rest]; rewrite Ew, app_length; lia).
    rewrite Lp. split; [rewrite Ew, app_length; cbn; lia|]. split.
    + rewrite Ew, firstn_app, Nat.sub_diag, firstn_all, firstn_O, app_nil_r. exact V.
    + rewrite Ew, firstn_app_2. exact NV.
  - split; [intro Ed; exfalso; exact (proj1 (fail_descr (grammar_of rs)) _ _ _ D q eq_refl Ed)|intros _]. split; [eapply place_before; eassumption|].
    rewrite error_place. apply fail_place; assumption.
  - exfalso. destruct PG as (follow & FM & DM & PG). refine (no_abort (grammar_of rs) follow PG _ _ _ (pege_plain _ _ _ _ D) (fun o => o = None) _ _ _ eq_refl).
    split; [exact DM|]. intros o ->. exact FM.
Qed.

(** ** Rules that ask for the end of the text *)

Lemma ends_with_eof : forall G es s ts rest, peg G (And (es ++ [Simple AEOF])) s (PMatch ts rest) -> rest = [].
Proof.
  intros G. induction es as [|e es IH]; intros s ts rest H; cbn [app] in H; apply inv_and_cons in H; destruct H as (t1 & s1 & t2 & -> & H1 & H2).
  - inversion H1; subst. apply inv_and_nil in H2. destruct H2 as [_ ->]. reflexivity.
  - exact (IH _ _ _ H2).
Qed.

Lemma first_wrong_char_eof : forall rs es fuel s debug er, sane_rules rs -> productive (grammar_of rs) -> predictive_grammar (grammar_of rs) -> steady rs ->
  grammar_of rs main = Some (And (es ++ [Simple AEOF])) -> ascii s -> parse_with_debug fuel s rs debug = Err er ->
  viable rs (firstn (pn (e_pos er) - 1) s) /\ (pn (e_pos er) < length s -> ~ viable rs (firstn (pn (e_pos er)) s)).
Proof.
  intros rs es fuel s debug er SR P PG S M A E. eapply first_wrong_char; try eassumption. intros ts rest H.
  pose proof H as H0. unfold peg_main in H0. apply inv_rule in H0. destruct H0 as (e & us & Ee & -> & H0). rewrite M in Ee. injection Ee as <-.
  apply ends_with_eof in H0. subst rest.
  pose proof (parse_sound fuel s rs debug SR) as K. rewrite E in K. destruct K as [_ K]. destruct (e_priority er).
  - destruct K as [K|(vs & rest & K & N)].
    + pose proof (peg_det _ _ _ _ H _ K). discriminate.
    + pose proof (peg_det _ _ _ _ H _ K) as Q. injection Q as _ <-. tauto.
  - destruct K as (rest & K & _). pose proof (peg_det _ _ _ _ H _ K). discriminate.
Qed.

(** * Which rules are steady *)

(** Every repetition repeats one char of a class. *)
Fixpoint class_turns (e : expr) : bool :=
  match e with
  | And es | Or es => forallb class_turns es
  | Not x => class_turns x
  | Repeat (Simple (Match _ _)) _ _ => true
  | Repeat _ _ _ => false
  | _ => true
  end.

Lemma class_turns_occurs : forall y e, occurs y e -> class_turns e = true -> class_turns y = true.
Proof.
  intros y e O. induction O as [|x es I O IH|x es I O IH|x O IH|x mn mx O IH]; intro C; auto.
  - apply IH. cbn in C. rewrite forallb_forall in C. exact (C x I).
  - apply IH. cbn in C. rewrite forallb_forall in C. exact (C x I).
  - apply IH. cbn in C. destruct x as [a| | | | |]; try discriminate. destruct a; try discriminate. reflexivity.
Qed.

Lemma class_decided : forall G cs rs, decided G (Simple (Match cs rs)).
Proof. intros G cs rs c s (w & ts & D) H. inversion D; subst. inversion H; subst. match goal with K : forall _ _, _ -> ~ _ |- _ => eapply K; [reflexivity|assumption] end. Qed.

Lemma steady_check_ok : forall rs, solid_choices (grammar_of rs) -> forallb (fun p => class_turns (snd p)) rs = true -> steady rs.
Proof.
  intros rs S C n e x E O. assert (Ce : class_turns e = true).
  { rewrite forallb_forall in C. exact (C (n, e) (rules_get_in rs n e E)). }
  pose proof (class_turns_occurs x e O Ce) as Cx. destruct x as [a|es|es|x|x mn mx|m]; try exact I.
  - intros (ts & D) y Iy NE. exfalso. inversion D as [| | | | | |z l w us Iz Dz| | | |]; subst. destruct es as [|a [|b l]]; [contradiction| |].
    + destruct Iy as [->|[]], Iz as [->|[]]. apply NE. exists ts. exact Dz.
    + apply (S n e _ z E O); [cbn; lia|exact Iz|exists ts; exact Dz].
  - cbn in Cx. destruct x as [a| | | | |]; try discriminate. destruct a; try discriminate. apply class_decided.
Qed.

(** No repetitions. *)
Fixpoint no_turns (e : expr) : bool :=
  match e with
  | And es | Or es => forallb no_turns es
  | Not x => no_turns x
  | Repeat _ _ _ => false
  | _ => true
  end.

Lemma no_turns_occurs : forall y e, occurs y e -> no_turns e = true -> no_turns y = true.
Proof.
  intros y e O. induction O as [|x es I O IH|x es I O IH|x O IH|x mn mx O IH]; intro C; auto.
  - apply IH. cbn in C. rewrite forallb_forall in C. exact (C x I).
  - apply IH. cbn in C. rewrite forallb_forall in C. exact (C x I).
  - discriminate.
Qed.

Lemma no_turns_ok : forall rs, forallb (fun p => no_turns (snd p)) rs = true -> without_repetitions rs.
Proof.
  intros rs C n e x mn mx E O. rewrite forallb_forall in C.
  pose proof (no_turns_occurs _ _ O (C (n, e) (rules_get_in rs n e E))) as K. discriminate.
Qed.

(** * Where errors are forgotten *)

Lemma get_main_only : forall e n x, rules_get (rules_macro [(main, e)]) n = Some x -> n = main /\ x = e.
Proof.
  intros e n x H. cbn [rules_macro fold_left rules_add hm_insert rules_new filter rules_get fst snd] in H.
  destruct (str_eqb main n) eqn:B; [|discriminate]. injection H as <-. apply str_eqb_eq in B. subst n. split; reflexivity.
Qed.

Lemma lit_starts : forall G l c, starts G (lit l) c -> exists l', l = c :: l'.
Proof. intros G l c (w & ts & D). inversion D; subst. exists w. reflexivity. Qed.

Lemma lit_empty : forall G l, empty G (lit l) -> l = [].
Proof. intros G l (ts & D). inversion D; subst. reflexivity. Qed.

Lemma and1_starts : forall G l c, starts G (And [lit l]) c -> exists l', l = c :: l'.
Proof.
  intros G l c (w & ts & D). inversion D as [| | | | |e' es' a b ta tb Da Db Ew| | | | |]; subst. inversion Db; subst. inversion Da; subst.
  match goal with K : _ ++ [] = _ |- _ => rewrite app_nil_r in K; subst end. exists w. reflexivity.
Qed.

Lemma and1_empty : forall G l, empty G (And [lit l]) -> l = [].
Proof.
  intros G l (ts & D). inversion D as [| | | | |e' es' a b ta tb Da Db Ew| | | | |]; subst. inversion Db; subst. inversion Da; subst.
  symmetry. apply app_nil_r.
Qed.

(** Rules that repeat something, then ask for a literal that starts differently. *)
Lemma two_parts_predictive : forall x c l, let rs := rules_macro [(main, And [Repeat x 0 None; lit (c :: l)])] in
  (forall follow F, predictive (grammar_of rs) follow x F) -> ~ empty (grammar_of rs) x -> ~ starts (grammar_of rs) x c -> predictive_grammar (grammar_of rs).
Proof.
  intros x c l rs P NE NS. exists (fun _ o => o = None). split; [reflexivity|]. split; [discriminate|]. intros n e E. apply get_main_only in E. destruct E as [-> ->].
  split; [|split; [exact I|exact I]]. split; [apply P|]. split; [exact NE|]. intros d Sd [(d' & Ed & Sd')|[Em _]].
  - injection Ed as <-. apply and1_starts in Sd'. destruct Sd' as (l' & El). injection El as -> _. exact (NS Sd).
  - apply and1_empty in Em. discriminate.
Qed.

Lemma two_parts_productive : forall a l, let rs := rules_macro [(main, And [Repeat (Simple a) 0 None; lit l])] in
  (exists w ts, derives (grammar_of rs) (Simple a) w ts) -> productive (grammar_of rs).
Proof.
  intros a l rs Pa n e x E O. apply get_main_only in E. destruct E as [-> ->].
  assert (Dl : derives (grammar_of rs) (lit l) l [Val l]) by constructor.
  assert (Dr : derives (grammar_of rs) (Repeat (Simple a) 0 None) [] []) by constructor.
  inversion O; subst.
  - exists ([] ++ l ++ []), ([] ++ [Val l] ++ []). apply d_and_cons; [exact Dr|]. apply d_and_cons; [exact Dl|constructor].
  - match goal with I : In _ _ |- _ => destruct I as [<-|[<-|[]]] end.
    + match goal with Q : occurs _ (Repeat _ _ _) |- _ => inversion Q; subst end; [exists [], []; exact Dr|].
      match goal with Q : occurs _ (Simple _) |- _ => inversion Q; subst end. exact Pa.
    + match goal with Q : occurs _ (lit _) |- _ => inversion Q; subst end. exists l, [Val l]. exact Dl.
Qed.

Lemma repeat_ascii : forall c k, (c < 128)%N -> ascii (repeat c k).
Proof. intros c k H. apply Forall_forall. intros d D. apply repeat_spec in D. subst d. exact H. Qed.

Lemma lit_stops_short : forall w l, l <> [] -> lit_stops (w ++ l) w [].
Proof. induction w as [|c w IH]; intros l N; [destruct l; [congruence|constructor]|]. cbn. constructor. apply IH. exact N. Qed.

Lemma forgotten_in_a_turn : forall k, exists rs s fuel er, sane_rules rs /\ productive (grammar_of rs) /\ predictive_grammar (grammar_of rs) /\ ascii s /\
  parse fuel s rs = Err er /\ (forall ts rest, ~ peg_main rs s (PMatch ts rest)) /\ pn (e_pos er) = 1 /\ k < length s /\ viable rs s.
Proof.
  intros k. set (s := repeat 97%N (S k)). set (l := s ++ s_ "b"). set (rs := rules_macro [(main, And [Repeat (lit l) 0 None; lit (s_ "c")])]).
  assert (SR : sane_rules rs) by (apply sane_rules_all; repeat constructor).
  assert (A : ascii s) by (apply repeat_ascii; reflexivity).
  assert (P : pege (grammar_of rs) (RuleName main) s (EFail (Report (lit_msg (s_ "c")) (repeat 97%N k) [main]))).
  { apply (ee_rule _ main (And [Repeat (lit l) 0 None; lit (s_ "c")]) s (EFail (Report (lit_msg (s_ "c")) (repeat 97%N k) []))); [reflexivity|].
    apply (ee_and_cons _ (Repeat (lit l) 0 None) [lit (s_ "c")] s [] s (Some (Report (lit_msg l) [] [])) [] (EFail (Report (lit_msg (s_ "c")) (repeat 97%N k) []))).
    - apply ee_rep_done; [discriminate|]. apply ee_lit_fail. apply lit_stops_short. discriminate.
    - apply ee_and_stop; [|exact I]. apply ee_lit_fail. unfold s. cbn [repeat]. apply ls_differ. discriminate. }
  destruct (proj2 (parse_report_iff s rs false (Err (error_at s false Normal (Report (lit_msg (s_ "c")) (repeat 97%N k) [main]))) SR A ltac:(discriminate))
    (ex_intro _ _ (conj P (an_fail s false _)))) as (f & F).
  exists rs, s, f, (error_at s false Normal (Report (lit_msg (s_ "c")) (repeat 97%N k) [main])).
  split; [exact SR|]. split; [apply two_parts_productive; exists l, [Val l]; constructor|].
  split; [apply two_parts_predictive; [intros; exact I|intro Em; apply lit_empty in Em; discriminate|intro Sc; apply lit_starts in Sc; destruct Sc as (l' & El); discriminate]|].
  split; [exact A|]. split; [exact F|]. split; [intros ts rest H; pose proof (peg_det _ _ _ _ (pege_plain _ _ _ _ P) _ H); discriminate|].
  split; [rewrite error_place; unfold place, s; cbn [r_rest]; rewrite !repeat_length; lia|]. split; [unfold s; rewrite repeat_length; lia|].
  exists (s_ "b" ++ s_ "c"). eexists. eapply d_rule; [reflexivity|]. rewrite app_assoc. fold l.
  apply (d_and_cons _ (Repeat (lit l) 0 None) [lit (s_ "c")] l (s_ "c" ++ [])).
  - rewrite <- (app_nil_r l) at 2. apply (d_rep_more _ (lit l) 0 None l [] [Val l] []); [discriminate|constructor|constructor].
  - apply d_and_cons; constructor.
Qed.

Lemma forgotten_at_the_end : forall k, exists rs s fuel er, sane_rules rs /\ productive (grammar_of rs) /\ predictive_grammar (grammar_of rs) /\ steady rs /\ ascii s /\
  parse fuel s rs = Err er /\ pn (e_pos er) = 1 /\ k < length s /\ viable rs (firstn k s).
Proof.
  intros k. set (w := repeat 98%N (S k)). set (s := w ++ s_ "x"). set (rs := rules_macro [(main, And [Repeat (ematch (s_ "a") []) 0 None; lit w])]).
  assert (SR : sane_rules rs) by (apply sane_rules_all; repeat constructor).
  assert (A : ascii s) by (apply Forall_app; split; [apply repeat_ascii; reflexivity|repeat constructor]).
  set (q := Report (class_msg (s_ "a") []) (repeat 98%N k ++ s_ "x") []).
  assert (P : pege (grammar_of rs) (RuleName main) s (EMatch [Rule main [Val w]] (s_ "x") (Some (shift [main] (shift [] q))) [main])).
  { apply (ee_rule _ main (And [Repeat (ematch (s_ "a") []) 0 None; lit w]) s (EMatch [Val w] (s_ "x") (Some q) [])); [reflexivity|].
    apply (ee_and_cons _ (Repeat (ematch (s_ "a") []) 0 None) [lit w] s [] s (Some q) [] (EMatch [Val w] (s_ "x") None [])).
    - apply ee_rep_done; [discriminate|]. unfold s, w, q. cbn [repeat app]. apply ee_class_fail. intros [K|(lo & hi & [] & _)]. destruct K as [K|[]]. discriminate.
    - apply (ee_and_cons _ (lit w) [] s [Val w] (s_ "x") None [] (EMatch [] (s_ "x") None [])); [apply ee_lit_ok|apply ee_and_nil]. }
  destruct (proj2 (parse_report_iff s rs false (Err (error_at s false Normal (shift [main] (shift [] q)))) SR A ltac:(discriminate))
    (ex_intro _ _ (conj P (an_pending s false _ _ _ _ _)))) as (f & F).
  exists rs, s, f, (error_at s false Normal (shift [main] (shift [] q))).
  split; [exact SR|]. split; [apply two_parts_productive; exists (s_ "a"), [Val (s_ "a")]; constructor; left; left; reflexivity|].
  split. { apply two_parts_predictive; [intros; exact I|intros (ts & D); inversion D|]. intros (v & ts & D). inversion D; subst.
    match goal with K : in_class _ _ _ |- _ => destruct K as [K|(lo & hi & [] & _)]; destruct K as [K|[]]; discriminate end. }
  split. { intros n e x E O. apply get_main_only in E. destruct E as [-> ->].
    inversion O; subst; [exact I|]. match goal with I : In _ _ |- _ => destruct I as [<-|[<-|[]]] end.
    - match goal with Q : occurs _ (Repeat _ _ _) |- _ => inversion Q; subst end; [apply class_decided|].
      match goal with Q : occurs _ (ematch _ _) |- _ => inversion Q; subst end. exact I.
    - match goal with Q : occurs _ (lit _) |- _ => inversion Q; subst end. exact I. }
  split; [exact A|]. split; [exact F|].
  assert (Lw : length w = S k) by (unfold w; apply repeat_length).
  split. { rewrite error_place. unfold place, s, q. cbn [shift r_rest]. rewrite !app_length, Lw, repeat_length. change (length (s_ "x")) with 1. lia. }
  split; [unfold s; rewrite app_length, Lw; lia|].
  apply viable_shorter with (k := S k); [lia|]. unfold s. rewrite <- Lw, firstn_app, Nat.sub_diag, firstn_all, firstn_O, app_nil_r.
  exists [], (Rule main ([] ++ [Val w] ++ [])). rewrite app_nil_r. eapply d_rule; [reflexivity|].
  assert (D : derives (grammar_of rs) (And [Repeat (ematch (s_ "a") []) 0 None; lit w]) ([] ++ w ++ []) ([] ++ [Val w] ++ [])).
  { apply d_and_cons; [constructor|]. apply d_and_cons; constructor. }
  rewrite app_nil_r in D. exact D.
Qed.
