(** Proofs: rules for texts of words. *)
From Verif Require Import Base ModelAst ModelParser ModelCost SpecPeg SpecPos SpecApi SpecSwap SpecCase SpecCodes.
From Verif Require Import ProofParser ProofEngine ProofApi ProofSwap ProofRun ProofRunDet ProofFinite ProofCase.

Section Codes.
Variables (ws : code) (G G' : str -> option expr).
Hypothesis PL : plain ws.
Hypothesis GG : forall n, G' n = option_map (coded ws) (G n).

Notation counts := (counts_as ws).

Lemma counts_app : forall a b x y, counts a x -> counts b y -> counts (a ++ b) (x ++ y).
Proof. intros a b x y A B. induction A; [exact B|]. rewrite <- app_assoc. cbn [app]. constructor; assumption. Qed.

Lemma counts_words : forall l, Forall (fun x => In x ws) l -> counts (flat_map fst l) (map snd l).
Proof. intros l H. induction H as [|[w c] l I H IH]; cbn; constructor; assumption. Qed.

(** ** Some of the words *)

Definition among (l : code) : expr := Or (map (fun x => lit (fst x)) l).

Lemma among_yes : forall l w c rest, incl l ws -> In (w, c) l -> peg G' (among l) (w ++ rest) (PMatch [Val w] rest).
Proof.
  intros l w c rest I H. unfold among. induction l as [|[v d] l IH]; [destruct H|]. cbn [map fst].
  destruct (list_eq_dec N.eq_dec v w) as [->|N].
  - apply peg_or_first; [constructor|discriminate].
  - apply peg_or_next.
    + constructor. intros x E. apply N. symmetry. exact (proj1 (proj2 PL w c v d rest x (I _ H) (I _ (or_introl eq_refl)) E)).
    + apply IH; [intros x X; apply I; right; exact X|]. destruct H as [H|H]; [congruence|exact H].
Qed.

Lemma among_no : forall l s, (forall w c x, In (w, c) l -> s <> w ++ x) -> peg G' (among l) s PFail.
Proof.
  intros l s H. unfold among. induction l as [|[v d] l IH]; [constructor|]. cbn [map fst]. apply peg_or_next; [constructor; intro x; exact (H v d x (or_introl eq_refl))|].
  apply IH. intros w c x I. exact (H w c x (or_intror I)).
Qed.

Lemma with_yes : forall p w c rest, In (w, c) ws -> p c = true -> peg G' (words_with ws p) (w ++ rest) (PMatch [Val w] rest).
Proof.
  intros p w c rest I P. apply (among_yes (filter (fun x => p (snd x)) ws) w c); [intros x X; apply filter_In in X; apply X|]. apply filter_In. auto.
Qed.

Lemma with_no : forall p w c rest, In (w, c) ws -> p c = false -> peg G' (words_with ws p) (w ++ rest) PFail.
Proof.
  intros p w c rest I P. apply among_no. intros v d x J E. apply filter_In in J. destruct J as [J Q]. destruct (proj2 PL w c v d rest x I J E) as [_ <-]. cbn in Q. congruence.
Qed.

Lemma with_end : forall p, peg G' (words_with ws p) [] PFail.
Proof.
  intro p. apply among_no. intros v d x J E. apply filter_In in J. destruct J as [J _]. destruct (proj1 PL v d J) as [N _]. destruct v; [exact (N eq_refl)|discriminate].
Qed.

(** ** Literals *)

Definition phrase (l : str) : expr := And (map (fun x => words_with ws (N.eqb x)) l).

Inductive phrased (l : str) (z : str) (s : str) : presult -> Prop :=
| ph_yes p rest zrest : s = flat_map fst p ++ rest -> z = map snd p ++ zrest -> Forall (fun x => In x ws) p -> map snd p = l -> counts rest zrest ->
    phrased l z s (PMatch (map (fun x => Val (fst x)) p) rest)
| ph_no : (forall zrest, z <> l ++ zrest) -> phrased l z s PFail.

Lemma phrase_peg : forall l s z, counts s z -> exists r, peg G' (phrase l) s r /\ phrased l z s r.
Proof.
  induction l as [|x l IH]; intros s z C.
  - exists (PMatch [] s). split; [constructor|]. exact (ph_yes [] z s [] s z eq_refl eq_refl (Forall_nil _) eq_refl C).
  - destruct C as [|w c s z I C].
    + exists PFail. split; [apply peg_and_stop; [apply with_end|exact Logic.I]|]. constructor. discriminate.
    + destruct (N.eqb x c) eqn:X.
      * destruct (IH s z C) as (r & D & H). exists (prepend [Val w] r). split; [eapply peg_and_cons; [exact (with_yes _ w c s I X)|exact D]|].
        apply N.eqb_eq in X. subst x. destruct H as [p rest zrest E1 E2 F M C'|N]; cbn [prepend].
        { refine (ph_yes _ _ _ ((w, c) :: p) rest zrest _ _ _ _ C'); cbn [flat_map map fst snd]; [rewrite E1, app_assoc; reflexivity|rewrite E2; reflexivity|constructor; assumption|rewrite M; reflexivity]. }
        { constructor. intros zrest E. injection E as E. exact (N zrest E). }
      * exists PFail. split; [apply peg_and_stop; [exact (with_no _ w c s I X)|exact Logic.I]|]. constructor. intros zrest E. injection E as E _. subst. rewrite N.eqb_refl in X. discriminate.
Qed.

Inductive crel : presult -> presult -> Prop :=
| crel_m ts ts' rest zrest : spells ws ts ts' -> counts rest zrest -> crel (PMatch ts' zrest) (PMatch ts rest)
| crel_f : crel PFail PFail
| crel_a m rest zrest : counts rest zrest -> crel (PAbort m zrest) (PAbort m rest).

Lemma crel_prepend : forall ts ts' r r', spells ws ts ts' -> crel r r' -> crel (prepend ts' r) (prepend ts r').
Proof.
  intros ts ts' r r' T H. destruct H as [us us' rest zrest U A| |m rest zrest A]; cbn; [|constructor|constructor; exact A]. constructor; [|exact A].
  induction T; cbn; [exact U| | |].
  - rewrite <- app_assoc. constructor; assumption.
  - constructor; assumption.
  - constructor; assumption.
Qed.

Lemma crel_wrap : forall n r r', crel r r' -> crel (wrap n r) (wrap n r').
Proof. intros n r r' H. destruct H; cbn; constructor; try assumption. constructor; [assumption|constructor]. Qed.
Lemma crel_stops : forall r r', crel r r' -> (stops r <-> stops r').
Proof. intros r r' H. destruct H; cbn; tauto. Qed.
Lemma crel_fail : forall r r', crel r r' -> (r = PFail <-> r' = PFail).
Proof. intros r r' H. destruct H; split; congruence. Qed.

Lemma one_leaf : forall w c, In (w, c) ws -> spells ws [Val w] [Val [c]].
Proof. intros w c I. refine (sp_leaf ws [(w, c)] [] [] _ _ (sp_nil ws)); [discriminate|]. constructor; [exact I|constructor]. Qed.

Lemma catom_rel : forall a s z, counts s z -> exists r r', peg G (Simple a) z r /\ peg G' (coded ws (Simple a)) s r' /\ crel r r'.
Proof.
  intros a s z C. destruct a as [l|cs rs|m| |].
  - destruct l as [|x l].
    + do 2 eexists. split; [exact (peg_lit_ok G [] z)|]. split; [exact (peg_lit_ok G' [] s)|]. constructor; [|exact C]. constructor; [left; reflexivity|constructor].
    + destruct (phrase_peg (x :: l) s z C) as (r' & D & H). destruct H as [p rest zrest E1 E2 F M C'|N].
      * exists (PMatch [Val (x :: l)] zrest), (PMatch (map (fun x => Val (fst x)) p) rest). split; [rewrite E2, M; constructor|]. split; [exact D|].
        constructor; [|exact C']. rewrite <- M, <- (app_nil_r (map (fun x => Val (fst x)) p)). apply sp_leaf; [intros ->; discriminate|exact F|constructor].
      * exists PFail, PFail. split; [constructor; exact N|]. split; [exact D|constructor].
  - destruct C as [|w c s z I C].
    + exists PFail, PFail. split; [constructor; discriminate|]. split; [apply with_end|constructor].
    + destruct (in_class_b cs rs c) eqn:X.
      * exists (PMatch [Val [c]] z), (PMatch [Val w] s). split; [constructor; apply in_class_b_ok; exact X|]. split; [exact (with_yes _ w c s I X)|]. constructor; [apply one_leaf; exact I|exact C].
      * exists PFail, PFail. split; [constructor; intros ? ? [= <- _] H; apply in_class_b_ok in H; congruence|]. split; [exact (with_no _ w c s I X)|constructor].
  - do 2 eexists. split; [constructor|]. split; [constructor|constructor; exact C].
  - destruct C as [|w c s z I C]; [exists PFail, PFail; split; [constructor|]; split; [apply with_end|constructor]|]. do 2 eexists. split; [constructor|]. split; [exact (with_yes _ w c s I eq_refl)|].
    constructor; [apply one_leaf; exact I|exact C].
  - destruct C as [|w c s z I C].
    + do 2 eexists. split; [constructor|]. split; [constructor|]. constructor; [|constructor]. constructor; [right; reflexivity|constructor].
    + exists PFail, PFail. split; [constructor|]. split; [|constructor]. destruct (proj1 PL w c I) as [N _]. destruct w; [contradiction|]. cbn [app coded]. constructor.
Qed.

Lemma c_there : forall e z r, peg G e z r -> forall s, counts s z -> exists r', peg G' (coded ws e) s r' /\ crel r r'.
Proof.
  assert (AT : forall a s z r, counts s z -> peg G (Simple a) z r -> exists r', peg G' (coded ws (Simple a)) s r' /\ crel r r').
  { intros a s z r A D. destruct (catom_rel a s z A) as (r1 & r2 & P & P' & R). rewrite (peg_det _ _ _ _ D _ P). eauto. }
  intros e z r D. induction D; intros s' A.
  1-9: refine (AT _ s' _ _ A _); econstructor; eassumption.
  - exists (PMatch [] s'). split; [constructor|]. constructor; [constructor|exact A].
  - destruct (IHD1 s' A) as (r1 & P1 & R1). inversion R1 as [us us' rest zr U AR| |]; subst. destruct (IHD2 rest AR) as (r2 & P2 & R2).
    exists (prepend us r2). split; [exact (peg_and_cons G' _ _ _ _ _ _ P1 P2)|apply crel_prepend; assumption].
  - destruct (IHD s' A) as (r1 & P1 & R1). exists r1. split; [|exact R1]. apply peg_and_stop; [exact P1|apply (crel_stops _ _ R1); assumption].
  - exists PFail. split; constructor.
  - destruct (IHD s' A) as (r1 & P1 & R1). exists r1. split; [|exact R1]. apply peg_or_first; [exact P1|]. intro X. apply (crel_fail _ _ R1) in X. contradiction.
  - destruct (IHD1 s' A) as (r1 & P1 & R1). inversion R1; subst. destruct (IHD2 s' A) as (r2 & P2 & R2). exists r2. split; [|exact R2]. apply peg_or_next; assumption.
  - destruct (IHD s' A) as (r1 & P1 & R1). inversion R1; subst. exists PFail. split; [eapply peg_not_fail; exact P1|constructor].
  - destruct (IHD s' A) as (r1 & P1 & R1). exists (PMatch [] s'). split; [eapply peg_not_ok; [exact P1|apply (crel_stops _ _ R1); assumption]|]. constructor; [constructor|exact A].
  - exists (PMatch [] s'). split; [constructor|]. constructor; [constructor|exact A].
  - destruct (IHD1 s' A) as (r1 & P1 & R1). inversion R1 as [us us' rest zr U AR| |]; subst. destruct (IHD2 rest AR) as (r2 & P2 & R2).
    exists (prepend us r2). split; [|apply crel_prepend; assumption]. cbn [coded]. eapply peg_rep_more; [assumption|exact P1|exact P2].
  - destruct (IHD s' A) as (r1 & P1 & R1). inversion R1; subst. exists (PMatch [] s'). split; [apply peg_rep_done; assumption|]. constructor; [constructor|exact A].
  - destruct (IHD s' A) as (r1 & P1 & R1). inversion R1; subst. exists PFail. split; [apply peg_rep_short; assumption|constructor].
  - destruct (IHD s' A) as (r1 & P1 & R1). inversion R1; subst. eexists. split; [apply peg_rep_abort; eassumption|constructor; assumption].
  - destruct (IHD s' A) as (r1 & P1 & R1). exists (wrap n r1). split; [|apply crel_wrap; exact R1]. apply (peg_rule G' n (coded ws e)); [|exact P1]. rewrite GG, H. reflexivity.
  - eexists. split; [apply peg_rule_missing; rewrite GG, H; reflexivity|]. constructor. exact A.
Qed.

Lemma c_back : forall e' s r', peg G' e' s r' -> forall e z, e' = coded ws e -> counts s z -> exists r, peg G e z r /\ crel r r'.
Proof.
  assert (AT : forall a s z r', counts s z -> peg G' (coded ws (Simple a)) s r' -> exists r, peg G (Simple a) z r /\ crel r r').
  { intros a s z r' A D. destruct (catom_rel a s z A) as (r & r2 & P & P' & R). rewrite (peg_det _ _ _ _ D _ P'). eauto. }
  intros e' s r' D. induction D; intros x z E A;
    (destruct x as [a|xs|xs|x|x mn0 mx0|n0];
      [refine (AT a _ z _ A _); rewrite <- E; econstructor; eassumption|..]; cbn [coded] in E; try discriminate).
  - destruct xs; [|discriminate]. eexists. split; [constructor|]. constructor; [constructor|exact A].
  - destruct xs as [|x xs]; [discriminate|]. injection E as E1 E2. destruct (IHD1 x z E1 A) as (r1 & P1 & R1). inversion R1 as [us us' rest zr U AR| |]; subst.
    destruct (IHD2 (And xs) zr eq_refl AR) as (r2 & P2 & R2). exists (prepend us' r2). split; [exact (peg_and_cons G _ _ _ _ _ _ P1 P2)|apply crel_prepend; assumption].
  - destruct xs as [|x xs]; [discriminate|]. injection E as E1 E2. destruct (IHD x z E1 A) as (r1 & P1 & R1). exists r1. split; [|exact R1].
    apply peg_and_stop; [exact P1|apply (crel_stops _ _ R1); assumption].
  - destruct xs; [|discriminate]. exists PFail. split; constructor.
  - destruct xs as [|x xs]; [discriminate|]. injection E as E1 E2. destruct (IHD x z E1 A) as (r1 & P1 & R1). exists r1. split; [|exact R1].
    apply peg_or_first; [exact P1|]. intro X. apply (crel_fail _ _ R1) in X. contradiction.
  - destruct xs as [|x xs]; [discriminate|]. injection E as E1 E2. destruct (IHD1 x z E1 A) as (r1 & P1 & R1). inversion R1; subst.
    destruct (IHD2 (Or xs) z eq_refl A) as (r2 & P2 & R2). exists r2. split; [|exact R2]. apply peg_or_next; assumption.
  - injection E as E. destruct (IHD x z E A) as (r1 & P1 & R1). inversion R1; subst. exists PFail. split; [eapply peg_not_fail; exact P1|constructor].
  - injection E as E. destruct (IHD x z E A) as (r1 & P1 & R1). eexists. split; [eapply peg_not_ok; [exact P1|apply (crel_stops _ _ R1); assumption]|]. constructor; [constructor|exact A].
  - injection E as E <- <-. eexists. split; [constructor|]. constructor; [constructor|exact A].
  - injection E as E <- <-. destruct (IHD1 x z E A) as (r1 & P1 & R1). inversion R1 as [us us' rest zr U AR| |]; subst.
    destruct (IHD2 (Repeat x (pred mn) (option_map pred mx)) zr eq_refl AR) as (r2 & P2 & R2). exists (prepend us' r2). split; [|apply crel_prepend; assumption].
    eapply peg_rep_more; [assumption|exact P1|exact P2].
  - injection E as E <- <-. destruct (IHD x z E A) as (r1 & P1 & R1). inversion R1; subst. eexists. split; [apply peg_rep_done; assumption|]. constructor; [constructor|exact A].
  - injection E as E <- <-. destruct (IHD x z E A) as (r1 & P1 & R1). inversion R1; subst. exists PFail. split; [apply peg_rep_short; assumption|constructor].
  - injection E as E <- <-. destruct (IHD x z E A) as (r1 & P1 & R1). inversion R1; subst. eexists. split; [apply peg_rep_abort; eassumption|constructor; assumption].
  - injection E as <-. rewrite GG in H. destruct (G n) as [e0|] eqn:N; [|discriminate]. injection H as H. destruct (IHD e0 z (eq_sym H) A) as (r1 & P1 & R1).
    exists (wrap n r1). split; [|apply crel_wrap; exact R1]. exact (peg_rule G n e0 _ _ N P1).
  - injection E as <-. rewrite GG in H. destruct (G n) as [e0|] eqn:N; [discriminate|]. eexists. split; [apply peg_rule_missing; exact N|]. constructor. exact A.
Qed.

(** ** All that is matched is words *)

Definition wordy (s : str) : Prop := exists z, counts s z.
Lemma wo : forall s z, counts s z -> wordy s.
Proof. intros s z C. exists z. exact C. Qed.

Lemma wordy_app : forall a b, wordy a -> wordy b -> wordy (a ++ b).
Proof. intros a b [x A] [y B]. exact (wo _ _ (counts_app _ _ _ _ A B)). Qed.

Lemma wordy_nil : wordy [].
Proof. exact (wo _ _ (ca_none ws)). Qed.

Lemma among_wordy : forall l s ts rest, incl l ws -> peg G' (among l) s (PMatch ts rest) -> exists p, s = p ++ rest /\ wordy p.
Proof.
  intros l s ts rest I D. unfold among in D. induction l as [|[w c] l IH]; [inversion D|]. cbn [map fst] in D.
  inversion D as [| | | | | | | | | | | | |? ? ? ? D1 N|? ? ? ? D1 D2| | | | | | | | |]; subst.
  - inversion D1; subst. exists w. split; [reflexivity|]. rewrite <- (app_nil_r w). exact (wo _ _ (ca_word ws w c [] [] (I _ (or_introl eq_refl)) (ca_none ws))).
  - apply IH; [intros x X; apply I; right; exact X|exact D2].
Qed.

Definition goes (s : str) (r : presult) : Prop := match r with PMatch _ rest | PAbort _ rest => exists p, s = p ++ rest /\ wordy p | PFail => True end.

Lemma goes_wordy : forall e' s r', peg G' e' s r' -> forall e, e' = coded ws e -> goes s r'.
Proof.
  assert (WI : forall p s ts rest, peg G' (words_with ws p) s (PMatch ts rest) -> exists p, s = p ++ rest /\ wordy p).
  { intros p s ts rest D. refine (among_wordy (filter (fun x => p (snd x)) ws) s ts rest _ D). intros x X. apply filter_In in X. apply X. }
  assert (PH : forall l s ts rest, peg G' (phrase l) s (PMatch ts rest) -> exists p, s = p ++ rest /\ wordy p).
  { induction l as [|x l IH]; intros s ts rest D; unfold phrase in D; cbn [map] in D.
    - inversion D; subst. exists []. split; [reflexivity|exact wordy_nil].
    - inversion D as [| | | | | | | | | |? ? ? us s1 r D1 D2|? ? ? ? D1 ST| | | | | | | | | | | |]; subst; [|destruct ST].
      match goal with Q : prepend _ _ = _ |- _ => destruct r as [vs rest'| |]; try discriminate Q; cbn in Q; injection Q as _ -> end.
      destruct (WI _ _ _ _ D1) as (p & -> & W1). destruct (IH _ _ _ D2) as (q & -> & W2). exists (p ++ q). split; [apply app_assoc|apply wordy_app; assumption]. }
  assert (NA : forall l s m rest, ~ peg G' (among l) s (PAbort m rest)).
  { intros l s m rest D. unfold among in D. induction l as [|x l IH]; [inversion D|]. cbn [map] in D. inversion D as [| | | | | | | | | | | | |? ? ? ? D1 N|? ? ? ? D1 D2| | | | | | | | |]; subst; [inversion D1|exact (IH D2)]. }
  assert (NP : forall l s m rest, ~ peg G' (phrase l) s (PAbort m rest)).
  { induction l as [|x l IH]; intros s m rest D; unfold phrase in D; cbn [map] in D; [inversion D|].
    inversion D as [| | | | | | | | | |? ? ? us s1 r D1 D2|? ? ? ? D1 ST| | | | | | | | | | | |]; subst; [|exact (NA _ _ _ _ D1)].
    match goal with Q : prepend _ _ = _ |- _ => destruct r as [vs rest'| |m' rest']; try discriminate Q end. exact (IH _ _ _ D2). }
  assert (AT : forall a s r, peg G' (coded ws (Simple a)) s r -> goes s r).
  { intros [[|x l]|cs rs|m| |] s [ts rest| |m' rest] D; cbn [coded] in D; cbn [goes]; try exact Logic.I.
    - inversion D; subst. exists []. split; [reflexivity|exact wordy_nil].
    - inversion D.
    - exact (PH _ _ _ _ D).
    - destruct (NP _ _ _ _ D).
    - exact (WI _ _ _ _ D).
    - destruct (NA _ _ _ _ D).
    - inversion D.
    - inversion D; subst. exists []. split; [reflexivity|exact wordy_nil].
    - exact (WI _ _ _ _ D).
    - destruct (NA _ _ _ _ D).
    - inversion D; subst. exists []. split; [reflexivity|exact wordy_nil].
    - inversion D. }
  assert (APP : forall s s1 (w : str) r ts, s = w ++ s1 -> wordy w -> goes s1 r -> goes s (prepend ts r)).
  { intros s s1 w [us rest| |m rest] ts E W X; cbn; [|exact Logic.I|]; destruct X as (w' & -> & W'); exists (w ++ w'); (split; [rewrite E; apply app_assoc|apply wordy_app; assumption]). }
  intros e' s r' D. induction D; intros x E;
    (destruct x as [a|xs|xs|x|x mn0 mx0|n0];
      [apply (AT a); rewrite <- E; econstructor; eassumption|..]; cbn [coded] in E; try discriminate).
  - exists []. split; [reflexivity|exact wordy_nil].
  - destruct xs as [|x xs]; [discriminate|]. injection E as E1 E2. destruct (IHD1 x E1) as (p & E & W1). refine (APP _ _ p _ _ E W1 _). apply (IHD2 (And xs)). rewrite E2. reflexivity.
  - destruct xs as [|x xs]; [discriminate|]. injection E as E1 E2. exact (IHD x E1).
  - exact Logic.I.
  - destruct xs as [|x xs]; [discriminate|]. injection E as E1 E2. exact (IHD x E1).
  - destruct xs as [|x xs]; [discriminate|]. injection E as E1 E2. apply (IHD2 (Or xs)). rewrite E2. reflexivity.
  - exact Logic.I.
  - exists []. split; [reflexivity|exact wordy_nil].
  - exists []. split; [reflexivity|exact wordy_nil].
  - injection E as E <- <-. destruct (IHD1 x E) as (p & E' & W1). refine (APP _ _ p _ _ E' W1 _). apply (IHD2 (Repeat x (pred mn) (option_map pred mx))). rewrite E. reflexivity.
  - exists []. split; [reflexivity|exact wordy_nil].
  - exact Logic.I.
  - injection E as E <- <-. exact (IHD x E).
  - rewrite GG in H. destruct (G n) as [e0|] eqn:N; [|discriminate]. injection H as H. specialize (IHD e0 (eq_sym H)). destruct r; exact IHD.
  - exists []. split; [reflexivity|exact wordy_nil].
Qed.

(** ** Calls *)

Variable L : nat.
Hypothesis LG : forall n e, G n = Some e -> lits L e.
Definition FC : nat := (L + 1) * (length ws + 1).
Notation lits := (lits L).

Inductive crel_end : ending -> ending -> Prop :=
| ce_m rest zrest : counts rest zrest -> crel_end (OM zrest) (OM rest)
| ce_f : crel_end OF OF
| ce_a : crel_end OA OA
| ce_c : crel_end OC OC.

Lemma crel_end_of : forall r r', crel r r' -> crel_end (end_of r) (end_of r').
Proof. intros r r' H. destruct H; constructor; assumption. Qed.

Lemma among_costs : forall l s r', peg G' (among l) s r' -> exists k, costs_or G' (map (fun x => lit (fst x)) l) s (end_of r') k /\ k <= length l.
Proof.
  induction l as [|x l IH]; intros s r' D; unfold among in D; cbn [map] in D.
  - inversion D; subst. exists 0. split; [constructor|apply Nat.le_refl].
  - inversion D as [| | | | | | | | | | | | |? ? ? ? D1 N|? ? ? ? D1 D2| | | | | | | | |]; subst.
    + exists 1. split; [|cbn; lia]. pose proof (simple_costs G' _ _ _ D1) as K. destruct r' as [| |m rest]; [apply co_match; exact K|contradiction|apply co_halt; [exact K|left; reflexivity]].
    + destruct (IH _ _ D2) as (k & K & LE). exists (1 + k). split; [|cbn; lia]. eapply co_next; [exact (simple_costs G' _ _ _ D1)|exact K].
Qed.

Lemma with_costs : forall p s r', peg G' (words_with ws p) s r' -> exists k, costs G' (words_with ws p) s (end_of r') k /\ k <= length ws + 1.
Proof.
  intros p s r' D. destruct (among_costs (filter (fun x => p (snd x)) ws) s r' D) as (k & K & LE). exists (S k). split; [apply c_or; exact K|].
  assert (X : forall (q : str * char -> bool) (l : code), length (filter q l) <= length l) by (intros q l; induction l as [|y l IH]; cbn; [lia|]; destruct (q y); cbn; lia).
  specialize (X (fun x => p (snd x)) ws). lia.
Qed.

Lemma phrase_costs : forall l s r', peg G' (phrase l) s r' -> exists k, costs_and G' (map (fun x => words_with ws (N.eqb x)) l) s (end_of r') k /\ k <= length l * (length ws + 1).
Proof.
  induction l as [|x l IH]; intros s r' D; unfold phrase in D; cbn [map] in D.
  - inversion D; subst. exists 0. split; [constructor|apply Nat.le_refl].
  - inversion D as [| | | | | | | | | |? ? ? ts s1 r D1 D2|? ? ? ? D1 ST| | | | | | | | | | | |]; subst; destruct (with_costs _ _ _ D1) as (k1 & K1 & L1).
    + destruct (IH _ _ D2) as (k & K & LE). exists (k1 + k). split; [|cbn; lia]. replace (end_of (prepend ts r)) with (end_of r) by (destruct r; reflexivity).
      eapply ca_cons; [exact K1|exact K].
    + exists k1. split; [|cbn; lia]. destruct r' as [| |m rest]; [destruct ST|apply ca_fail; exact K1|apply ca_halt; [exact K1|left; reflexivity]].
Qed.

Lemma catom_costs : forall a s z, counts s z -> lits (Simple a) -> forall r, peg G (Simple a) z r ->
  exists o' k', costs G' (coded ws (Simple a)) s o' k' /\ crel_end (end_of r) o' /\ k' <= FC * 1.
Proof.
  intros a s z A LA r D. destruct (catom_rel a s z A) as (r1 & r' & P & P' & R). rewrite (peg_det _ _ _ _ D _ P). clear r D. exists (end_of r').
  assert (X : exists k', costs G' (coded ws (Simple a)) s (end_of r') k' /\ k' <= FC * 1).
  { unfold FC. assert (ONE : forall b, coded ws (Simple a) = Simple b -> exists k', costs G' (coded ws (Simple a)) s (end_of r') k' /\ k' <= (L + 1) * (length ws + 1) * 1).
    { intros b E. exists 1. split; [rewrite E in *; apply simple_costs; exact P'|nia]. }
    assert (WITH : forall p, coded ws (Simple a) = words_with ws p -> exists k', costs G' (coded ws (Simple a)) s (end_of r') k' /\ k' <= (L + 1) * (length ws + 1) * 1).
    { intros p E. rewrite E in *. destruct (with_costs p s r' P') as (k & K & B). exists k. split; [exact K|nia]. }
    destruct a as [[|x l]|cs rs|m| |]; try (eapply ONE; reflexivity); try (eapply WITH; reflexivity). destruct (phrase_costs (x :: l) s r' P') as (k & K & B).
    exists (S k). split; [apply c_and; exact K|]. specialize (LA (x :: l) (ha_simple _)). nia. }
  destruct X as (k' & K & B). exists k'. split; [exact K|]. split; [apply crel_end_of; exact R|exact B].
Qed.

Lemma crel_halts : forall o o', crel_end o o' -> halts o -> halts o'.
Proof. intros o o' H [->| ->]; inversion H; subst; [left|right]; reflexivity. Qed.

Lemma c_costs :
  (forall e z o k, costs G e z o k -> forall s, counts s z -> lits e ->
     exists o' k', costs G' (coded ws e) s o' k' /\ crel_end o o' /\ k' <= FC * k) /\
  (forall es z o k, costs_and G es z o k -> forall s, counts s z -> lits (And es) ->
     exists o' k', costs_and G' (map (coded ws) es) s o' k' /\ crel_end o o' /\ k' <= FC * k) /\
  (forall es z o k, costs_or G es z o k -> forall s, counts s z -> lits (Or es) ->
     exists o' k', costs_or G' (map (coded ws) es) s o' k' /\ crel_end o o' /\ k' <= FC * k) /\
  (forall e mn mx z o k, costs_rep G e mn mx z o k -> forall s, counts s z -> lits e ->
     exists o' k', costs_rep G' (coded ws e) mn mx s o' k' /\ crel_end o o' /\ k' <= FC * k).
Proof.
  assert (FP : 1 <= FC) by (unfold FC; cbn; lia).
  apply costs_mind.
  - intros e z s A LE. exists OC, 0. split; [constructor|]. split; [constructor|lia].
  - intros a z s A LE. exists OC, 0. split; [constructor|]. split; [constructor|lia].
  - intros a z ts rest D s A LE. exact (catom_costs a s _ A LE _ D).
  - intros a z D s A LE. exact (catom_costs a s _ A LE _ D).
  - intros a z m rest D s A LE. exact (catom_costs a s _ A LE _ D).
  - intros es z o k _ IH s A LE. destruct (IH s A LE) as (o' & k' & K & R & B). exists o', (S k'). split; [apply c_and; exact K|]. split; [exact R|lia].
  - intros es z o k _ IH s A LE. destruct (IH s A LE) as (o' & k' & K & R & B). exists o', (S k'). split; [apply c_or; exact K|]. split; [exact R|lia].
  - intros e z rest k _ IH s A LE. destruct (IH s A (fun l X => LE l (ha_not _ _ X))) as (o' & k' & K & R & B). inversion R; subst.
    exists OF, (S k'). split; [eapply c_not_fail; exact K|]. split; [constructor|lia].
  - intros e z o k _ IH O s A LE. destruct (IH s A (fun l X => LE l (ha_not _ _ X))) as (o' & k' & K & R & B).
    exists (OM s), (S k'). split; [eapply c_not_ok; [exact K|]; destruct O as [->| ->]; inversion R; auto|]. split; [constructor; exact A|lia].
  - intros e z o k _ IH s A LE. destruct (IH s A (fun l X => LE l (ha_not _ _ X))) as (o' & k' & K & R & B).
    exists OC, (S k'). split; [eapply c_not_cut; exact K|]. split; [constructor|lia].
  - intros e mn mx z o k _ IH s A LE. destruct (IH s A (fun l X => LE l (ha_rep _ _ _ _ X))) as (o' & k' & K & R & B).
    exists o', (S k'). split; [apply c_rep; exact K|]. split; [exact R|lia].
  - intros n e z o k N _ IH s A LE. destruct (IH s A (LG n e N)) as (o' & k' & K & R & B).
    exists o', (S k'). split; [apply (c_rule G' n (coded ws e)); [rewrite GG, N; reflexivity|exact K]|]. split; [exact R|lia].
  - intros n z o N H s A LE. exists o, 1. split; [apply c_missing; [rewrite GG, N; reflexivity|exact H]|]. split; [destruct H as [->| ->]; constructor|lia].
  - intros z s A LE. exists (OM s), 0. split; [constructor|]. split; [constructor; exact A|lia].
  - intros e es z s1 o k k' _ IH1 _ IH2 s A LE. apply (lits_cons L) in LE. destruct LE as [LE1 LE2]. destruct (IH1 s A LE1) as (o1 & k1 & K1 & R1 & B1). inversion R1; subst.
    destruct (IH2 rest ltac:(assumption) LE2) as (o2 & k2 & K2 & R2 & B2). exists o2, (k1 + k2). split; [eapply ca_cons; eassumption|]. split; [exact R2|lia].
  - intros e es z k _ IH1 s A LE. apply (lits_cons L) in LE. destruct LE as [LE1 LE2]. destruct (IH1 s A LE1) as (o1 & k1 & K1 & R1 & B1). inversion R1; subst.
    exists OF, k1. split; [apply ca_fail; exact K1|]. split; [constructor|exact B1].
  - intros e es z o k _ IH1 H s A LE. apply (lits_cons L) in LE. destruct LE as [LE1 LE2]. destruct (IH1 s A LE1) as (o1 & k1 & K1 & R1 & B1).
    exists o1, k1. split; [apply ca_halt; [exact K1|exact (crel_halts _ _ R1 H)]|]. split; [exact R1|exact B1].
  - intros z s A LE. exists OF, 0. split; [constructor|]. split; [constructor|lia].
  - intros z s A LE. exists OC, 0. split; [constructor|]. split; [constructor|lia].
  - intros e es z s1 k _ IH1 s A LE. apply (lits_cons L) in LE. destruct LE as [LE1 LE2]. destruct (IH1 s A LE1) as (o1 & k1 & K1 & R1 & B1). inversion R1; subst.
    exists (OM rest), k1. split; [apply co_match; exact K1|]. split; [exact R1|exact B1].
  - intros e es z o k _ IH1 H s A LE. apply (lits_cons L) in LE. destruct LE as [LE1 LE2]. destruct (IH1 s A LE1) as (o1 & k1 & K1 & R1 & B1).
    exists o1, k1. split; [apply co_halt; [exact K1|exact (crel_halts _ _ R1 H)]|]. split; [exact R1|exact B1].
  - intros e es z o k k' _ IH1 _ IH2 s A LE. apply (lits_cons L) in LE. destruct LE as [LE1 LE2]. destruct (IH1 s A LE1) as (o1 & k1 & K1 & R1 & B1). inversion R1; subst.
    destruct (IH2 s A LE2) as (o2 & k2 & K2 & R2 & B2). exists o2, (k1 + k2). split; [eapply co_next; eassumption|]. split; [exact R2|lia].
  - intros e mn mx z s A LE. exists OC, 0. split; [constructor|]. split; [constructor|lia].
  - intros e mn z s1 k _ IH1 s A LE. destruct (IH1 s A LE) as (o1 & k1 & K1 & R1 & B1). inversion R1; subst.
    exists (OM rest), k1. split; [apply cr_last; exact K1|]. split; [exact R1|exact B1].
  - intros e mn mx z s1 o k k' M _ IH1 _ IH2 s A LE. destruct (IH1 s A LE) as (o1 & k1 & K1 & R1 & B1). inversion R1; subst.
    destruct (IH2 rest ltac:(assumption) LE) as (o2 & k2 & K2 & R2 & B2). exists o2, (k1 + k2). split; [eapply cr_more; eassumption|]. split; [exact R2|lia].
  - intros e mx z k _ IH1 s A LE. destruct (IH1 s A LE) as (o1 & k1 & K1 & R1 & B1). inversion R1; subst.
    exists (OM s), k1. split; [apply cr_done; exact K1|]. split; [constructor; exact A|exact B1].
  - intros e mn mx z k P _ IH1 s A LE. destruct (IH1 s A LE) as (o1 & k1 & K1 & R1 & B1). inversion R1; subst.
    exists OF, k1. split; [apply cr_short; assumption|]. split; [constructor|exact B1].
  - intros e mn mx z o k _ IH1 H s A LE. destruct (IH1 s A LE) as (o1 & k1 & K1 & R1 & B1).
    exists o1, k1. split; [apply cr_halt; [exact K1|exact (crel_halts _ _ R1 H)]|]. split; [exact R1|exact B1].
Qed.

End Codes.

(** * The API *)

Section Api.
Variables (ws : code) (rs : rules).
Hypothesis PL : plain ws.
Hypothesis SR : sane_rules rs.
Notation rs' := (coded_rules ws rs).

Lemma get_coded : forall n, rules_get rs' n = option_map (coded ws) (rules_get rs n).
Proof.
  intro n. unfold coded_rules. clear SR. induction rs as [|[m e] r IH]; [reflexivity|]. cbn [map rules_get fst snd]. destruct (str_eqb m n); [reflexivity|exact IH].
Qed.

Lemma with_is_sane : forall p, sane (words_with ws p).
Proof. intro p. unfold words_with. induction (filter (fun x => p (snd x)) ws) as [|x l IH]; [exact Logic.I|]. split; [exact Logic.I|exact IH]. Qed.

Lemma coded_sane : forall e, sane e -> sane (coded ws e).
Proof.
  fix IH 1. intros [a|es|es|e|e mn mx|n] H.
  - destruct a as [[|x l]| | | |]; cbn [coded]; try exact Logic.I; try apply with_is_sane. change (sane (And (map (fun x => words_with ws (N.eqb x)) (x :: l)))). generalize (x :: l). clear.
    intro l. induction l as [|y l IH]; [exact Logic.I|]. split; [apply with_is_sane|exact IH].
  - cbn [coded sane] in *. revert es H. fix IHs 1. intros [|e es] H; cbn in *; [exact Logic.I|]. destruct H as [H1 H2]. split; [apply IH; exact H1|apply IHs; exact H2].
  - cbn [coded sane] in *. revert es H. fix IHs 1. intros [|e es] H; cbn in *; [exact Logic.I|]. destruct H as [H1 H2]. split; [apply IH; exact H1|apply IHs; exact H2].
  - exact (IH e H).
  - destruct H as [H1 H2]. split; [exact (IH e H1)|exact H2].
  - exact Logic.I.
Qed.

Lemma sane_coded : sane_rules rs'.
Proof. intros n e E. rewrite get_coded in E. destruct (rules_get rs n) as [x|] eqn:X; [|discriminate]. injection E as <-. apply coded_sane. exact (SR n x X). Qed.

Lemma counts_ascii : forall s z, counts_as ws s z -> ascii s /\ ascii z.
Proof.
  intros s z C. induction C as [|w c s z I C [A1 A2]]; [split; constructor|]. destruct (proj1 PL w c I) as (_ & AW & AC). split; [apply Forall_app; split; assumption|constructor; assumption].
Qed.

Lemma cmain_there : forall s z r, counts_as ws s z -> peg_main rs z r -> exists r', peg_main rs' s r' /\ crel ws r r'.
Proof. intros s z r C D. exact (c_there ws (grammar_of rs) (grammar_of rs') PL get_coded _ _ _ D s C). Qed.
Lemma cmain_back : forall s z r', counts_as ws s z -> peg_main rs' s r' -> exists r, peg_main rs z r /\ crel ws r r'.
Proof. intros s z r' C D. exact (c_back ws (grammar_of rs) (grammar_of rs') PL get_coded _ _ _ D (RuleName main) z eq_refl C). Qed.

Lemma spells_one : forall n us' ts, spells ws ts [Rule n us'] -> exists us, ts = [Rule n us] /\ spells ws us us'.
Proof. intros n us' ts H. inversion H as [| | |? us ? ts0 ? U T]; subst. inversion T; subst. eauto. Qed.
Lemma spells_from : forall n us ts, spells ws [Rule n us] ts -> exists us', ts = [Rule n us'] /\ spells ws us us'.
Proof.
  intros n us ts H. remember [Rule n us] as z eqn:Z. destruct H as [|l ? ? NE F T|? ? ? ? T|m us0 us' ? ? U T]; try discriminate.
  - destruct l; [contradiction|discriminate].
  - injection Z as -> -> ->. inversion T as [|l ? ? NE F T' E| |]; subst; [eauto|]. destruct l; [contradiction|discriminate].
Qed.

Lemma counts_end : forall z, counts_as ws [] z -> z = [].
Proof. intros z C. remember [] as s eqn:S. destruct C as [|w c s z I C]; [reflexivity|]. destruct (proj1 PL w c I) as [N _]. destruct w; [contradiction|discriminate]. Qed.

Lemma ccounts_nil : forall s, counts_as ws s [] -> s = [].
Proof. intros s C. inversion C. reflexivity. Qed.

Lemma caccepted_there : forall s z ast d d', counts_as ws s z -> (exists fuel, parse_with_debug fuel z rs d = Ok ast) ->
  exists fuel ast', parse_with_debug fuel s rs' d' = Ok ast' /\ spells ws [ast'] [ast].
Proof.
  intros s z ast d d' C H. destruct (counts_ascii s z C) as [AS AZ]. apply (parse_accepts_iff _ rs d SR AZ) in H. pose proof H as H0. apply peg_main_shape in H0. destruct H0 as (e & kids & _ & E & _). injection E as ->.
  destruct (cmain_there s z _ C H) as (r' & D & R). inversion R as [ts ? rest zrest T AR E1 E2| |]; subst. apply ccounts_nil in AR. subst rest.
  destruct (spells_one _ _ _ T) as (us & -> & U). destruct (proj2 (parse_accepts_iff s rs' d' sane_coded AS _) D) as [fuel F]. exists fuel, (Rule main us). auto.
Qed.

Lemma caccepted_back : forall s ast' d d', (exists fuel, parse_with_debug fuel s rs' d' = Ok ast') ->
  exists z fuel ast, counts_as ws s z /\ parse_with_debug fuel z rs d = Ok ast /\ spells ws [ast'] [ast].
Proof.
  intros s ast' d d' H. assert (A : ascii s) by (destruct H as [fuel F]; pose proof (parse_sound fuel s rs' d' sane_coded) as X; rewrite F in X; tauto).
  apply (parse_accepts_iff _ rs' d' sane_coded A) in H. pose proof H as H0. apply peg_main_shape in H0. destruct H0 as (e & kids & _ & E & _). injection E as ->.
  destruct (goes_wordy ws (grammar_of rs) (grammar_of rs') get_coded _ _ _ H (RuleName main) eq_refl) as (p & -> & [z C]). rewrite app_nil_r in *.
  exists z. destruct (counts_ascii p z C) as [_ AZ]. destruct (cmain_back p z _ C H) as (r & D & R). inversion R as [ts ts' rest zrest T AR E1 E2| |]; subst. apply counts_end in AR. subst zrest.
  destruct (spells_from _ _ _ T) as (us' & -> & U). destruct (proj2 (parse_accepts_iff _ rs d SR AZ _) D) as [fuel F]. exists fuel, (Rule main us'). auto.
Qed.

Lemma counts_unique : forall s z, counts_as ws s z -> forall z', counts_as ws s z' -> z = z'.
Proof.
  intros s z C. induction C as [|w c s z I C IH]; intros z' C'; [symmetry; apply counts_end; exact C'|].
  remember (w ++ s) as y eqn:Y. destruct C' as [|w' c' s' z' I' C'].
  - exfalso. destruct (proj1 PL w c I) as [N _]. destruct w; [contradiction|discriminate].
  - destruct (proj2 PL w' c' w c s' s I' I Y) as [-> ->]. apply app_inv_head in Y. subst. f_equal. apply IH. exact C'.
Qed.

Lemma cfinished : forall s z d d', counts_as ws s z -> (exists fuel, parse_with_debug fuel z rs d <> Fuel) <-> (exists fuel, parse_with_debug fuel s rs' d' <> Fuel).
Proof.
  intros s z d d' C. destruct (counts_ascii s z C) as [AS AZ]. rewrite (parse_terminates_iff _ rs d SR AZ), (parse_terminates_iff _ rs' d' sane_coded AS). split; intros [r D].
  - destruct (cmain_there s z r C D) as (r' & D' & _). eauto.
  - destruct (cmain_back s z r C D) as (r' & D' & _). eauto.
Qed.

Lemma counts_front : forall a p, counts_as ws a p -> forall a' b b', counts_as ws a' p -> a ++ b = a' ++ b' -> a = a'.
Proof.
  intros a p C. induction C as [|w c s z I C IH]; intros a' b b' C' E; [inversion C'; reflexivity|].
  remember (c :: z) as y eqn:Y. destruct C' as [|w' c' s' z' I' C']; [discriminate|]. injection Y as -> ->. rewrite <- !app_assoc in E.
  destruct (proj2 PL w c w' c _ _ I I' E) as [<- _]. apply app_inv_head in E. f_equal. exact (IH s' b b' C' E).
Qed.

Lemma tails : forall (p q w r : str), p ++ q = w ++ r -> length q = length r -> p = w /\ q = r.
Proof.
  induction p as [|x p IH]; intros q [|y w] r E L; cbn in E.
  - auto.
  - subst. cbn in L. rewrite app_length in L. lia.
  - subst. cbn in L. rewrite app_length in L. lia.
  - injection E as <- E. destruct (IH q w r E L) as [-> ->]. auto.
Qed.

Lemma caborted : forall a p b q m, counts_as ws a p -> counts_as ws b q -> aborts rs (p ++ q) m (length p) <-> aborts rs' (a ++ b) m (length a).
Proof.
  intros a p b q m CA CB. pose proof (counts_app ws _ _ _ _ CA CB) as C. destruct (counts_ascii _ _ C) as [AS AZ]. unfold aborts.
  rewrite (parse_abort_iff _ rs m _ SR AZ), (parse_abort_iff _ rs' m _ sane_coded AS).
  assert (X : forall rest, peg_main rs' (a ++ b) (PAbort m rest) -> counts_as ws rest q -> rest = b).
  { intros rest D CR. destruct (goes_wordy ws (grammar_of rs) (grammar_of rs') get_coded _ _ _ D (RuleName main) eq_refl) as (w & E & [p' CW]).
    assert (P : p ++ q = p' ++ q). { apply (counts_unique _ _ C). rewrite E. apply counts_app; assumption. }
    apply app_inv_tail in P. subst p'. pose proof (counts_front _ _ CA _ _ _ CW E) as <-. apply app_inv_head in E. symmetry. exact E. }
  split; intros (rest & D & K).
  - destruct (peg_rest _ _ _ _ D) as [w E]. rewrite app_length in K. destruct (tails _ _ _ _ E ltac:(lia)) as [_ <-].
    destruct (cmain_there _ _ _ C D) as (r' & D' & R). inversion R as [| |? rest' ? CR]; subst. exists b. rewrite (X rest' D' CR) in D'. split; [exact D'|]. rewrite app_length. reflexivity.
  - destruct (peg_rest _ _ _ _ D) as [w E]. rewrite app_length in K. destruct (tails _ _ _ _ E ltac:(lia)) as [_ <-].
    destruct (cmain_back _ _ _ C D) as (r & D' & R). inversion R as [| |? ? zrest CR]; subst. exists q.
    assert (Q : zrest = q) by (exact (counts_unique _ _ CR _ CB)). subst zrest. split; [exact D'|]. rewrite app_length. reflexivity.
Qed.

Lemma between_words : forall s z m k, counts_as ws s z -> aborts rs' s m k -> exists a b p q, s = a ++ b /\ z = p ++ q /\ counts_as ws a p /\ counts_as ws b q /\ k = length a.
Proof.
  intros s z m k C H. destruct (counts_ascii _ _ C) as [AS _]. apply (parse_abort_iff _ rs' m k sane_coded AS) in H. destruct H as (rest & D & K).
  destruct (goes_wordy ws (grammar_of rs) (grammar_of rs') get_coded _ _ _ D (RuleName main) eq_refl) as (w & E & [p' CW]).
  destruct (cmain_back _ _ _ C D) as (r & D' & R). inversion R as [| |? ? zrest CR]; subst.
  exists w, rest, p', zrest. split; [reflexivity|]. split; [exact (counts_unique _ _ C _ (counts_app ws _ _ _ _ CW CR))|]. split; [exact CW|]. split; [exact CR|]. rewrite app_length in K. lia.
Qed.

Lemma ccalls_there : forall L, (forall n e l, rules_get rs n = Some e -> has_atom (Literal l) e -> length l <= L) ->
  forall s z d d' fuel fuel', counts_as ws s z -> parse_with_debug fuel z rs d <> Fuel -> parse_with_debug fuel' s rs' d' <> Fuel ->
  parse_calls fuel' s rs' d' <= (L + 1) * (length ws + 1) * parse_calls fuel z rs d.
Proof.
  intros L LL s z d d' fuel fuel' C NF NF'. destruct (counts_ascii _ _ C) as [AS AZ].
  pose proof (expr_counts rs SR (S fuel) (status_init_debug z d) (RuleName main) Logic.I (inv_init _ d)) as R.
  change (tally Nat.add rs (S fuel) (status_init_debug z d) (RuleName main)) with (S (parse_calls fuel z rs d)) in R.
  change (it_parsing (status_init_debug z d)) with z in R.
  set (o := ends (parse_expr rs (S fuel) (status_init_debug z d) (RuleName main))) in R.
  assert (N : o <> OC).
  { unfold o. rewrite expression_parse_expr. pose proof (parse_no_panic fuel z rs d AZ) as NP. rewrite parse_unfold in NF, NP.
    destruct (expression_parse rs fuel (status_init_debug z d)) as [[st nd]|er| |]; cbn [bind ends] in *; [discriminate| |congruence|congruence].
    destruct (is_critical (e_priority er)); discriminate. }
  clearbody o. assert (LG : forall n e, grammar_of rs n = Some e -> lits L e) by (intros n e E l X; exact (LL n e l E X)).
  remember (S (parse_calls fuel z rs d)) as k eqn:K. remember (RuleName main) as y eqn:Y.
  destruct R; try discriminate.
  - injection Y as ->. injection K as ->.
    destruct (proj1 (c_costs ws (grammar_of rs) (grammar_of rs') PL get_coded L LG) _ _ _ _ R s C (LG _ _ H)) as (o' & k' & K' & RE & B).
    assert (CC : costs (grammar_of rs') (RuleName main) s o' (S k')) by (apply (c_rule _ main (coded ws e)); [unfold grammar_of in *; rewrite get_coded, H; reflexivity|exact K']).
    assert (N' : o' <> OC) by (intros ->; inversion RE; subst; contradiction).
    pose proof (parse_calls_run rs' s fuel' d' o' (S k') sane_coded AS NF' CC N'). unfold FC in B. lia.
  - injection Y as ->. injection K as K. assert (CC : costs (grammar_of rs') (RuleName main) s OA 1).
    { apply c_missing; [unfold grammar_of in *; rewrite get_coded, H; reflexivity|left; reflexivity]. }
    pose proof (parse_calls_run rs' s fuel' d' OA 1 sane_coded AS NF' CC ltac:(discriminate)). lia.
Qed.

End Api.
