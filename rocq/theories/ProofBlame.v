(** Where a syntax error of a grammar text can stand, when the text begins with a well written one. *)
From Verif Require Import Base ModelAst ModelParser ModelPegRules ModelPeg SpecApi SpecPeg SpecPos SpecSyntax SpecReport SpecPegApi SpecLocal
  ProofParser ProofEngine ProofConsume PegTools PegNames PegLeaf ProofPegInv ProofPegBuild ProofReport ProofPanic ProofLook ProofPegApi ProofText ProofLocal.

(* ------------------------------------------------------------------------------------------- *)
(** * Reading reports *)

Lemma pand : forall G e es s R, pege G (And (e :: es)) s R ->
  (exists ts s1 p t r, pege G e s (EMatch ts s1 p t) /\ pege G (And es) s1 r /\ R = after ts p t r) \/ (pege G e s R /\ estops R).
Proof.
  intros G e es s R H. inversion H as [| | | | | | | | | | |e0 es0 s0 ts s1 p t r P1 P2|e0 es0 s0 r P E| | | | | | | | | |]; subst.
  - left. eauto 10.
  - right. auto.
Qed.
Lemma pand_nil : forall G s R, pege G (And []) s R -> R = EMatch [] s None [].
Proof. intros G s R H. inversion H; subst. reflexivity. Qed.
Lemma prule : forall G n e s R, G n = Some e -> pege G (RuleName n) s R -> exists r, pege G e s r /\ R = within n r.
Proof.
  intros G n e s R E H. inversion H as [| | | | | | | | | | | | | | | | | | | | |n0 e0 s0 r0 Hn P|n0 s0 Hn]; subst; [|congruence].
  rewrite E in Hn. injection Hn as <-. eauto.
Qed.
(** A part whose plain outcome is known. *)
Lemma pmatch : forall G e s R ts s1, pege G e s R -> peg G e s (PMatch ts s1) -> exists p t, R = EMatch ts s1 p t.
Proof.
  intros G e s R ts s1 H M. pose proof (peg_det _ _ _ _ (pege_plain _ _ _ _ H) _ M) as E. destruct R as [us rest p t|q|q]; try discriminate.
  cbn in E. injection E as -> ->. eauto.
Qed.
Lemma pfails : forall G e s R, pege G e s R -> peg G e s PFail -> exists q, R = EFail q.
Proof.
  intros G e s R H M. pose proof (peg_det _ _ _ _ (pege_plain _ _ _ _ H) _ M) as E. destruct R as [us rest p t|q|q]; try discriminate. eauto.
Qed.
Lemma pdecid : forall e s R, decid e -> pege PG e s R ->
  (exists q, R = EFail q) \/ exists ts s1 p t, R = EMatch ts s1 p t /\ peg PG e s (PMatch ts s1).
Proof.
  intros e s R D H. destruct (D s) as [F|(ts & s1 & M)]; [left; eapply pfails; eassumption|right].
  destruct (pmatch _ _ _ _ _ _ H M) as (p & t & ->). eauto 10.
Qed.
Lemma pand_m : forall G e es s R ts s1, pege G (And (e :: es)) s R -> peg G e s (PMatch ts s1) ->
  exists p t r, pege G (And es) s1 r /\ R = after ts p t r.
Proof.
  intros G e es s R ts s1 H M. destruct (pand _ _ _ _ _ H) as [(us & s2 & p & t & r & P1 & P2 & ->)|[P E]].
  - destruct (pmatch _ _ _ _ _ _ P1 M) as (p' & t' & Q). injection Q as -> -> -> ->. eauto.
  - destruct (pmatch _ _ _ _ _ _ P M) as (p' & t' & ->). destruct E.
Qed.

(** The result stops at a text that satisfies [P], or fails or aborts with at most [n] chars left. *)
Definition good (P : str -> Prop) (n : nat) (R : eresult) : Prop :=
  match R with EMatch _ rest _ _ => P rest | EFail q | EAbort q => length (r_rest q) <= n end.
Definition nofail (R : eresult) : Prop := match R with EFail _ => False | _ => True end.

Lemma good_after : forall P n ts p t R, good P n R -> good P n (after ts p t R).
Proof. intros P n ts p t [us rest p' t'|q|q] H; exact H. Qed.
Lemma good_within : forall P n k R, good P n R -> good P n (within k R).
Proof. intros P n k [us rest p' t'|q|q] H; exact H. Qed.
Lemma nofail_after : forall ts p t R, nofail R -> nofail (after ts p t R).
Proof. intros ts p t [us rest p' t'|q|q] H; exact H. Qed.
Lemma nofail_within : forall k R, nofail R -> nofail (within k R).
Proof. intros k [us rest p' t'|q|q] H; exact H. Qed.
Lemma good_weaken : forall (P Q : str -> Prop) n R, (forall s, P s -> Q s) -> good P n R -> good Q n R.
Proof. intros P Q n [us rest p' t'|q|q] W H; [apply W; exact H|exact H|exact H]. Qed.

Lemma small : forall G e s R n, pege G e s R -> length s <= n -> good (fun r => length r <= n) n R.
Proof.
  intros G e s R n H L. pose proof (pege_placed _ _ _ _ H) as P. destruct R as [us rest p t|q|q]; cbn in *.
  - destruct P as [[c ->] _]. rewrite app_length in L. lia.
  - destruct P as [c ->]. rewrite app_length in L. lia.
  - destruct P as [c ->]. rewrite app_length in L. lia.
Qed.

(** Parts after a part with a good result. *)
Lemma pand_good : forall G e es s R n (P Q : str -> Prop), pege G (And (e :: es)) s R ->
  (forall R1, pege G e s R1 -> good P n R1) ->
  (forall s1 R2, P s1 -> pege G (And es) s1 R2 -> good Q n R2) -> good Q n R.
Proof.
  intros G e es s R n P Q H H1 H2. destruct (pand _ _ _ _ _ H) as [(ts & s1 & p & t & r & P1 & P2 & ->)|[P1 E]].
  - apply good_after. apply (H2 s1); [exact (H1 _ P1)|exact P2].
  - pose proof (H1 _ P1) as K. destruct R as [us rest p t|q|q]; [destruct E|exact K|exact K].
Qed.
Lemma pand_last_good : forall G e s R n (P : str -> Prop), pege G (And [e]) s R -> (forall R1, pege G e s R1 -> good P n R1) -> good P n R.
Proof.
  intros G e s R n P H H1. apply (pand_good G e [] s R n P P H H1). intros s1 R2 K P2. apply pand_nil in P2. subst R2. exact K.
Qed.
Lemma pand_last_nofail : forall G e s R, pege G (And [e]) s R -> (forall R1, pege G e s R1 -> nofail R1) -> nofail R.
Proof.
  intros G e s R H H1. destruct (pand _ _ _ _ _ H) as [(ts & s1 & p & t & r & P1 & P2 & ->)|[P1 E]].
  - apply pand_nil in P2. subst r. exact I.
  - exact (H1 _ P1).
Qed.

(** Repetitions that need no turn do not fail. *)
Lemma rep_nofail : forall G e mx s R, pege G (Repeat e 0 mx) s R -> nofail R.
Proof.
  intros G e mx s R H. remember (Repeat e 0 mx) as x eqn:X. revert mx X.
  induction H; intros mx' X; try discriminate X; try exact I.
  - injection X as -> -> ->. apply nofail_after. apply (IHpege2 _ eq_refl).
  - injection X as -> -> ->. lia.
Qed.

Section Blame.
(** The end of a rule, blanks, and a text [u] that does not begin with a blank and does not turn the last name
    before it into the name of a definition. *)
Variables (re bl u : str).
Hypothesis Re : rule_end re.
Hypothesis Bl : blank bl.
Hypothesis Cu : clean u.
Hypothesis Su : forall c r, u = c :: r -> c <> 61%N /\ c <> 123%N.

Let z : str := re ++ bl ++ u.
Let n : nat := length u.
Let stops (r : str) : Prop := r = z \/ length r <= n.

Lemma z_blank : z = (re ++ bl) ++ u /\ blank (re ++ bl).
Proof. split; [apply app_assoc|]. apply blank_app; [apply end_blank; exact Re|exact Bl]. Qed.
Lemma z_follow : item_follow z.
Proof.
  destruct re as [|c x] eqn:E; [destruct (end_nonempty [] Re eq_refl)|]. exists c, (x ++ bl ++ u). split; [reflexivity|].
  exact (blank_stop _ _ _ (end_blank _ Re) eq_refl).
Qed.
Lemma z_no_eq : forall b c r, blank b -> (c = 61%N \/ c = 123%N) -> z <> b ++ c :: r.
Proof.
  intros b c r B Hc E. destruct z_blank as [E1 B1]. rewrite E1 in E.
  destruct (blank_unique _ _ _ _ B1 Cu B (clean_eq_brace c r Hc) E) as [_ Q]. destruct (Su c r Q). destruct Hc; contradiction.
Qed.

(** A further element after the last one. *)
Lemma cont_stops : forall R, pege PG cont z R -> good (fun r => length r <= n) n R \/ exists q, R = EFail q.
Proof.
  intros R H. unfold cont in H. destruct (decid_one z) as [F|(t1 & s1 & M1)].
  { right. eapply pfails; [exact H|]. apply mk_and_fail1. exact F. }
  destruct (decid_blank s1) as [F|(t2 & s2 & M2)].
  { right. eapply pfails; [exact H|]. eapply mk_and_fail; [exact M1|]. apply mk_and_fail1. exact F. }
  destruct (sep_fwd _ _ _ _ _ M1 M2) as (sp & k1 & k2 & Sp & E & _ & _ & C).
  destruct z_blank as [E1 B1]. rewrite E1 in E. destruct (blank_unique _ _ _ _ B1 Cu (sep_blank sp Sp) C E) as [_ <-].
  destruct (pand_m _ _ _ _ _ _ _ H M1) as (p1 & tr1 & r1 & H1 & ->). destruct (pand_m _ _ _ _ _ _ _ H1 M2) as (p2 & tr2 & r2 & H2 & ->).
  left. apply good_after. apply good_after. eapply small; [exact H2|]. apply le_n.
Qed.

Lemma conts_stop : forall R, pege PG (Repeat cont 0 None) z R -> good stops n R.
Proof.
  intros R H. inversion H as [| | | | | | | | | | | | | | | | |e0 mn mx s0 ts s1 p t r0 _ P1 P2|e0 mx s0 q _ P|e0 mn mx s0 q _ Lt P|e0 mn mx s0 q _ P| |]; subst.
  - apply good_after. destruct (cont_stops _ P1) as [K|(q & K)]; [|discriminate]. cbn in K.
    eapply good_weaken; [|eapply small; [exact P2|exact K]]. intros s L. right. exact L.
  - left. reflexivity.
  - lia.
  - destruct (cont_stops _ P) as [K|(q' & K)]; [exact K|discriminate].
Qed.

(** The first unit of a sequence that begins with a parenthesis is read alone. *)
Lemma paren_unit : forall r es, seq_text r es -> forall w y s7, r ++ z = 40%N :: w ->
  peg PG (RuleName (s_ "atom_or_par")) (r ++ z) (PMatch [y] s7) -> exists c, s7 = c ++ z.
Proof.
  intros r es H w y s7 E M.
  assert (I : forall t e x, item_text t e -> item_follow (x ++ z) -> t ++ x ++ z = 40%N :: w ->
    peg PG (RuleName (s_ "atom_or_par")) (t ++ x ++ z) (PMatch [y] s7) -> exists c, s7 = c ++ z).
  { clear E M. intros t e x Ht F E M. destruct expr_build as (UB & _).
    destruct Ht as [t e Ht|t e Ht|t e Ht|t e Ht|t e Ht].
    - destruct (UB t e Ht (x ++ z) (item_unit_follow _ F)) as (k & M2 & _). pose proof (peg_det _ _ _ _ M _ M2) as Q. injection Q as _ ->. eauto.
    - rewrite <- app_assoc in M. destruct (UB t e Ht (s_ "*" ++ x ++ z)) as (k & M2 & _); [apply stop_name; auto 10|].
      pose proof (peg_det _ _ _ _ M _ M2) as Q. injection Q as _ ->. exists (s_ "*" ++ x). reflexivity.
    - rewrite <- app_assoc in M. destruct (UB t e Ht (s_ "+" ++ x ++ z)) as (k & M2 & _); [apply stop_name; auto 10|].
      pose proof (peg_det _ _ _ _ M _ M2) as Q. injection Q as _ ->. exists (s_ "+" ++ x). reflexivity.
    - rewrite <- app_assoc in M. destruct (UB t e Ht (s_ "?" ++ x ++ z)) as (k & M2 & _); [apply stop_name; auto 10|].
      pose proof (peg_det _ _ _ _ M _ M2) as Q. injection Q as _ ->. exists (s_ "?" ++ x). reflexivity.
    - discriminate. }
  destruct H as [t v (b1 & b2 & l & b3 & _ & _ & _ & _ & ->)|t e H _|t e sp r es H Sp Hr _].
  - discriminate.
  - exact (I t e [] H z_follow E M).
  - rewrite <- !app_assoc in E, M. apply (I t e (sp ++ r) H); rewrite <- ?app_assoc; [apply sep_follow; exact Sp|exact E|exact M].
Qed.

(** [error] at the last element. *)
Lemma error_stops : forall t e R, item_text t e -> pege PG (RuleName (s_ "error")) (t ++ z) R ->
  (exists q, R = EFail q) \/ good stops n R.
Proof.
  intros t e R H D. destruct (pdecid _ _ _ decid_error D) as [K|(ts & s1 & p & tr & -> & M)]; [left; exact K|right]. cbn. right.
  destruct (error_item t e z H z_follow _ _ M) as (-> & b & s & B & Ez).
  eapply inv_nt in M; [|exact g_error]. destruct M as (k & -> & M). cbn in M.
  apply inv_and_cons in M. destruct M as (t1 & s2 & t2 & -> & M1 & M). apply inv_and_cons in M. destruct M as (t3 & s3 & t4 & -> & M2 & M).
  apply inv_lit in M1. destruct M1 as [_ E]. apply app_inv_head in E. subst s2. apply blank_fwd in M2. destruct M2 as (b' & k' & B' & E' & -> & C').
  destruct z_blank as [E1 B1]. rewrite E1 in E'. destruct (blank_unique _ _ _ _ B1 Cu B' C' E') as [_ <-].
  apply peg_split in M. destruct M as (c & Eu). unfold n. rewrite Eu, app_length. lia.
Qed.

Lemma por2 : forall G a b s R, pege G (Or [a; b]) s R ->
  (pege G a s R /\ nofail R) \/ (exists q, pege G a s (EFail q) /\
     exists R2, pege G b s R2 /\ (R = R2 /\ nofail R2 \/ exists q2, R2 = EFail q2 /\ R = EFail (further (Some q) q2))).
Proof.
  intros G a b s R H. inversion H as [| | | | | | | | | | | | |es0 s0 r0 C| | | | | | | | |]; subst.
  inversion C as [| |e0 es1 s1 o r P F|e0 es1 s1 o q r P C2]; subst.
  - left. split; [exact P|]. destruct R; [exact I|apply F; exact I|exact I].
  - right. exists q. split; [exact P|]. inversion C2 as [| |e2 es2 s2 o2 r2 P2 F2|e2 es2 s2 o2 q2 r2 P2 C3]; subst.
    + exists R. split; [exact P2|]. left. split; [reflexivity|]. destruct R; [exact I|apply F2; exact I|exact I].
    + exists (EFail q2). split; [exact P2|]. right. exists q2. split; [reflexivity|]. inversion C3; subst. reflexivity.
Qed.

Lemma seq_no_def : forall r es, seq_text r es -> peg PG header (r ++ z) PFail.
Proof.
  intros r es Hr. destruct Hr as [t v (b1 & b2 & l & b3 & B1 & B2 & L & B3 & ->)|t e H _|t e sp0 r es H Sp0 Hr _].
  - apply nomatch_fails; [apply decid_header|]. intros ts r M. unfold header in M.
    apply inv_and_cons in M. destruct M as (t1 & s1 & t2 & -> & M1 & M). apply inv_and_cons in M. destruct M as (t3 & s2 & t4 & -> & M2 & M).
    apply inv_and_cons in M. destruct M as (t5 & s3 & t6 & -> & M3 & _). rewrite <- !app_assoc in M1.
    destruct (name_bwd (s_ "error") (b1 ++ s_ "(" ++ b2 ++ l ++ b3 ++ s_ ")" ++ z) error_is_name (proj1 (error_name_stop b1 _ B1))) as (x & Mn & _).
    pose proof (peg_det _ _ _ _ M1 _ Mn) as Q. injection Q as _ ->.
    destruct (blank_bwd b1 (s_ "(" ++ b2 ++ l ++ b3 ++ s_ ")" ++ z) B1) as [k1 Mb]; [apply clean_char; discriminate|].
    pose proof (peg_det _ _ _ _ M2 _ Mb) as Q. injection Q as _ ->.
    apply inv_or_cons in M3. destruct M3 as [M3|[_ M3]]; [apply inv_lit in M3; destruct M3 as [_ M3]; discriminate|].
    apply inv_or_cons in M3. destruct M3 as [M3|[_ M3]]; [apply inv_lit in M3; destruct M3 as [_ M3]; discriminate|destruct (inv_or_nil _ _ _ M3)].
  - apply (header_item t e z H z_follow). exact z_no_eq.
  - rewrite <- !app_assoc. apply (header_item t e _ H); [apply sep_follow; exact Sp0|].
    intros b c y B Hc E. destruct (seq_head r es Hr) as (d & w & -> & Hd).
    destruct (sep_item sp0 ((d :: w) ++ z) c y b Sp0 (expr_head_clean d _ Hd) B (clean_eq_brace c y Hc) E) as [_ Q]. injection Q as -> _.
    apply expr_head_no in Hd. destruct Hc; intuition congruence.
Qed.

Lemma seq_stops : forall t es, seq_text t es -> forall R, pege PG (RuleName (s_ "and")) (t ++ z) R -> good stops n R /\ nofail R.
Proof.
  intros t es H. induction H as [t v H|t e H|t e sp r es H Sp Hr IH NE]; intros R D.
  - destruct (seq_error t v z H) as (x & M & _). destruct (pmatch _ _ _ _ _ _ D M) as (p & tr & ->). split; [left; reflexivity|exact I].
  - destruct (prule _ _ _ _ _ g_and D) as (R1 & D1 & ->). cbn in D1. fold header in D1. fold cont in D1.
    enough (K : good stops n R1 /\ nofail R1) by (destruct K; split; [apply good_within|apply nofail_within]; assumption).
    destruct (por2 _ _ _ _ _ D1) as [[De Nf]|(q & De & R2 & D2 & K)].
    + destruct (error_stops t e R1 H De) as [(q & ->)|K]; [destruct Nf|auto].
    + destruct expr_build as (_ & IB & _). destruct (IB t e H z z_follow) as (x & M & _).
      destruct (pand_m _ _ _ _ _ _ _ D2 M) as (p & tr & r & Dr & ->).
      assert (Gr : good stops n r) by (eapply pand_last_good; [exact Dr|exact conts_stop]).
      assert (Nr : nofail r) by (eapply pand_last_nofail; [exact Dr|intros R3 D3; eapply rep_nofail; exact D3]).
      destruct K as [[-> _]|(q2 & K & _)]; [split; [apply good_after; exact Gr|apply nofail_after; exact Nr]|].
      pose proof (nofail_after [x] p tr r Nr) as X. rewrite K in X. destruct X.
  - rewrite <- !app_assoc in D. destruct (prule _ _ _ _ _ g_and D) as (R1 & D1 & ->). cbn in D1. fold header in D1. fold cont in D1.
    enough (K : good stops n R1 /\ nofail R1) by (destruct K; split; [apply good_within|apply nofail_within]; assumption).
    assert (Fe : peg PG (RuleName (s_ "error")) (t ++ sp ++ r ++ z) PFail).
    { apply (no_error_gen t e sp r es z H Sp Hr NE). intros y s7 w E M. eapply paren_unit; eassumption. }
    destruct (por2 _ _ _ _ _ D1) as [[De Nf]|(q & De & R2 & D2 & K)].
    { destruct (pfails _ _ _ _ De Fe) as (q & ->). destruct Nf. }
    destruct expr_build as (_ & IB & _). destruct (IB t e H (sp ++ r ++ z) (sep_follow sp _ Sp)) as (x & M & _).
    destruct (pand_m _ _ _ _ _ _ _ D2 M) as (p & tr & r2 & Dr & ->).
    assert (Cr : clean (r ++ z)) by (destruct (seq_head r es Hr) as (c & y & -> & Hc); apply expr_head_clean; exact Hc).
    destruct (sep_bwd sp (r ++ z) Sp Cr) as (k1 & s1 & k2 & M1 & M2).
    assert (Hh : peg PG header (r ++ z) PFail).
    { eapply seq_no_def; exact Hr. }
    assert (Cm : forall Rc, pege PG cont (sp ++ r ++ z) Rc -> good stops n Rc /\ nofail Rc).
    { intros Rc Dc. unfold cont in Dc. destruct (pand_m _ _ _ _ _ _ _ Dc M1) as (p1 & tr1 & r1 & H1 & ->).
      destruct (pand_m _ _ _ _ _ _ _ H1 M2) as (p2 & tr2 & r3 & H2 & ->).
      destruct (pand_m _ _ _ _ _ _ _ H2 (mk_not _ _ _ Hh)) as (p3 & tr3 & r4 & H3 & ->).
      split.
      - apply good_after, good_after, good_after. eapply pand_last_good; [exact H3|]. intros R4 D4. exact (proj1 (IH R4 D4)).
      - apply nofail_after, nofail_after, nofail_after. eapply pand_last_nofail; [exact H3|]. intros R4 D4. exact (proj2 (IH R4 D4)). }
    assert (Rr : forall R3, pege PG (Repeat cont 0 None) (sp ++ r ++ z) R3 -> good stops n R3).
    { intros R3 D3. inversion D3 as [| | | | | | | | | | | | | | | | |e0 mn mx s0 ts s2 p3 t3 r0 _ P1 P2|e0 mx s0 q3 _ P|e0 mn mx s0 q3 _ _ P|e0 mn mx s0 q3 _ P| |]; subst.
      - apply good_after. destruct (Cm _ P1) as [[Ez|Lz] _]; [rewrite Ez in P2; apply conts_stop; exact P2|].
        eapply good_weaken; [|eapply small; [exact P2|exact Lz]]. intros s L. right. exact L.
      - destruct (proj2 (Cm _ P)).
      - destruct (proj2 (Cm _ P)).
      - exact (proj1 (Cm _ P)). }
    assert (Gr : good stops n r2) by (eapply pand_last_good; [exact Dr|exact Rr]).
    assert (Nr : nofail r2) by (eapply pand_last_nofail; [exact Dr|intros R3 D3; eapply rep_nofail; exact D3]).
    destruct K as [[-> _]|(q2 & K & _)]; [split; [apply good_after; exact Gr|apply nofail_after; exact Nr]|].
    pose proof (nofail_after [x] p tr r2 Nr) as X. rewrite K in X. destruct X.
Qed.

Lemma choice_stops : forall t xs, choice_text t xs -> forall R, pege PG (RuleName (s_ "or")) (t ++ z) R -> good stops n R /\ nofail R.
Proof.
  intros t xs H. induction H as [t es H|t es b1 b2 r xs H B1 B2 N Hr IH]; intros R D.
  - destruct (prule _ _ _ _ _ g_or D) as (R1 & D1 & ->). cbn in D1. fold chain in D1.
    enough (K : good stops n R1 /\ nofail R1) by (destruct K; split; [apply good_within|apply nofail_within]; assumption).
    assert (Ch : forall R2, pege PG (Repeat chain 0 (Some 1)) z R2 -> good stops n R2).
    { intros R2 D2. assert (One : forall Rc, pege PG chain z Rc -> good (fun r => length r <= n) n Rc).
      { intros Rc Dc. unfold chain in Dc. destruct z_blank as [E1 B0]. destruct (blank_bwd (re ++ bl) u B0 Cu) as [k M]. rewrite <- E1 in M.
        destruct (pand_m _ _ _ _ _ _ _ Dc M) as (p & tr & r1 & D3 & ->). apply good_after. eapply small; [exact D3|apply le_n]. }
      inversion D2 as [| | | | | | | | | | | | | | | | |e0 mn mx s0 ts s1 p t0 r0 _ P1 P2|e0 mx s0 q _ P|e0 mn mx s0 q _ Lt P|e0 mn mx s0 q _ P| |]; subst.
      - apply good_after. eapply good_weaken; [|eapply small; [exact P2|exact (One _ P1)]]. intros s L. right. exact L.
      - left. reflexivity.
      - lia.
      - exact (One _ P). }
    destruct (pand _ _ _ _ _ D1) as [(ts & s1 & p & tr & r & P1 & P2 & ->)|[P1 E]].
    + destruct (seq_stops t es H _ P1) as [K _]. cbn in K. split; [apply good_after|apply nofail_after].
      * eapply pand_last_good; [exact P2|]. intros R2 D2. destruct K as [->|L]; [apply Ch; exact D2|].
        eapply good_weaken; [|eapply small; [exact D2|exact L]]. intros s L'. right. exact L'.
      * eapply pand_last_nofail; [exact P2|]. intros R2 D2. eapply rep_nofail; exact D2.
    + exact (seq_stops t es H _ P1).
  - rewrite <- !app_assoc in D. destruct (prule _ _ _ _ _ g_or D) as (R1 & D1 & ->). cbn in D1. fold chain in D1.
    enough (K : good stops n R1 /\ nofail R1) by (destruct K; split; [apply good_within|apply nofail_within]; assumption).
    destruct (choice_head r xs Hr) as (c & y & Er & Hc).
    assert (N1 : hd_error (b2 ++ r ++ z) <> Some 47%N /\ hd_error (b2 ++ r ++ z) <> Some 42%N).
    { destruct b2 as [|d b2]; [rewrite Er; cbn; apply expr_head_no in Hc; split; intro E; injection E as ->; intuition congruence|].
      split; [exact N|]. cbn. intro E. injection E as ->. pose proof (blank_stop _ _ _ B2 eq_refl) as S. unfold stop_head in S. intuition discriminate. }
    destruct N1 as [N1 N2]. destruct expr_build as (_ & _ & SB & _).
    destruct (SB t es H (b1 ++ s_ "/" ++ b2 ++ r ++ z)) as (x & M & _).
    { exists b1, (47%N :: b2 ++ r ++ z). split; [reflexivity|]. split; [exact B1|]. split; [constructor; [reflexivity|exact N1|exact N2]|].
      destruct b1 as [|d b1]; [exists 47%N; eexists; split; [reflexivity|]; unfold stop_head; auto|].
      exists d; eexists; split; [reflexivity|]. exact (blank_stop _ _ _ B1 eq_refl). }
    destruct (blank_bwd b1 (s_ "/" ++ b2 ++ r ++ z) B1 ltac:(apply clean_slash; assumption)) as [k1 M1].
    destruct (blank_bwd b2 (r ++ z) B2 ltac:(rewrite Er; apply expr_head_clean; exact Hc)) as [k2 M2].
    destruct (pand_m _ _ _ _ _ _ _ D1 M) as (p & tr & r1 & D2 & ->).
    assert (One : forall Rc, pege PG chain (b1 ++ s_ "/" ++ b2 ++ r ++ z) Rc -> good stops n Rc /\ nofail Rc).
    { intros Rc Dc. unfold chain in Dc. destruct (pand_m _ _ _ _ _ _ _ Dc M1) as (p1 & tr1 & r2 & D3 & ->).
      destruct (pand_m _ _ _ _ _ _ _ D3 (mk_lit PG (s_ "/") _ _ eq_refl)) as (p2 & tr2 & r3 & D4 & ->).
      destruct (pand_m _ _ _ _ _ _ _ D4 M2) as (p3 & tr3 & r4 & D5 & ->). split.
      - apply good_after, good_after, good_after. eapply pand_last_good; [exact D5|]. intros R4 E4. exact (proj1 (IH R4 E4)).
      - apply nofail_after, nofail_after, nofail_after. eapply pand_last_nofail; [exact D5|]. intros R4 E4. exact (proj2 (IH R4 E4)). }
    split; [apply good_after|apply nofail_after].
    + eapply pand_last_good; [exact D2|]. intros R2 D3.
      inversion D3 as [| | | | | | | | | | | | | | | | |e0 mn mx s0 ts s1 p0 t0 r0 _ P1 P2|e0 mx s0 q _ P|e0 mn mx s0 q _ Lt P|e0 mn mx s0 q _ P| |]; subst.
      * apply good_after. destruct (One _ P1) as [K _]. cbn in K. cbn in P2.
        inversion P2 as [| | | | | | | | | | | | | | | |e1 s2|e1 mn mx s2 ts1 s3 p1 t1 r1' Nx|e1 mx s2 q Nx|e1 mn mx s2 q Nx|e1 mn mx s2 q Nx| |]; subst; try congruence. exact K.
      * destruct (proj2 (One _ P)).
      * lia.
      * exact (proj1 (One _ P)).
    + eapply pand_last_nofail; [exact D2|]. intros R2 D3. eapply rep_nofail; exact D3.
Qed.

Lemma expr_stops : forall t e, expr_text t e -> forall R, pege PG (RuleName (s_ "expr")) (t ++ z) R -> good stops n R.
Proof.
  intros t e H R D. destruct H as [t xs H]. destruct (prule _ _ _ _ _ g_expr D) as (R1 & D1 & ->). apply good_within.
  exact (proj1 (choice_stops t xs H R1 D1)).
Qed.

(** * Definitions *)

Definition low (R : eresult) : Prop := good (fun r => length r <= n) n R.

Lemma tail_low : forall s R, stops s -> pege PG (And [RuleName (s_ "_eol"); RuleName (s_ "_")]) s R -> low R.
Proof.
  intros s R [->|L] D; [|eapply small; eassumption]. destruct (tail_bwd re bl u Re Bl Cu) as (k1 & s1 & k2 & M1 & M2). fold z in M1.
  destruct (pand_m _ _ _ _ _ _ _ D M1) as (p & tr & r & D1 & ->). apply good_after.
  eapply pand_last_good; [exact D1|]. intros R2 D2. destruct (pmatch _ _ _ _ _ _ D2 M2) as (p2 & t2 & ->). cbn. apply le_n.
Qed.

Lemma rule_low : forall k b1 b2 t e b R, rule_name k -> blank b1 -> blank b2 -> expr_text t e -> blank b ->
  pege PG one_def (b ++ k ++ b1 ++ s_ "=" ++ b2 ++ t ++ z) R -> low R.
Proof.
  intros k b1 b2 t e b R N B1 B2 W B D.
  destruct (name_head k N) as (c & y & En & Hc). destruct (expr_text_head t e W) as (c2 & y2 & Et & Hc2).
  destruct (blank_bwd b (k ++ b1 ++ s_ "=" ++ b2 ++ t ++ z) B) as [k0 M0]; [rewrite En; apply sym_head_clean; exact Hc|].
  assert (Fn : unit_follow (b1 ++ s_ "=" ++ b2 ++ t ++ z)).
  { destruct b1 as [|d b1]; apply stop_name; [auto 10|]. left. exact (blank_stop _ _ _ B1 eq_refl). }
  destruct (name_bwd k _ N (proj1 Fn)) as (xn & Mn & Tn).
  destruct (blank_bwd b1 (s_ "=" ++ b2 ++ t ++ z) B1) as [k1 M1]; [apply clean_char; discriminate|].
  destruct (blank_bwd b2 (t ++ z) B2) as [k2 M2]; [rewrite Et; apply expr_head_clean; exact Hc2|].
  assert (Rl : forall R1, pege PG (RuleName (s_ "rule")) (b ++ k ++ b1 ++ s_ "=" ++ b2 ++ t ++ z) R1 -> low R1).
  { intros R1 D1. destruct (prule _ _ _ _ _ g_rule D1) as (R2 & D2 & ->). cbn in D2. apply good_within.
    destruct (pand_m _ _ _ _ _ _ _ D2 M0) as (p3 & t3 & r3 & D3 & ->). apply good_after.
    destruct (pand_m _ _ _ _ _ _ _ D3 Mn) as (p4 & t4 & r4 & D4 & ->). apply good_after.
    destruct (pand_m _ _ _ _ _ _ _ D4 M1) as (p5 & t5 & r5 & D5 & ->). apply good_after.
    destruct (pand_m _ _ _ _ _ _ _ D5 (mk_lit PG (s_ "=") _ _ eq_refl)) as (p6 & t6 & r6 & D6 & ->). apply good_after.
    destruct (pand_m _ _ _ _ _ _ _ D6 M2) as (p7 & t7 & r7 & D7 & ->). apply good_after.
    eapply pand_good; [exact D7|intros R8 D8; eapply expr_stops; [exact W|exact D8]|]. intros s1 R9 K D9. eapply tail_low; eassumption. }
  destruct (por2 _ _ _ _ _ D) as [[D1 _]|(q & D1 & R2 & D2 & K)]; [exact (Rl _ D1)|]. pose proof (Rl _ D1) as Lq. cbn in Lq.
  assert (Fm : exists q2, R2 = EFail q2).
  { destruct (prule _ _ _ _ _ g_module D2) as (R3 & D3 & ->). cbn in D3.
    enough (X : exists q2, R3 = EFail q2) by (destruct X as (q2 & ->); eexists; reflexivity).
    destruct (pand_m _ _ _ _ _ _ _ D3 M0) as (p4 & t4 & r4 & D4 & ->).
    enough (X : exists q2, r4 = EFail q2) by (destruct X as (q2 & ->); eexists; reflexivity).
    destruct (decid_rule _ _ g_mod_name decid_symbol (k ++ b1 ++ s_ "=" ++ b2 ++ t ++ z)) as [F|(ts & s1 & Mm)].
    { eapply pfails; [exact D4|]. apply mk_and_fail1. exact F. }
    destruct (decid_blank s1) as [F|(ts2 & s2 & Mb)].
    { eapply pfails; [exact D4|]. eapply mk_and_fail; [exact Mm|]. apply mk_and_fail1. exact F. }
    destruct (decid_lit (s_ "{") s2) as [F|(ts3 & s3 & Ml)].
    { eapply pfails; [exact D4|]. eapply mk_and_fail; [exact Mm|]. eapply mk_and_fail; [exact Mb|]. apply mk_and_fail1. exact F. }
    exfalso. eapply inv_nt in Mm; [|exact g_mod_name]. destruct Mm as (kk & _ & Mm). cbn in Mm. apply symbol_fwd in Mm.
    destruct Mm as (m & xm & _ & _ & Sm & E & _). apply blank_fwd in Mb. destruct Mb as (bb & kb & Bb & Es & _ & Cb).
    apply inv_lit in Ml. destruct Ml as [_ ->]. subst s1.
    assert (Fm : unit_follow (bb ++ s_ "{" ++ s3)).
    { destruct bb as [|d bb]; apply stop_name; [auto 10|]. left. exact (blank_stop _ _ _ Bb eq_refl). }
    destruct (name_bwd m _ (or_introl (dt_one m Sm)) (proj1 Fm)) as (x2 & Mn2 & _). rewrite <- E in Mn2.
    pose proof (peg_det _ _ _ _ Mn _ Mn2) as Q. injection Q as _ Q.
    destruct (blank_unique b1 (s_ "=" ++ b2 ++ t ++ z) bb (s_ "{" ++ s3) B1 ltac:(apply clean_char; discriminate) Bb Cb Q) as [_ Q2]. discriminate. }
  destruct Fm as (q2 & ->). destruct K as [[-> []]|(q3 & Q & ->)]. injection Q as <-. unfold low, good, further.
  destruct (Nat.ltb_spec (length (r_rest q)) (length (r_rest q2))) as [Lt|Ge]; lia.
Qed.

Lemma module_low : forall m b1 b2 t l b R, symbol m -> blank b1 -> blank b2 -> defs_text t l -> blank b ->
  pege PG one_def (b ++ m ++ b1 ++ s_ "{" ++ b2 ++ t ++ s_ "}" ++ z) R -> low R.
Proof.
  intros m b1 b2 t l b R S B1 B2 W B D.
  enough (M : exists x, peg PG one_def (b ++ m ++ b1 ++ s_ "{" ++ b2 ++ t ++ s_ "}" ++ z) (PMatch [x] u)).
  { destruct M as (x & M). destruct (pmatch _ _ _ _ _ _ D M) as (p & tr & ->). cbn. apply le_n. }
  pose proof S as (c & y & Em & Hc & _).
  destruct (blank_bwd b (m ++ b1 ++ s_ "{" ++ b2 ++ t ++ s_ "}" ++ z) B) as [k0 M0]; [rewrite Em; apply sym_head_clean; left; exact Hc|].
  assert (Fn : unit_follow (b1 ++ s_ "{" ++ b2 ++ t ++ s_ "}" ++ z)).
  { destruct b1 as [|d b1]; apply stop_name; [auto 10|]. left. exact (blank_stop _ _ _ B1 eq_refl). }
  destruct (symbol_bwd m _ S (proj1 (proj1 Fn))) as (xm & Mm & Tm).
  destruct (name_bwd m _ (or_introl (dt_one m S)) (proj1 Fn)) as (xn & Mn & _).
  destruct (blank_bwd b1 (s_ "{" ++ b2 ++ t ++ s_ "}" ++ z) B1) as [k1 M1]; [apply clean_char; discriminate|].
  assert (Ct : clean (t ++ s_ "}" ++ z)).
  { assert (Hd : exists ts r, peg PG header (t ++ s_ "}" ++ z) (PMatch ts r)).
    { inversion W as [? d2 H2|t2 d2 r2 l2 H2 _]; subst; [|rewrite <- app_assoc]; eapply def_header; exact H2. }
    destruct Hd as (ts & r & Hd). eapply goes_clean. eapply (go_header true). exact Hd. }
  destruct (blank_bwd b2 (t ++ s_ "}" ++ z) B2 Ct) as [k2 M2].
  destruct (proj2 def_build t l W [] (s_ "}" ++ z) bl_nil) as (x & s1 & ls & Mx & St & T); [right; eexists; reflexivity|]. cbn [app] in Mx.
  assert (Mg : peg PG (RuleName (s_ "grammar")) (t ++ s_ "}" ++ z) (PMatch [Rule (s_ "grammar") (x :: concat ls)] (s_ "}" ++ z))).
  { eapply mk_rule; [exact g_grammar|]. cbn. fold one_def. change (x :: concat ls) with ([x] ++ concat ls). eapply mk_plus; [exact Mx|exact St|].
    apply one_def_stops. right. eexists; reflexivity. }
  destruct (blank_bwd [] (s_ "}" ++ z) bl_nil) as [k3 M3]; [apply clean_char; discriminate|]. cbn [app] in M3.
  destruct (tail_bwd re bl u Re Bl Cu) as (k4 & s4 & k5 & M4 & M5). fold z in M4.
  eexists. apply peg_or_next.
  { eapply mk_rule_fail; [exact g_rule|]. cbn. eapply mk_and_fail; [exact M0|]. eapply mk_and_fail; [exact Mn|]. eapply mk_and_fail; [exact M1|].
    apply mk_and_fail1. apply peg_lit_fail. intros ? E. discriminate. }
  apply mk_or1. eapply mk_rule; [exact g_module|]. cbn.
  eapply mk_and; [exact M0|]. eapply mk_and; [eapply mk_rule; [exact g_mod_name|exact Mm]|]. eapply mk_and; [exact M1|].
  eapply mk_and; [apply mk_lit; reflexivity|]. eapply mk_and; [exact M2|]. eapply mk_and; [exact Mg|]. eapply mk_and; [exact M3|].
  eapply mk_and; [apply mk_lit; reflexivity|]. eapply mk_and; [exact M4|]. apply peg_and_last. exact M5.
Qed.
End Blame.

(** The last definition, followed by any text that does not begin with blanks, [=] or [{]. *)
Lemma def_low : forall t d, def_text t d -> forall u, clean u -> (forall c r, u = c :: r -> c <> 61%N /\ c <> 123%N) ->
  forall b b0 R, blank b -> blank b0 -> pege PG one_def (b ++ t ++ b0 ++ u) R -> good (fun r => length r <= length u) (length u) R.
Proof.
  intros t d H u C Su b b0 R B B0 D. destruct H as [k b1 b2 t e r b3 N B1 B2 W Re B3|m b1 b2 t l r b3 S B1 B2 W Re B3].
  - apply (rule_low r (b3 ++ b0) u Re (blank_app _ _ B3 B0) C Su k b1 b2 t e b R N B1 B2 W B). rewrite <- !app_assoc in *. exact D.
  - apply (module_low r (b3 ++ b0) u Re (blank_app _ _ B3 B0) C m b1 b2 t l b R S B1 B2 W B). rewrite <- !app_assoc in *. exact D.
Qed.

Lemma gives_up_before : forall G e mn s r ts p t pr d w, pege G (Repeat e mn None) s r -> gives_up (after ts p t r) pr d w -> gives_up r pr d w.
Proof.
  intros G e mn s r ts p t pr d w D U. destruct r as [us rest p' t'|q|q]; cbn [after] in U.
  - destruct (rep_pending _ _ _ _ _ D _ _ _ _ eq_refl) as [q ->]. inversion U; subst. apply (gu_more us c rest0 q t').
  - inversion U; subst. apply (gu_fail q).
  - inversion U; subst. apply (gu_abort q).
Qed.

Lemma turns_low : forall n mn s R p ds w, pege PG (Repeat one_def mn None) s R -> gives_up R p ds w ->
  (forall R1, pege PG one_def s R1 -> good (fun r => length r <= n) n R1) -> length w <= n.
Proof.
  intros n mn s R p ds w D U K.
  inversion D as [| | | | | | | | | | | | | | | | |e0 mn0 mx s0 ts s1 p1 t0 r0 _ P1 P2|e0 mx s0 q _ P|e0 mn0 mx s0 q _ Lt P|e0 mn0 mx s0 q _ P| |]; subst.
  - pose proof (K _ P1) as L. cbn in L. pose proof (gives_up_before _ _ _ _ _ _ _ _ _ _ _ P2 U) as U2.
    destruct (gives_up_placed _ _ _ _ _ (pege_placed _ _ _ _ P2) U2) as [c Ec]. rewrite Ec, app_length in L. lia.
  - pose proof (K _ P) as L. inversion U; subst. exact L.
  - pose proof (K _ P) as L. inversion U; subst. exact L.
  - pose proof (K _ P) as L. inversion U; subst. exact L.
Qed.

Lemma defs_low : forall t l, defs_text t l -> forall u, clean u -> (forall c r, u = c :: r -> c <> 61%N /\ c <> 123%N) ->
  forall mn b b0 R p ds w, blank b -> blank b0 -> pege PG (Repeat one_def mn None) (b ++ t ++ b0 ++ u) R -> gives_up R p ds w -> length w <= length u.
Proof.
  intros t l H u C Su. induction H as [t d H|t d r l H Hr IHr]; intros mn b b0 R p ds w B B0 D U.
  - eapply turns_low; [exact D|exact U|]. intros R1 D1. exact (def_low t d H u C Su b b0 R1 B B0 D1).
  - rewrite <- app_assoc in D.
    assert (Fr : def_follow (r ++ b0 ++ u)).
    { inversion Hr as [? d2 H2|t2 d2 r2 l2 H2 _]; subst; [destruct (def_header r d2 (b0 ++ u) H2) as (us & y2 & Mh)|rewrite <- app_assoc; destruct (def_header t2 d2 (r2 ++ b0 ++ u) H2) as (us & y2 & Mh)]; eapply dw_header; exact Mh. }
    destruct (proj1 def_build t d H b (r ++ b0 ++ u) B Fr) as (x & Mx & _).
    inversion D as [| | | | | | | | | | | | | | | | |e0 mn0 mx s0 ts s1 p1 t0 r0 _ P1 P2|e0 mx s0 q _ P|e0 mn0 mx s0 q _ Lt P|e0 mn0 mx s0 q _ P| |]; subst;
      try (destruct (pmatch _ _ _ _ _ _ P Mx) as (p' & t' & Q); discriminate).
    destruct (pmatch _ _ _ _ _ _ P1 Mx) as (p' & t' & Q). injection Q as -> -> -> ->.
    exact (IHr _ [] b0 _ _ _ _ bl_nil B0 P2 (gives_up_before _ _ _ _ _ _ _ _ _ _ _ P2 U)).
Qed.

Lemma split_blank : forall t, exists b u, blank b /\ clean u /\ t = b ++ u.
Proof.
  intro t. assert (M : exists ts rest, peg PG (RuleName (s_ "_")) t (PMatch ts rest)).
  { destruct (decid_blank t) as [F|M]; [|exact M]. exfalso. destruct (peg_pege _ _ _ _ F) as (R & D & E).
    destruct (prule _ _ _ _ _ g_blank D) as (R1 & D1 & ->). pose proof (rep_nofail _ _ _ _ _ D1) as K. destruct R1; cbn in E; [discriminate|destruct K|discriminate]. }
  destruct M as (ts & rest & M). apply blank_fwd in M. destruct M as (b & k & B & E & _ & C). eauto.
Qed.

(** The error is not before the end of the well written part. *)
Lemma blame : forall g l t er, ascii (g ++ t) -> grammar_text g l ->
  (forall b c r, blank b -> (c = 61%N \/ c = 123%N) -> t <> b ++ c :: r) ->
  SpecPegApi.answers (g ++ t) (Err (EParser er)) -> length g <= pn (e_pos er).
Proof.
  intros g l t er As (b & w & B & W & ->) N A. destruct (split_blank t) as (b0 & u & B0 & C & ->).
  destruct (proj1 (syntax_error_report _ _ As) A) as [f P].
  assert (NE : (b ++ w) ++ b0 ++ u <> []).
  { intro E. apply app_eq_nil in E. destruct E as [E _]. apply app_eq_nil in E. destruct E as [_ ->].
    inversion W as [? d2 H2|t2 d2 r2 l2 H2 _ E2]; subst; destruct (def_header _ _ [] H2) as (us & y2 & Mh);
      [exact (starts_nonempty _ _ _ Mh eq_refl)|apply app_eq_nil in E2; destruct E2 as [-> _]; exact (starts_nonempty _ _ _ Mh eq_refl)]. }
  destruct (proj1 (syntax_error_rep _ er As NE) (ex_intro _ f P)) as (R & p & d & z & D & U & ->).
  assert (Su : forall c r, u = c :: r -> c <> 61%N /\ c <> 123%N).
  { intros c r E. split; intros ->; [apply (N b0 61%N r B0)|apply (N b0 123%N r B0)]; auto; rewrite E; reflexivity. }
  rewrite <- app_assoc in D. pose proof (defs_low w l W u C Su 1 b b0 R p d z B B0 D U) as L.
  unfold error_of; cbn [e_pos]. unfold pos_of; cbn [pn]. unfold before. rewrite firstn_length, !app_length. lia.
Qed.
