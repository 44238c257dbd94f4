(** What lies beyond the chars a parse looks at does not matter. *)
From Coq Require Import Relations.Operators_Properties.
From Verif Require Import Base ModelAst ModelParser SpecPeg SpecPos SpecApi SpecReport SpecHang SpecLook.
From Verif Require Import PegTools ProofReport ProofHang SpecLook Examples.

(** * Two results that only differ in the tail of the text *)

Definition rep_swap (x y q : str) (r r' : report) : Prop :=
  exists d m t p, q = p ++ m /\ r = Report d (m ++ x) t /\ r' = Report d (m ++ y) t.

Definition opt_swap (x y q : str) (o o' : option report) : Prop :=
  match o, o' with
  | None, None => True
  | Some r, Some r' => rep_swap x y q r r'
  | _, _ => False
  end.

Definition res_swap (x y q : str) (r r' : eresult) : Prop :=
  match r, r' with
  | EMatch ts rest p t, EMatch ts' rest' p' t' =>
      ts = ts' /\ t = t' /\ opt_swap x y q p p' /\ exists pre m, q = pre ++ m /\ rest = m ++ x /\ rest' = m ++ y
  | EFail r1, EFail r2 => rep_swap x y q r1 r2
  | EAbort r1, EAbort r2 => rep_swap x y q r1 r2
  | _, _ => False
  end.

Section Swap.
Variables x y : str.

Lemma rep_swap_shift : forall q r r' t, rep_swap x y q r r' -> rep_swap x y q (shift t r) (shift t r').
Proof.
  intros q r r' t (d & m & u & p & Q & -> & ->). exists d, m, (t ++ u), p. split; [exact Q|]. split; reflexivity.
Qed.

Lemma rep_swap_up : forall q p r r', rep_swap x y q r r' -> rep_swap x y (p ++ q) r r'.
Proof.
  intros q p r r' (d & m & u & p' & -> & -> & ->). exists d, m, u, (p ++ p'). rewrite app_assoc. split; [reflexivity|]. split; reflexivity.
Qed.

Lemma opt_swap_up : forall q p o o', opt_swap x y q o o' -> opt_swap x y (p ++ q) o o'.
Proof. intros q p [r|] [r'|] H; cbn in *; auto. apply rep_swap_up. exact H. Qed.

Lemma opt_swap_shift : forall q t o o', opt_swap x y q o o' -> opt_swap x y q (option_map (shift t) o) (option_map (shift t) o').
Proof. intros q t [r|] [r'|] H; cbn in *; auto. apply rep_swap_shift. exact H. Qed.

Lemma res_swap_up : forall q p r r', res_swap x y q r r' -> res_swap x y (p ++ q) r r'.
Proof.
  intros q p [ts rest o t|r1|r1] [ts' rest' o' t'|r2|r2] H; cbn in *; try contradiction; try (apply rep_swap_up; exact H).
  destruct H as (T & U & O & pre & m & -> & R & R'). split; [exact T|]. split; [exact U|].
  split; [apply opt_swap_up; exact O|]. exists (p ++ pre), m. rewrite app_assoc. split; [reflexivity|]. split; [exact R|exact R'].
Qed.

Lemma res_swap_after : forall q ts o o' t r r', opt_swap x y q o o' -> res_swap x y q r r' ->
  res_swap x y q (after ts o t r) (after ts o' t r').
Proof.
  intros q ts o o' t [us rest p u|r1|r1] [us' rest' p' u'|r2|r2] O H; cbn in *; try contradiction; try (apply rep_swap_shift; exact H).
  destruct H as (-> & -> & P & E). split; [reflexivity|]. split; [reflexivity|]. split; [|exact E].
  destruct p as [p|], p' as [p'|]; cbn in *; try contradiction; [apply rep_swap_shift; exact P|exact O].
Qed.

Lemma res_swap_within : forall q n r r', res_swap x y q r r' -> res_swap x y q (within n r) (within n r').
Proof.
  intros q n [us rest p u|r1|r1] [us' rest' p' u'|r2|r2] H; cbn in *; try contradiction; try (apply rep_swap_shift; exact H).
  destruct H as (-> & -> & P & E). split; [reflexivity|]. split; [reflexivity|]. split; [|exact E]. apply opt_swap_shift. exact P.
Qed.

Lemma res_swap_stops : forall q r r', res_swap x y q r r' -> estops r -> estops r'.
Proof. intros q [us rest p u|r1|r1] [us' rest' p' u'|r2|r2] H; cbn in *; tauto. Qed.

Lemma res_swap_fail : forall q r r', res_swap x y q r r' -> ~ is_fail r -> ~ is_fail r'.
Proof. intros q [us rest p u|r1|r1] [us' rest' p' u'|r2|r2] H; cbn in *; tauto. Qed.

Lemma further_swap : forall q o o' r r', opt_swap x y q o o' -> rep_swap x y q r r' ->
  rep_swap x y q (further o r) (further o' r').
Proof.
  intros q [p|] [p'|] r r' O R; cbn [opt_swap further] in *; try contradiction; [|exact R].
  destruct O as (d1 & m1 & t1 & q1 & Q1 & -> & ->). destruct R as (d2 & m2 & t2 & q2 & Q2 & -> & ->). cbn [r_rest].
  rewrite !app_length.
  replace (length m1 + length x <? length m2 + length x) with (length m1 <? length m2)
    by (destruct (Nat.ltb_spec (length m1) (length m2)), (Nat.ltb_spec (length m1 + length x) (length m2 + length x)); auto; lia).
  replace (length m1 + length y <? length m2 + length y) with (length m1 <? length m2)
    by (destruct (Nat.ltb_spec (length m1) (length m2)), (Nat.ltb_spec (length m1 + length y) (length m2 + length y)); auto; lia).
  destruct (length m1 <? length m2); [exists d1, m1, t1, q1|exists d2, m2, t2, q2]; (split; [assumption|]; split; reflexivity).
Qed.

(** * Literals *)

Lemma compared_same : forall l q, compared l (q ++ x) <= length q -> compared l (q ++ y) = compared l (q ++ x).
Proof.
  induction l as [|c l IH]; intros q L; [destruct (q ++ x), (q ++ y); reflexivity|].
  destruct q as [|d q]; cbn [app length compared] in *.
  - destruct x as [|d s]; [lia|]. destruct (N.eqb c d); lia.
  - destruct (N.eqb c d); [|reflexivity]. f_equal. apply IH. lia.
Qed.

Lemma looks_same : forall a q, looks a (q ++ x) <= length q -> looks a (q ++ y) = looks a (q ++ x).
Proof. intros a q L. destruct a; cbn [looks] in *; try reflexivity. apply compared_same. exact L. Qed.


Lemma compared_prefix : forall l q rest, compared l (q ++ x) <= length q -> q ++ x = l ++ rest -> exists m, q = l ++ m /\ rest = m ++ x.
Proof.
  induction l as [|c l IH]; intros q rest L E; cbn [app] in *.
  - exists q. split; [reflexivity|]. symmetry. exact E.
  - destruct q as [|d q]; cbn [app length] in *.
    + rewrite E in L. cbn [compared] in L. rewrite N.eqb_refl in L. lia.
    + injection E as -> E. cbn [compared] in L. rewrite N.eqb_refl in L.
      destruct (IH q rest ltac:(lia) E) as (m & -> & ->). exists m. split; reflexivity.
Qed.

Lemma compared_stops : forall l q rest, compared l (q ++ x) <= length q -> lit_stops l (q ++ x) rest ->
  exists pre m, q = pre ++ m /\ rest = m ++ x /\ lit_stops l (q ++ y) (m ++ y).
Proof.
  induction l as [|c l IH]; intros q rest L E; [inversion E|].
  destruct q as [|d q]; cbn [app length compared] in *.
  - destruct x as [|d s]; [lia|]. destruct (N.eqb c d); lia.
  - inversion E as [| c0 l0 d0 s0 D | c0 l0 s0 rest0 E0]; subst.
    + exists [d], q. split; [reflexivity|]. split; [reflexivity|]. apply ls_differ. exact D.
    + rewrite N.eqb_refl in L. destruct (IH q rest ltac:(lia) E0) as (pre & m & -> & -> & F).
      exists (d :: pre), m. split; [reflexivity|]. split; [reflexivity|]. cbn [app]. apply ls_same. exact F.
Qed.

(** * Every expression *)

Variable G : str -> option expr.

(** The pairs of tasks met on both texts: [B e q] for [e] where [q] and the tail remain. *)
Variable B : expr -> str -> Prop.
Hypothesis B_atom : forall a q, B (Simple a) q -> looks a (q ++ x) <= length q.
Hypothesis B_and : forall e es q, B (And (e :: es)) q -> B e q.
Hypothesis B_or : forall e es q, B (Or (e :: es)) q -> B e q.
Hypothesis B_not : forall e q, B (Not e) q -> B e q.
Hypothesis B_rep : forall e mn mx q, mx <> Some 0 -> B (Repeat e mn mx) q -> B e q.
Hypothesis B_rule : forall n e q, G n = Some e -> B (RuleName n) q -> B e q.
Hypothesis B_and_rest : forall e es p m ts, peg G e ((p ++ m) ++ x) (PMatch ts (m ++ x)) -> peg G e ((p ++ m) ++ y) (PMatch ts (m ++ y)) ->
  B (And (e :: es)) (p ++ m) -> B (And es) m.
Hypothesis B_or_rest : forall e es q, peg G e (q ++ x) PFail -> peg G e (q ++ y) PFail -> B (Or (e :: es)) q -> B (Or es) q.
Hypothesis B_rep_rest : forall e mn mx p m ts, mx <> Some 0 -> peg G e ((p ++ m) ++ x) (PMatch ts (m ++ x)) ->
  peg G e ((p ++ m) ++ y) (PMatch ts (m ++ y)) -> B (Repeat e mn mx) (p ++ m) -> B (Repeat e (pred mn) (option_map pred mx)) m.

Lemma swap_both :
  (forall e s r, pege G e s r -> forall q, s = q ++ x -> B e q ->
     exists r', pege G e (q ++ y) r' /\ res_swap x y q r r') /\
  (forall es s o r, choice G es s o r -> forall q, s = q ++ x -> B (Or es) q -> forall o', opt_swap x y q o o' ->
     exists r', choice G es (q ++ y) o' r' /\ res_swap x y q r r').
Proof.
  apply pege_choice_ind.
  - intros l rest q E B0. pose proof (B_atom _ _ B0) as L. cbn [looks] in L.
    destruct (compared_prefix l q rest L (eq_sym E)) as (m & -> & ->). rewrite <- app_assoc.
    eexists. split; [apply ee_lit_ok|]. cbn. repeat (split; [reflexivity || exact I|]). exists l, m. repeat split.
  - intros l s rest H q -> B0. pose proof (B_atom _ _ B0) as L. cbn [looks] in L.
    destruct (compared_stops l q rest L H) as (pre & m & Q & -> & F).
    eexists. split; [apply ee_lit_fail; exact F|]. cbn. exists (lit_msg l), m, [], pre. repeat split. exact Q.
  - intros cs rs c rest H q E B0. pose proof (B_atom _ _ B0) as L. cbn [looks] in L.
    destruct q as [|d q]; [cbn in L; lia|]. injection E as -> ->. cbn [app].
    eexists. split; [apply ee_class_ok; exact H|]. cbn. repeat (split; [reflexivity || exact I|]). exists [d], q. repeat split.
  - intros cs rs c rest H q E B0. pose proof (B_atom _ _ B0) as L. cbn [looks] in L.
    destruct q as [|d q]; [cbn in L; lia|]. injection E as -> ->. cbn [app].
    eexists. split; [apply ee_class_fail; exact H|]. exists (class_msg cs rs), q, [], [d]. repeat split.
  - intros cs rs q E B0. pose proof (B_atom _ _ B0) as L. cbn [looks] in L.
    destruct q; [cbn in L; lia|discriminate].
  - intros c rest q E B0. pose proof (B_atom _ _ B0) as L. cbn [looks] in L.
    destruct q as [|d q]; [cbn in L; lia|]. injection E as -> ->. cbn [app].
    eexists. split; [apply ee_dot_ok|]. cbn. repeat (split; [reflexivity || exact I|]). exists [d], q. repeat split.
  - intros q E B0. pose proof (B_atom _ _ B0) as L. cbn [looks] in L.
    destruct q; [cbn in L; lia|discriminate].
  - intros q E B0. pose proof (B_atom _ _ B0) as L. cbn [looks] in L.
    destruct q; [cbn in L; lia|discriminate].
  - intros c rest q E B0. pose proof (B_atom _ _ B0) as L. cbn [looks] in L.
    destruct q as [|d q]; [cbn in L; lia|]. injection E as -> ->. cbn [app].
    eexists. split; [apply ee_eof_fail|]. exists (s_ "expected EOF"), q, [], [d]. repeat split.
  - intros m s q -> B0. eexists. split; [apply ee_error|]. exists m, q, [], []. repeat split.
  - intros s q -> B0. eexists. split; [apply ee_and_nil|]. cbn. repeat (split; [reflexivity || exact I|]). exists [], q. repeat split.
  - intros e es s ts s1 p t r H1 IH1 H2 IH2 q -> B0.
    destruct (IH1 q eq_refl (B_and _ _ _ B0)) as (r1 & P1 & S1).
    destruct r1 as [ts' s1' p' t'|r1|r1]; cbn in S1; try contradiction.
    destruct S1 as (<- & <- & O & pre & m & -> & -> & ->).
    destruct (IH2 m eq_refl (B_and_rest _ _ _ _ _ (pege_plain G e _ _ H1) (pege_plain G e _ _ P1) B0)) as (r2 & P2 & S2).
    eexists. split; [eapply ee_and_cons; [exact P1|exact P2]|]. apply res_swap_after; [exact O|]. apply res_swap_up. exact S2.
  - intros e es s r H IH E q -> B0. destruct (IH q eq_refl (B_and _ _ _ B0)) as (r' & P & S).
    exists r'. split; [|exact S]. apply ee_and_stop; [exact P|]. exact (res_swap_stops _ _ _ S E).
  - intros es s r H IH q -> B0. destruct (IH q eq_refl B0 None I) as (r' & P & S). exists r'. split; [apply ee_or; exact P|exact S].
  - intros e s ts rest p t H IH q -> B0. destruct (IH q eq_refl (B_not _ _ B0)) as (r' & P & S).
    destruct r' as [ts' rest' p' t'|r'|r']; cbn in S; try contradiction.
    eexists. split; [eapply ee_not_fail; exact P|]. exists (s_ "not"), q, [], []. repeat split.
  - intros e s r H IH E q -> B0. destruct (IH q eq_refl (B_not _ _ B0)) as (r' & P & S).
    eexists. split; [eapply ee_not_ok; [exact P|exact (res_swap_stops _ _ _ S E)]|].
    cbn. repeat (split; [reflexivity || exact I|]). exists [], q. repeat split.
  - intros e s q -> B0. eexists. split; [apply ee_rep_full|]. cbn. repeat (split; [reflexivity || exact I|]). exists [], q. repeat split.
  - intros e mn mx s ts s1 p t r M H1 IH1 H2 IH2 q -> B0.
    destruct (IH1 q eq_refl (B_rep _ _ _ _ M B0)) as (r1 & P1 & S1).
    destruct r1 as [ts' s1' p' t'|r1|r1]; cbn in S1; try contradiction.
    destruct S1 as (<- & <- & O & pre & m & -> & -> & ->).
    destruct (IH2 m eq_refl (B_rep_rest _ _ _ _ _ _ M (pege_plain G e _ _ H1) (pege_plain G e _ _ P1) B0)) as (r2 & P2 & S2).
    eexists. split; [eapply ee_rep_more; [exact M|exact P1|exact P2]|]. apply res_swap_after; [exact O|]. apply res_swap_up. exact S2.
  - intros e mx s r M H IH q -> B0. destruct (IH q eq_refl (B_rep _ _ _ _ M B0)) as (r' & P & S).
    destruct r' as [ts' rest' p' t'|r'|r']; cbn in S; try contradiction.
    eexists. split; [eapply ee_rep_done; [exact M|exact P]|]. cbn. split; [reflexivity|]. split; [reflexivity|].
    split; [exact S|]. exists [], q. repeat split.
  - intros e mn mx s r M Z H IH q -> B0. destruct (IH q eq_refl (B_rep _ _ _ _ M B0)) as (r' & P & S).
    destruct r' as [ts' rest' p' t'|r'|r']; cbn in S; try contradiction.
    eexists. split; [eapply ee_rep_short; [exact M|exact Z|exact P]|exact S].
  - intros e mn mx s r M H IH q -> B0. destruct (IH q eq_refl (B_rep _ _ _ _ M B0)) as (r' & P & S).
    destruct r' as [ts' rest' p' t'|r'|r']; cbn in S; try contradiction.
    eexists. split; [eapply ee_rep_abort; [exact M|exact P]|exact S].
  - intros n e s r R H IH q -> B0. destruct (IH q eq_refl (B_rule _ _ _ R B0)) as (r' & P & S).
    eexists. split; [eapply ee_rule; [exact R|exact P]|]. apply res_swap_within. exact S.
  - intros n s R q -> B0. eexists. split; [apply ee_rule_missing; exact R|]. exists (missing_rule_msg n), q, [n], []. repeat split.
  - intros s q -> B0 o' O. destruct o'; [contradiction|]. eexists. split; [apply ch_none|]. exists empty_choice_msg, q, [], []. repeat split.
  - intros s r q -> B0 o' O. destruct o' as [r'|]; [|contradiction]. eexists. split; [apply ch_end|exact O].
  - intros e es s o r H IH F q -> B0 o' O. destruct (IH q eq_refl (B_or _ _ _ B0)) as (r' & P & S).
    exists r'. split; [|exact S]. apply ch_first; [exact P|]. exact (res_swap_fail _ _ _ S F).
  - intros e es s o r0 r H IH1 H2 IH2 q -> B0 o' O. destruct (IH1 q eq_refl (B_or _ _ _ B0)) as (r1 & P1 & S1).
    destruct r1 as [ts' rest' p' t'|r1|r1]; cbn in S1; try contradiction.
    destruct (IH2 q eq_refl (B_or_rest _ _ _ (pege_plain G e _ _ H) (pege_plain G e _ _ P1) B0) (Some (further o' r1)) (further_swap _ _ _ _ _ O S1))
      as (r2 & P2 & S2).
    exists r2. split; [eapply ch_next; [exact P1|exact P2]|exact S2].
Qed.

End Swap.

(** Every plain result has a report. *)
Lemma lit_stops_or : forall l s, (exists rest, s = l ++ rest) \/ exists rest, lit_stops l s rest.
Proof.
  induction l as [|c l IH]; intros s; [left; exists s; reflexivity|].
  destruct s as [|d s]; [right; eexists; apply ls_end|].
  destruct (N.eq_dec c d) as [->|D]; [|right; eexists; apply ls_differ; exact D].
  destruct (IH s) as [[rest ->]|[rest H]]; [left; exists rest; reflexivity|right; exists rest; apply ls_same; exact H].
Qed.

Lemma choice_any : forall G es s o r, choice G es s o r -> forall o', exists r', choice G es s o' r' /\ plain r' = plain r.
Proof.
  intros G. induction es as [|e es IH]; intros s o r H o'.
  - destruct o' as [q|]; eexists; (split; [constructor|]); inversion H; reflexivity.
  - inversion H as [| | e0 es0 s0 o0 r0 P F | e0 es0 s0 o0 q r0 P C]; subst.
    + exists r. split; [apply ch_first; assumption|reflexivity].
    + destruct (IH _ _ _ C (Some (further o' q))) as (r' & C' & E). exists r'. split; [eapply ch_next; [exact P|exact C']|exact E].
Qed.

Lemma peg_pege : forall G e s r, peg G e s r -> exists er, pege G e s er /\ plain er = r.
Proof.
  intros G e s r H. induction H.
  - eexists. split; [apply ee_lit_ok|reflexivity].
  - destruct (lit_stops_or l s) as [[rest E]|[rest L]]; [exfalso; eapply H; exact E|]. eexists. split; [apply ee_lit_fail; exact L|reflexivity].
  - eexists. split; [apply ee_class_ok; assumption|reflexivity].
  - destruct s as [|c rest]; eexists; (split; [|]); [apply ee_class_end|reflexivity|apply ee_class_fail; eapply H; reflexivity|reflexivity].
  - eexists. split; [apply ee_dot_ok|reflexivity].
  - eexists. split; [apply ee_dot_fail|reflexivity].
  - eexists. split; [apply ee_eof_ok|reflexivity].
  - eexists. split; [apply ee_eof_fail|reflexivity].
  - eexists. split; [apply ee_error|reflexivity].
  - eexists. split; [apply ee_and_nil|reflexivity].
  - destruct IHpeg1 as ([us rest p t|q|q] & P1 & E1); try discriminate. cbn in E1. injection E1 as -> ->.
    destruct IHpeg2 as (r2 & P2 & E2). eexists. split; [eapply ee_and_cons; [exact P1|exact P2]|]. rewrite plain_after, E2. reflexivity.
  - destruct IHpeg as (er & P & E). exists er. split; [|exact E]. apply ee_and_stop; [exact P|]. rewrite <- E in H0. destruct er; cbn in *; tauto.
  - eexists. split; [apply ee_or; apply ch_none|reflexivity].
  - destruct IHpeg as (er & P & E). exists er. split; [|exact E]. apply ee_or. apply ch_first; [exact P|]. intro F.
    destruct er; cbn in *; try contradiction. congruence.
  - destruct IHpeg1 as ([us rest p t|q|q] & P1 & E1); try discriminate. destruct IHpeg2 as (r2 & P2 & E2).
    inversion P2 as [| | | | | | | | | | | | | es0 s0 r0 C | | | | | | | | |]; subst.
    destruct (choice_any _ _ _ _ _ C (Some (further None q))) as (r' & C' & E'). exists r'. split; [|exact E'].
    apply ee_or. eapply ch_next; [exact P1|exact C'].
  - destruct IHpeg as ([us rest0 p t|q|q] & P1 & E1); try discriminate. eexists. split; [eapply ee_not_fail; exact P1|reflexivity].
  - destruct IHpeg as (er & P & E). eexists. split; [eapply ee_not_ok; [exact P|]|reflexivity]. rewrite <- E in H0. destruct er; cbn in *; tauto.
  - eexists. split; [apply ee_rep_full|reflexivity].
  - destruct IHpeg1 as ([us rest p t|q|q] & P1 & E1); try discriminate. cbn in E1. injection E1 as -> ->.
    destruct IHpeg2 as (r2 & P2 & E2). eexists. split; [eapply ee_rep_more; [assumption|exact P1|exact P2]|]. rewrite plain_after, E2. reflexivity.
  - destruct IHpeg as ([us rest p t|q|q] & P1 & E1); try discriminate. eexists. split; [eapply ee_rep_done; [assumption|exact P1]|reflexivity].
  - destruct IHpeg as ([us rest p t|q|q] & P1 & E1); try discriminate. eexists. split; [eapply ee_rep_short; [assumption|assumption|exact P1]|reflexivity].
  - destruct IHpeg as ([us rest1 p t|q|q] & P1 & E1); try discriminate. eexists. split; [eapply ee_rep_abort; [assumption|exact P1]|exact E1].
  - destruct IHpeg as (er & P & E). eexists. split; [eapply ee_rule; [eassumption|exact P]|]. rewrite plain_within, E. reflexivity.
  - eexists. split; [apply ee_rule_missing; assumption|reflexivity].
Qed.

(** * A parse that does not look into the tail *)

Section Tail.
Variable G : str -> option expr.
Variables x y : str.

Definition blind (e : expr) (q : str) : Prop := ~ looks_into G (e, q ++ x) x.

Lemma blind_step : forall e q e' q', needs G (e, q ++ x) (e', q' ++ x) -> blind e q -> blind e' q'.
Proof.
  intros e q e' q' N B (a & m & C & L). apply B. exists a, m. split; [|exact L].
  eapply rt_trans; [apply rt_step; exact N|exact C].
Qed.

Lemma blind_atom : forall a q, blind (Simple a) q -> looks a (q ++ x) <= length q.
Proof.
  intros a q B. destruct (le_lt_dec (looks a (q ++ x)) (length q)) as [H|H]; [exact H|].
  exfalso. apply B. exists a, q. split; [apply rt_refl|exact H].
Qed.

Lemma swap_there : forall e q r, pege G e (q ++ x) r -> blind e q -> exists r', pege G e (q ++ y) r' /\ res_swap x y q r r'.
Proof.
  intros e q r H B. refine (proj1 (swap_both x y G blind blind_atom _ _ _ _ _ _ _ _) e (q ++ x) r H q eq_refl B); clear.
  - intros e es q. apply blind_step. apply nd_and.
  - intros e es q. apply blind_step. apply nd_or.
  - intros e q. apply blind_step. apply nd_not.
  - intros e mn mx q M. apply blind_step. apply nd_rep. exact M.
  - intros n e q R. apply blind_step. apply nd_rule. exact R.
  - intros e es p m ts P _. apply blind_step. eapply nd_and_rest. exact P.
  - intros e es q P _. apply blind_step. apply nd_or_rest. exact P.
  - intros e mn mx p m ts M P _. apply blind_step. eapply nd_rep_rest; [exact M|exact P].
Qed.

Lemma swap_back : forall e q r, pege G e (q ++ y) r -> blind e q -> exists r', pege G e (q ++ x) r' /\ res_swap y x q r r'.
Proof.
  intros e q r H B. refine (proj1 (swap_both y x G blind _ _ _ _ _ _ _ _ _) e (q ++ y) r H q eq_refl B); clear.
  - intros a q B. pose proof (blind_atom a q B) as L. rewrite (looks_same x y a q L). exact L.
  - intros e es q. apply blind_step. apply nd_and.
  - intros e es q. apply blind_step. apply nd_or.
  - intros e q. apply blind_step. apply nd_not.
  - intros e mn mx q M. apply blind_step. apply nd_rep. exact M.
  - intros n e q R. apply blind_step. apply nd_rule. exact R.
  - intros e es p m ts _ P. apply blind_step. eapply nd_and_rest. exact P.
  - intros e es q _ P. apply blind_step. apply nd_or_rest. exact P.
  - intros e mn mx p m ts M _ P. apply blind_step. eapply nd_rep_rest; [exact M|exact P].
Qed.

Lemma match_back : forall e q ts s1, peg G e (q ++ y) (PMatch ts s1) -> blind e q ->
  exists p m, q = p ++ m /\ s1 = m ++ y /\ peg G e (q ++ x) (PMatch ts (m ++ x)).
Proof.
  intros e q ts s1 H B. destruct (peg_pege _ _ _ _ H) as ([us rest o t|r|r] & P & E); try discriminate. cbn in E. injection E as -> ->.
  destruct (swap_back e q _ P B) as ([us' rest' o' t'|r'|r'] & P' & S); cbn in S; try contradiction.
  destruct S as (<- & <- & _ & p & m & Q & -> & ->). exists p, m. split; [exact Q|]. split; [reflexivity|]. exact (pege_plain _ _ _ _ P').
Qed.

Lemma fail_back : forall e q, peg G e (q ++ y) PFail -> blind e q -> peg G e (q ++ x) PFail.
Proof.
  intros e q H B. destruct (peg_pege _ _ _ _ H) as ([us rest o t|r|r] & P & E); try discriminate.
  destruct (swap_back e q _ P B) as ([us' rest' o' t'|r'|r'] & P' & S); cbn in S; try contradiction. exact (pege_plain _ _ _ _ P').
Qed.

Lemma step_back : forall e q t, needs G (e, q ++ y) t -> blind e q -> exists e' q', t = (e', q' ++ y) /\ blind e' q'.
Proof.
  intros e q t N B.
  inversion N as [e0 es s0|e0 es s0 ts s1 K|e0 es s0|e0 es s0 K|e0 s0|e0 mn mx s0 M|e0 mn mx s0 ts s1 M K|n e0 s0 R]; subst.
  - eexists _, q. split; [reflexivity|]. eapply blind_step; [|exact B]. apply nd_and.
  - destruct (match_back _ _ _ _ K (blind_step _ _ _ _ (nd_and _ _ _ _) B)) as (p & m & -> & -> & P).
    eexists _, m. split; [reflexivity|]. eapply blind_step; [|exact B]. eapply nd_and_rest. exact P.
  - eexists _, q. split; [reflexivity|]. eapply blind_step; [|exact B]. apply nd_or.
  - pose proof (fail_back _ _ K (blind_step _ _ _ _ (nd_or _ _ _ _) B)) as P.
    eexists _, q. split; [reflexivity|]. eapply blind_step; [|exact B]. apply nd_or_rest. exact P.
  - eexists _, q. split; [reflexivity|]. eapply blind_step; [|exact B]. apply nd_not.
  - eexists _, q. split; [reflexivity|]. eapply blind_step; [|exact B]. apply nd_rep. assumption.
  - destruct (match_back _ _ _ _ K (blind_step _ _ _ _ (nd_rep _ _ _ _ _ M) B)) as (p & m & -> & -> & P).
    eexists _, m. split; [reflexivity|]. eapply blind_step; [|exact B]. eapply nd_rep_rest; [exact M|exact P].
  - eexists _, q. split; [reflexivity|]. eapply blind_step; [|exact B]. apply nd_rule. assumption.
Qed.

Lemma blind_both : forall e q, ~ looks_into G (e, q ++ x) x -> ~ looks_into G (e, q ++ y) y.
Proof.
  intros e q B (a & m & C & L). apply clos_rt_rt1n in C. remember (e, q ++ y) as t eqn:T. remember (Simple a, m ++ y) as u eqn:U.
  revert e q T B. induction C as [t|t t' u N C IH]; intros e q T B.
  - rewrite T in U. injection U as -> E. apply app_inv_tail in E. subst q.
    pose proof (blind_atom a m B) as K. rewrite (looks_same x y a m K) in L. lia.
  - rewrite T in N. destruct (step_back e q t' N B) as (e' & q' & -> & B'). exact (IH U e' q' eq_refl B').
Qed.

End Tail.

(** * parse *)

Lemma before_app : forall p m x, before ((p ++ m) ++ x) (m ++ x) = p.
Proof.
  intros p m x. unfold before. rewrite <- app_assoc, !app_length.
  replace (length p + (length m + length x) - (length m + length x)) with (length p) by lia.
  rewrite firstn_app, firstn_all, Nat.sub_diag, firstn_O, app_nil_r. reflexivity.
Qed.

Lemma error_swap : forall x y q r r' d pr, rep_swap x y q r r' -> exists read rest,
  q = read ++ rest /\ e_pos (error_at (q ++ x) d pr r) = pos_of read /\ e_line_after (error_at (q ++ x) d pr r) = until_eol (rest ++ x) /\
  error_at (q ++ y) d pr r' =
    PError (e_pos (error_at (q ++ x) d pr r)) (e_descr (error_at (q ++ x) d pr r)) (e_line_before (error_at (q ++ x) d pr r))
      (until_eol (rest ++ y)) (e_parsing_rules (error_at (q ++ x) d pr r)) (e_priority (error_at (q ++ x) d pr r)).
Proof.
  intros x y q r r' d pr (ds & m & t & p & -> & -> & ->). exists p, m. unfold error_at. cbn [r_rest r_descr r_trail e_pos e_line_after e_descr e_line_before e_parsing_rules e_priority].
  rewrite !before_app. repeat split.
Qed.

Lemma same_error : forall rs d fuel p x y er, sane_rules rs -> ascii (p ++ x) -> ascii (p ++ y) -> y <> [] ->
  ~ looks_into (grammar_of rs) (RuleName main, p ++ x) x -> parse_with_debug fuel (p ++ x) rs d = Err er ->
  exists read rest fuel', p = read ++ rest /\ e_pos er = pos_of read /\ e_line_after er = until_eol (rest ++ x) /\
    parse_with_debug fuel' (p ++ y) rs d =
      Err (PError (e_pos er) (e_descr er) (e_line_before er) (until_eol (rest ++ y)) (e_parsing_rules er) (e_priority er)).
Proof.
  intros rs d fuel p x y er Sn Ax Ay Y B E.
  destruct (proj1 (parse_report_iff (p ++ x) rs d (Err er) Sn Ax ltac:(discriminate)) (ex_intro _ fuel E)) as (r & P & A).
  destruct (swap_there (grammar_of rs) x y (RuleName main) p r P B) as (r' & P' & S).
  assert (K : forall q q' pr, rep_swap x y p q q' -> er = error_at (p ++ x) d pr q ->
    answers (p ++ y) d r' (Err (error_at (p ++ y) d pr q')) ->
    exists read rest fuel', p = read ++ rest /\ e_pos er = pos_of read /\ e_line_after er = until_eol (rest ++ x) /\
      parse_with_debug fuel' (p ++ y) rs d =
      Err (PError (e_pos er) (e_descr er) (e_line_before er) (until_eol (rest ++ y)) (e_parsing_rules er) (e_priority er))).
  { intros q q' pr R -> An. destruct (error_swap x y p q q' d pr R) as (read & rest & Q & E1 & E2 & E3). rewrite E3 in An.
    destruct (proj2 (parse_report_iff (p ++ y) rs d (Err _) Sn Ay ltac:(discriminate)) (ex_intro _ r' (conj P' An))) as (f' & F).
    exists read, rest, f'. repeat (split; [assumption|]). exact F. }
  inversion A as [|ts c rest q t HR HE|ts c rest t HR HE|q HR HE|q HR HE]; subst r; subst er; destruct r' as [ts' rest' o' t'|q'|q']; cbn [res_swap] in S; try contradiction.
  - destruct S as (<- & <- & O & pre & m & -> & RX & ->). destruct o' as [q'|]; [|contradiction].
    apply (K q q' Normal O eq_refl). destruct (m ++ y) as [|c' rest'] eqn:M; [apply app_eq_nil in M; tauto|]. apply an_pending.
  - destruct S as (<- & <- & O & pre & m & -> & RX & ->). destruct o' as [q'|]; [contradiction|].
    apply (K (Report (s_ "not consumed full input") (c :: rest) t) (Report (s_ "not consumed full input") (m ++ y) t) Normal).
    + rewrite RX. exists (s_ "not consumed full input"), m, t, pre. repeat split.
    + reflexivity.
    + destruct (m ++ y) as [|c' rest'] eqn:M; [apply app_eq_nil in M; tauto|]. apply an_leftover.
  - apply (K q q' Normal S eq_refl). apply an_fail.
  - apply (K q q' Critical S eq_refl). apply an_abort.
Qed.

Lemma compared_all : forall l rest, compared l (l ++ rest) = length l.
Proof. induction l as [|c l IH]; intros rest; [reflexivity|]. cbn [app compared length]. rewrite N.eqb_refl, IH. reflexivity. Qed.

Lemma suffix_split : forall (p m q x : str), p ++ m = q ++ x -> length x <= length m -> exists q', m = q' ++ x.
Proof.
  induction p as [|c p IH]; intros m q x E L; [exists q; exact E|].
  destruct q as [|d q]; cbn [app] in E.
  - subst x. cbn [length] in L. rewrite app_length in L. lia.
  - injection E as _ E. exact (IH m q x E L).
Qed.

(** Who takes a part of the tail has looked into it. *)
Lemma taking_is_looking : forall G e s r, peg G e s r -> forall q x ts rest, r = PMatch ts rest -> s = q ++ x -> length rest < length x ->
  looks_into G (e, s) x.
Proof.
  assert (LI : forall G t t' x, needs G t t' -> looks_into G t' x -> looks_into G t x).
  { intros G t t' x N (a & q & C & L). exists a, q. split; [|exact L]. eapply rt_trans; [apply rt_step; exact N|exact C]. }
  assert (AT : forall G a q x s, s = q ++ x -> length q < looks a s -> looks_into G (Simple a, s) x).
  { intros G a q x s -> L. exists a, q. split; [apply rt_refl|exact L]. }
  assert (PM : forall r ts ts' rest, prepend ts r = PMatch ts' rest -> exists us, r = PMatch us rest).
  { intros [us rest'| |m rest'] ts ts' rest E; cbn in E; try discriminate. injection E as _ ->. exists us. reflexivity. }
  intros G e s r H. induction H; intros q x ts' rest' E Q L; try discriminate.
  - injection E as _ <-. eapply AT; [exact Q|]. cbn [looks]. rewrite compared_all.
    pose proof (f_equal (@length _) Q) as K. rewrite !app_length in K. lia.
  - injection E as _ <-. eapply AT; [exact Q|]. cbn [looks]. pose proof (f_equal (@length _) Q) as K. rewrite app_length in K. cbn in K. lia.
  - injection E as _ <-. eapply AT; [exact Q|]. cbn [looks]. pose proof (f_equal (@length _) Q) as K. rewrite app_length in K. cbn in K. lia.
  - injection E as _ <-. destruct q; [|discriminate]. cbn in Q. subst x. cbn in L. lia.
  - injection E as _ <-. subst s. rewrite app_length in L. lia.
  - destruct (PM _ _ _ _ E) as (us & ->). destruct (le_lt_dec (length x) (length s1)) as [K|K].
    + destruct (peg_suffix G _ _ _ H) as (c & C). rewrite C in Q. destruct (suffix_split _ _ _ _ Q K) as (q' & Q').
      eapply LI; [eapply nd_and_rest; exact H|]. eapply IHpeg2; [reflexivity|exact Q'|exact L].
    + eapply LI; [apply nd_and|]. eapply IHpeg1; [reflexivity|exact Q|exact K].
  - subst r. contradiction.
  - eapply LI; [apply nd_or|]. eapply IHpeg; [exact E|exact Q|exact L].
  - eapply LI; [apply nd_or_rest; exact H|]. eapply IHpeg2; [exact E|exact Q|exact L].
  - injection E as _ <-. subst s. rewrite app_length in L. lia.
  - injection E as _ <-. subst s. rewrite app_length in L. lia.
  - destruct (PM _ _ _ _ E) as (us & ->). destruct (le_lt_dec (length x) (length s1)) as [K|K].
    + destruct (peg_suffix G _ _ _ H0) as (c & C). rewrite C in Q. destruct (suffix_split _ _ _ _ Q K) as (q' & Q').
      eapply LI; [eapply nd_rep_rest; [assumption|exact H0]|]. eapply IHpeg2; [reflexivity|exact Q'|exact L].
    + eapply LI; [apply nd_rep; assumption|]. eapply IHpeg1; [reflexivity|exact Q|exact K].
  - injection E as _ <-. subst s. rewrite app_length in L. lia.
  - destruct r as [us rest0| |m rest0]; cbn in E; try discriminate. injection E as _ ->.
    eapply LI; [apply nd_rule; eassumption|]. eapply IHpeg; [reflexivity|exact Q|exact L].
Qed.

Lemma ok_looks : forall rs d fuel p x t, sane_rules rs -> ascii (p ++ x) -> x <> [] ->
  parse_with_debug fuel (p ++ x) rs d = Ok t -> looks_into (grammar_of rs) (RuleName main, p ++ x) x.
Proof.
  intros rs d fuel p x t Sn Ax X E.
  destruct (proj1 (parse_report_iff (p ++ x) rs d (Ok t) Sn Ax ltac:(discriminate)) (ex_intro _ fuel E)) as (r & P & A).
  inversion A as [ast o u HR| | | |]; subst r. apply pege_plain in P. eapply taking_is_looking; [exact P|reflexivity|reflexivity|].
  destruct x; [congruence|]. cbn. lia.
Qed.

Lemma same_hang : forall rs d p x y, sane_rules rs -> ascii (p ++ x) -> ascii (p ++ y) ->
  ~ looks_into (grammar_of rs) (RuleName main, p ++ x) x ->
  (forall fuel, parse_with_debug fuel (p ++ x) rs d = Fuel) -> forall fuel, parse_with_debug fuel (p ++ y) rs d = Fuel.
Proof.
  intros rs d p x y Sn Ax Ay B H fuel.
  assert (K : ~ parse_with_debug fuel (p ++ y) rs d <> Fuel).
  { intro N. destruct (proj1 (parse_report_iff (p ++ y) rs d _ Sn Ay N) (ex_intro _ fuel eq_refl)) as (r & P & _).
    destruct (swap_back (grammar_of rs) x y (RuleName main) p r P B) as (r' & P' & _).
    destruct (answers_exists rs (p ++ x) d r' P') as (o & An).
    assert (No : o <> Fuel) by (inversion An; discriminate).
    destruct (proj2 (parse_report_iff (p ++ x) rs d o Sn Ax No) (ex_intro _ r' (conj P' An))) as (f & F).
    rewrite H in F. congruence. }
  destruct (parse_with_debug fuel (p ++ y) rs d); try reflexivity; exfalso; apply K; discriminate.
Qed.

Lemma ok_then_not : forall rs d fuel p y t, sane_rules rs -> ascii (p ++ y) -> y <> [] ->
  parse_with_debug fuel p rs d = Ok t -> ~ looks_into (grammar_of rs) (RuleName main, p) [] ->
  exists fuel' er, parse_with_debug fuel' (p ++ y) rs d = Err er /\ e_priority er = Normal.
Proof.
  intros rs d fuel p y t Sn Ay Y E B.
  assert (Ax : ascii p) by (apply Forall_app in Ay; tauto).
  destruct (proj1 (parse_report_iff p rs d (Ok t) Sn Ax ltac:(discriminate)) (ex_intro _ fuel E)) as (r & P & A).
  rewrite <- (app_nil_r p) in P, B.
  destruct (swap_there (grammar_of rs) [] y (RuleName main) p r P B) as (r' & P' & S).
  inversion A as [ast o u HR| | | |]; subst r. destruct r' as [ts' rest' o' t'|q'|q']; cbn [res_swap] in S; try contradiction.
  destruct S as (_ & _ & _ & pre & m & -> & RX & ->). symmetry in RX. apply app_eq_nil in RX. destruct RX as [-> _].
  cbn [app] in *. destruct y as [|c y]; [congruence|].
  assert (An : exists er, answers ((pre ++ []) ++ c :: y) d (EMatch ts' (c :: y) o' t') (Err er) /\ e_priority er = Normal).
  { destruct o' as [q|]; eexists; (split; [apply an_pending || apply an_leftover|reflexivity]). }
  destruct An as (er & An & Pr).
  destruct (proj2 (parse_report_iff _ rs d (Err er) Sn Ay ltac:(discriminate)) (ex_intro _ _ (conj P' An))) as (f & F).
  exists f, er. split; [exact F|exact Pr].
Qed.

(** * Errors are not always reported where the parser looked last *)

Definition early_rules (k : nat) : rules :=
  rules_macro [(main, Or [lit (repeat 97%N (S k) ++ s_ "c"); lit (s_ "a")])].

Lemma lit_stops_repeat : forall k c d, c <> d -> lit_stops (repeat 97%N k ++ [c]) (repeat 97%N k ++ [d]) [].
Proof. induction k as [|k IH]; intros c d D; cbn [repeat app]; [apply ls_differ; exact D|]. apply ls_same. apply IH. exact D. Qed.

Lemma early_sane : forall k, sane_rules (early_rules k).
Proof.
  intros k. apply sane_rules_all. repeat constructor.
Qed.

Lemma early_ascii : forall k c, (c < 128)%N -> ascii (repeat 97%N k ++ [c]).
Proof.
  intros k c C. apply Forall_app. split; [|repeat constructor; exact C]. apply Forall_forall. intros d D. apply repeat_spec in D. subst d. reflexivity.
Qed.

Lemma early_error : forall k, exists rs s s' fuel er t, sane_rules rs /\ ascii s /\ ascii s' /\
  parse fuel s rs = Err er /\ (exists fuel', parse fuel' s' rs = Ok t) /\
  firstn (pn (e_pos er) + k) s = firstn (pn (e_pos er) + k) s'.
Proof.
  intros k.
  set (s := repeat 97%N (S k) ++ s_ "x"). set (s' := repeat 97%N (S k) ++ s_ "c").
  assert (A : ascii s) by (apply early_ascii; reflexivity). assert (A' : ascii s') by (apply early_ascii; reflexivity).
  assert (P : pege (grammar_of (early_rules k)) (RuleName main) s (EMatch [Rule main [Val (s_ "a")]] (repeat 97%N k ++ s_ "x") None [main])).
  { apply (ee_rule _ main (Or [lit (repeat 97%N (S k) ++ s_ "c"); lit (s_ "a")]) s (EMatch [Val (s_ "a")] (repeat 97%N k ++ s_ "x") None [])).
    - reflexivity.
    - apply ee_or. eapply ch_next.
      + apply ee_lit_fail. apply (lit_stops_repeat (S k)). discriminate.
      + apply ch_first; [|intro F; exact F]. apply (ee_lit_ok _ (s_ "a") (repeat 97%N k ++ s_ "x")). }
  assert (P' : pege (grammar_of (early_rules k)) (RuleName main) s' (EMatch [Rule main [Val s']] [] None [main])).
  { apply (ee_rule _ main (Or [lit (repeat 97%N (S k) ++ s_ "c"); lit (s_ "a")]) s' (EMatch [Val s'] [] None [])).
    - reflexivity.
    - apply ee_or. apply ch_first; [|intro F; exact F].
      pose proof (ee_lit_ok (grammar_of (early_rules k)) s' []) as H. rewrite app_nil_r in H. exact H. }
  assert (An : exists er, answers s false (EMatch [Rule main [Val (s_ "a")]] (repeat 97%N k ++ s_ "x") None [main]) (Err er) /\ pn (e_pos er) = 1).
  { destruct (repeat 97%N k ++ s_ "x") as [|c rest] eqn:M; [destruct k; discriminate|]. eexists. split; [apply an_leftover|].
    assert (Bf : before s (c :: rest) = [97%N]).
    { replace s with (([97%N] ++ []) ++ (c :: rest)) by (rewrite <- M; reflexivity). exact (before_app [97%N] [] (c :: rest)). }
    unfold error_at. cbn [e_pos r_rest]. exact (f_equal (fun b => pn (pos_of b)) Bf). }
  destruct An as (er & An & N).
  destruct (proj2 (parse_report_iff s (early_rules k) false (Err er) (early_sane k) A ltac:(discriminate)) (ex_intro _ _ (conj P An))) as (f & F).
  destruct (proj2 (parse_report_iff s' (early_rules k) false (Ok (Rule main [Val s'])) (early_sane k) A' ltac:(discriminate))
              (ex_intro _ _ (conj P' (an_ok _ _ _ _ _)))) as (f' & F').
  exists (early_rules k), s, s', f, er, (Rule main [Val s']). split; [apply early_sane|]. split; [exact A|]. split; [exact A'|].
  split; [exact F|]. split; [exists f'; exact F'|]. rewrite N.
  unfold s, s'. rewrite !firstn_app, !repeat_length. replace (1 + k - S k) with 0 by lia. reflexivity.
Qed.

(** * Whether a parse that returns looks into the tail can be computed *)

Section Compute.
Variable G : str -> option expr.

Definition next (h : nat) (t : task) : list task :=
  match t with
  | (And (e :: es), s) => (e, s) :: match ev G h e s with Some (PMatch _ s1) => [(And es, s1)] | _ => [] end
  | (Or (e :: es), s) => (e, s) :: match ev G h e s with Some PFail => [(Or es, s)] | _ => [] end
  | (Not e, s) => [(e, s)]
  | (Repeat e mn mx, s) =>
      match mx with
      | Some 0 => []
      | _ => (e, s) :: match ev G h e s with Some (PMatch _ s1) => [(Repeat e (pred mn) (option_map pred mx), s1)] | _ => [] end
      end
  | (RuleName n, s) => match G n with Some e => [(e, s)] | None => [] end
  | _ => []
  end.

Fixpoint reached (h : nat) (t : task) : list task :=
  match h with 0 => [] | S h => t :: flat_map (reached h) (next h t) end.

Lemma needs_next : forall h t t', needs G t t' -> done G (S h) t -> In t' (next h t).
Proof.
  intros h t t' N D.
  inversion N as [e es s E1 E2|e es s ts s1 P E1 E2|e es s E1 E2|e es s P E1 E2|e s E1 E2|e mn mx s X E1 E2|e mn mx s ts s1 X P E1 E2|n e s P E1 E2];
    subst t t'; unfold done in *; cbn [fst snd next] in *.
  - left. reflexivity.
  - right. cbn [ev] in D. destruct (ev G h e s) as [r|] eqn:E; [|congruence]. pose proof (ev_agrees _ _ _ _ _ _ E P) as Y. subst r. left. reflexivity.
  - left. reflexivity.
  - right. cbn [ev] in D. destruct (ev G h e s) as [r|] eqn:E; [|congruence]. pose proof (ev_agrees _ _ _ _ _ _ E P) as Y. subst r. left. reflexivity.
  - left. reflexivity.
  - destruct mx as [[|k]|]; [congruence| |]; left; reflexivity.
  - rewrite ev_rep in D by exact X. destruct (ev G h e s) as [r|] eqn:E; [|congruence]. pose proof (ev_agrees _ _ _ _ _ _ E P) as Y. subst r.
    destruct mx as [[|k]|]; [congruence| |]; right; left; reflexivity.
  - rewrite P. left. reflexivity.
Qed.

Lemma comes_up_reached : forall t t', comes_up G t t' -> forall h, done G h t -> In t' (reached h t).
Proof.
  intros t t' C. apply clos_rt_rt1n in C. induction C as [t|t t' t'' N C IH]; intros h D; (destruct h as [|h]; [contradiction D; reflexivity|]).
  - left. reflexivity.
  - right. apply in_flat_map. exists t'. split; [apply needs_next; assumption|]. apply IH. exact (needs_done G h t t' N D).
Qed.

Definition peeks (n : nat) (t : task) : bool :=
  match t with (Simple a, s) => length s <? looks a s + n | _ => false end.

Lemma not_peeking : forall h t x, done G h t -> existsb (peeks (length x)) (reached h t) = false -> ~ looks_into G t x.
Proof.
  intros h t x D E (a & q & C & L). apply not_true_iff_false in E. apply E. apply existsb_exists.
  exists (Simple a, q ++ x). split; [apply comes_up_reached; assumption|]. cbn [peeks]. apply Nat.ltb_lt. rewrite app_length. lia.
Qed.

End Compute.
