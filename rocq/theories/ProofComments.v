(** Comments in comments: proofs. *)
From Verif Require Import Base ModelAst ModelParser ModelCost SpecPeg SpecPos SpecApi SpecWf SpecComments.
From Verif Require Import PegTools ProofParser ProofEngine ProofApi ProofRun ProofRunDet ProofLines ProofSearch Examples.

Lemma starts_dec : forall w s, starts_with w s \/ ~ starts_with w s.
Proof.
  induction w as [|x w IH]; intro s; [left; exists s; reflexivity|]. destruct s as [|y s]; [right; intros (r & E); discriminate|].
  destruct (N.eq_dec x y) as [->|N]; [|right; intros (r & E); injection E as E _; congruence].
  destruct (IH s) as [(r & ->)|H]; [left; exists r; reflexivity|right; intros (r & E); injection E as ->; apply H; exists r; reflexivity].
Qed.

Section Marks.
Variables o c : str.
Hypothesis DM : distinct_marks o c.

Lemma not_both : forall s, starts_with o s -> starts_with c s -> False.
Proof.
  intros s (a & ->) (b & E). destruct DM as [D1 D2]. destruct (app_eq_app _ _ _ _ E) as (l & [[-> _]|[-> _]]).
  - apply D2. exists l. reflexivity.
  - apply D1. exists l. reflexivity.
Qed.
Lemma o_nonempty : o <> [].
Proof. intro E. apply (proj1 DM). exists c. rewrite E. reflexivity. Qed.
Lemma c_nonempty : c <> [].
Proof. intro E. apply (proj2 DM). exists o. rewrite E. reflexivity. Qed.

(** ** Counting *)

Lemma closes_ends : forall s l rest, closes o c s l rest -> forall d r, closed_after o c d rest r -> closed_after o c (S d) s r.
Proof.
  induction 1 as [rest|s k s' l rest _ IH1 _ IH2|x s l rest N1 N2 _ IH]; intros d r E.
  - apply en_close. exact E.
  - apply en_open. apply IH1. apply IH2. exact E.
  - apply en_char; [exact N1|exact N2|]. apply IH. exact E.
Qed.
Fixpoint multi (d : nat) (s r : str) : Prop := match d with 0 => s = r | S d => exists l s', closes o c s l s' /\ multi d s' r end.
Lemma ends_multi : forall d s r, closed_after o c d s r -> multi d s r.
Proof.
  induction 1 as [s|d s r _ IH|d s r _ IH|d x s r N1 N2 _ IH]; cbn [multi].
  - reflexivity.
  - exists [], s. split; [apply cl_end|exact IH].
  - cbn [multi] in IH. destruct IH as (k & s1 & K & l & s2 & L & M). exists (Inner k :: l), s2. split; [exact (cl_open o c s k s1 l s2 K L)|exact M].
  - cbn [multi] in IH. destruct IH as (l & s' & L & M). exists (Plain x :: l), s'. split; [apply cl_char; assumption|exact M].
Qed.
Lemma closes_iff : forall s rest, (exists l, closes o c s l rest) <-> closed_after o c 1 s rest.
Proof.
  intros s rest. split.
  - intros [l L]. apply (closes_ends _ _ _ L). apply en_done.
  - intro E. destruct (ends_multi _ _ _ E) as (l & s' & L & M). cbn in M. subst s'. exists l. exact L.
Qed.
Lemma closes_text : forall s l rest, closes o c s l rest -> s = flat_map (item_text o c) l ++ c ++ rest.
Proof.
  induction 1 as [rest|s k s' l rest _ IH1 _ IH2|x s l rest N1 N2 _ IH]; cbn [flat_map item_text app].
  - reflexivity.
  - rewrite IH1, IH2. rewrite <- !app_assoc. reflexivity.
  - rewrite IH. reflexivity.
Qed.
Lemma closes_det : forall s l rest, closes o c s l rest -> forall l' rest', closes o c s l' rest' -> l = l' /\ rest = rest'.
Proof.
  induction 1 as [rest|s k s' l rest K IH1 L IH2|x s l rest N1 N2 L IH]; intros l' rest' H.
  - remember (c ++ rest) as z eqn:Z in H. destruct H as [rest'|s k s' l rest' K L|x s l rest' N1 N2 L].
    + apply app_inv_head in Z. subst. split; reflexivity.
    + exfalso. apply (not_both (c ++ rest)); [rewrite <- Z; exists s; reflexivity|exists rest; reflexivity].
    + exfalso. apply N2. rewrite Z. exists rest. reflexivity.
  - remember (o ++ s) as z eqn:Z in H. destruct H as [rest'|s1 k' s1' l' rest' K' L'|x s1 l' rest' N1 N2 L'].
    + exfalso. apply (not_both (o ++ s)); [exists s; reflexivity|rewrite <- Z; exists rest'; reflexivity].
    + apply app_inv_head in Z. subst s1. destruct (IH1 _ _ K') as [<- <-]. destruct (IH2 _ _ L') as [<- <-]. split; reflexivity.
    + exfalso. apply N1. rewrite Z. exists s. reflexivity.
  - remember (x :: s) as z eqn:Z in H. destruct H as [rest'|s1 k' s1' l' rest' K' L'|x1 s1 l' rest' M1 M2 L'].
    + exfalso. apply N2. rewrite <- Z. exists rest'. reflexivity.
    + exfalso. apply N1. rewrite <- Z. exists s1. reflexivity.
    + injection Z as -> ->. destruct (IH _ _ L') as [<- <-]. split; reflexivity.
Qed.

(** ** The rules *)

Section Rules.
Variable P : expr.
Notation G := (grammar_of (comment_rules o c P)).
Notation item_ := (Or [RuleName nm_comment; P]).
Notation loop := (Repeat item_ 0 None).

Lemma g_main : G main = Some (RuleName nm_comment).
Proof. reflexivity. Qed.
Lemma g_comment : G nm_comment = Some (And [lit o; loop; lit c]).
Proof. reflexivity. Qed.

Lemma comment_not : forall s, ~ starts_with o s -> peg G (RuleName nm_comment) s PFail.
Proof.
  intros s N. refine (peg_rule G nm_comment _ s PFail g_comment _). apply peg_and_stop; [|exact I]. apply peg_lit_fail. intros r E. apply N. exists r. exact E.
Qed.
Lemma comment_yes : forall s ts rest, peg G loop s (PMatch ts (c ++ rest)) -> peg G (RuleName nm_comment) (o ++ s) (PMatch [Rule nm_comment (Val o :: ts ++ [Val c])] rest).
Proof.
  intros s ts rest D. refine (peg_rule G nm_comment _ _ (PMatch (Val o :: ts ++ [Val c]) rest) g_comment _).
  refine (peg_and_cons G _ _ _ [Val o] s (PMatch (ts ++ [Val c]) rest) (peg_lit_ok G o s) _).
  refine (peg_and_cons G _ _ _ ts (c ++ rest) (PMatch [Val c] rest) D _).
  exact (peg_and_cons G _ _ _ [Val c] rest (PMatch [] rest) (peg_lit_ok G c rest) (peg_and_nil G rest)).
Qed.
Lemma comment_no : forall s ts r, peg G loop s (PMatch ts r) -> ~ starts_with c r -> peg G (RuleName nm_comment) (o ++ s) PFail.
Proof.
  intros s ts r D N. refine (peg_rule G nm_comment _ _ PFail g_comment _).
  refine (peg_and_cons G _ _ _ [Val o] s PFail (peg_lit_ok G o s) _). refine (peg_and_cons G _ _ _ ts r PFail D _).
  apply peg_and_stop; [|exact I]. apply peg_lit_fail. intros x E. apply N. exists x. exact E.
Qed.
Lemma loop_comment : forall s t s1 ts r, peg G (RuleName nm_comment) s (PMatch [t] s1) -> peg G loop s1 (PMatch ts r) -> peg G loop s (PMatch (t :: ts) r).
Proof.
  intros s t s1 ts r D1 D2. refine (peg_rep_more G item_ 0 None _ [t] s1 (PMatch ts r) _ _ D2); [discriminate|]. apply peg_or_first; [exact D1|discriminate].
Qed.
Lemma loop_plain : forall x s ts r, peg G (RuleName nm_comment) (x :: s) PFail -> peg G P (x :: s) (PMatch [Val [x]] s) -> peg G loop s (PMatch ts r) -> peg G loop (x :: s) (PMatch (Val [x] :: ts) r).
Proof.
  intros x s ts r D0 D1 D2. refine (peg_rep_more G item_ 0 None _ [Val [x]] s (PMatch ts r) _ _ D2); [discriminate|]. apply peg_or_next; [exact D0|]. apply peg_or_first; [exact D1|discriminate].
Qed.
Lemma loop_none : forall s, peg G (RuleName nm_comment) s PFail -> peg G P s PFail -> peg G loop s (PMatch [] s).
Proof.
  intros s D0 D1. apply peg_rep_done; [discriminate|]. apply peg_or_next; [exact D0|]. apply peg_or_next; [exact D1|]. apply peg_or_nil.
Qed.

Lemma r_sane : sane P -> sane_rules (comment_rules o c P).
Proof. intro SP. apply sane_rules_all. repeat constructor. exact SP. Qed.

(** What [parse] makes of it. *)
Hypothesis SP : sane P.
Lemma accepts_of : forall s debug, ascii s -> forall ast, (exists fuel, parse_with_debug fuel s (comment_rules o c P) debug = Ok ast) <->
  exists t, ast = Rule main [t] /\ peg G (RuleName nm_comment) s (PMatch [t] []).
Proof.
  intros s debug A ast. rewrite (parse_accepts_iff s _ debug (r_sane SP) A ast). split.
  - intro D. unfold peg_main in D. inversion D as [| | | | | | | | | | | | | | | | | | | | | |n0 e' s' r' E D' H1 H2 H3|]; subst. rewrite g_main in E. injection E as <-.
    destruct r' as [ts x| |]; try discriminate. cbn in H3. injection H3 as <- ->. destruct (name_shape _ _ _ _ _ D') as [ks ->]. eexists. split; [reflexivity|exact D'].
  - intros (t & -> & D). exact (peg_rule G main _ s (PMatch [t] []) g_main D).
Qed.
Lemma rejects_of : forall s debug, ascii s -> peg G (RuleName nm_comment) s PFail \/ (exists t rest, rest <> [] /\ peg G (RuleName nm_comment) s (PMatch [t] rest)) ->
  exists fuel er, parse_with_debug fuel s (comment_rules o c P) debug = Err er /\ e_priority er = Normal.
Proof.
  intros s debug A H.
  assert (M : exists r, peg_main (comment_rules o c P) s r /\ (r = PFail \/ exists ts rest, r = PMatch ts rest /\ rest <> [])).
  { destruct H as [D|(t & rest & N & D)].
    - exists PFail. split; [exact (peg_rule G main _ s PFail g_main D)|left; reflexivity].
    - exists (PMatch [Rule main [t]] rest). split; [exact (peg_rule G main _ s (PMatch [t] rest) g_main D)|right; eauto]. }
  destruct M as (r & M & R). destruct (proj2 (parse_terminates_iff s _ debug (r_sane SP) A) (ex_intro _ r M)) as [fuel F].
  exists fuel. pose proof (parse_sound fuel s _ debug (r_sane SP)) as X.
  destruct (parse_with_debug fuel s (comment_rules o c P) debug) as [t|er| |]; [| |destruct (X A)|destruct (F eq_refl)].
  - destruct X as [_ X]. pose proof (peg_det _ _ _ _ M _ X) as E. destruct R as [->|(ts & rest & -> & N)]; [discriminate|]. injection E as _ ->. destruct (N eq_refl).
  - exists er. split; [reflexivity|]. destruct (e_priority er); [reflexivity|]. destruct X as [_ (rest & X & _)]. pose proof (peg_det _ _ _ _ M _ X) as E. destruct R as [->|(ts & rest' & -> & N)]; discriminate.
Qed.
End Rules.

(** ** The strict rules *)

Notation Ps := (And [Not (lit o); Not (lit c); dot_]).
Notation Gs := (grammar_of (strict_rules o c)).
Notation items := (Repeat (Or [RuleName nm_comment; Ps]) 0 None).

Lemma not_starts : forall G w s, ~ starts_with w s -> peg G (Not (lit w)) s (PMatch [] s).
Proof. intros G w s N. refine (peg_not_ok G _ _ PFail _ I). apply peg_lit_fail. intros r E. apply N. exists r. exact E. Qed.
Lemma starts_not : forall G w s, starts_with w s -> peg G (Not (lit w)) s PFail.
Proof. intros G w s (r & ->). exact (peg_not_fail G _ _ [Val w] r (peg_lit_ok G w r)). Qed.

Lemma plain_ok : forall x s, ~ starts_with o (x :: s) -> ~ starts_with c (x :: s) -> peg Gs Ps (x :: s) (PMatch [Val [x]] s).
Proof.
  intros x s N1 N2. refine (peg_and_cons Gs _ _ _ [] (x :: s) (PMatch [Val [x]] s) (not_starts _ _ _ N1) _).
  refine (peg_and_cons Gs _ _ _ [] (x :: s) (PMatch [Val [x]] s) (not_starts _ _ _ N2) _).
  exact (peg_and_cons Gs _ _ _ [Val [x]] s (PMatch [] s) (peg_dot_ok Gs x s) (peg_and_nil Gs s)).
Qed.
Lemma plain_no : forall s, starts_with o s \/ starts_with c s \/ s = [] -> peg Gs Ps s PFail.
Proof.
  intros s H. destruct (starts_dec o s) as [O|O]; [apply peg_and_stop; [exact (starts_not _ _ _ O)|exact I]|].
  refine (peg_and_cons Gs _ _ _ [] s PFail (not_starts _ _ _ O) _).
  destruct (starts_dec c s) as [C|C]; [apply peg_and_stop; [exact (starts_not _ _ _ C)|exact I]|].
  refine (peg_and_cons Gs _ _ _ [] s PFail (not_starts _ _ _ C) _). destruct H as [H|[H| ->]]; [destruct (O H)|destruct (C H)|].
  apply peg_and_stop; [apply peg_dot_fail|exact I].
Qed.

Lemma not_empty_start : forall w, w <> [] -> ~ starts_with w [].
Proof. intros w N (r & E). symmetry in E. apply app_eq_nil in E. destruct E as [E _]. exact (N E). Qed.

Lemma strict_total : forall s,
  (exists l rest, closes o c s l rest /\ peg Gs items s (PMatch (map (item_tree o c) l) (c ++ rest))) \/
  ((forall l rest, ~ closes o c s l rest) /\ exists ts r, peg Gs items s (PMatch ts r) /\ ~ starts_with c r).
Proof.
  intro s. remember (length s) as k eqn:K. assert (L : length s <= k) by lia. clear K. revert s L. induction k as [k IH] using lt_wf_ind. intros s L.
  pose proof o_nonempty as ON. pose proof c_nonempty as CN.
  destruct (starts_dec c s) as [(rest & ->)|C].
  { left. exists [], rest. split; [apply cl_end|]. apply loop_none.
    - apply comment_not. intro O. apply (not_both _ O). exists rest. reflexivity.
    - apply plain_no. right. left. exists rest. reflexivity. }
  destruct (starts_dec o s) as [(s1 & ->)|O].
  - assert (L1 : length s1 < k) by (rewrite app_length in L; destruct o; [destruct (ON eq_refl)|cbn in L; lia]).
    destruct (IH _ L1 s1 (Nat.le_refl _)) as [(l1 & r1 & H1 & D1)|(N1 & ts1 & r1 & D1 & C1)].
    + assert (L2 : length r1 < k). { apply closes_text in H1. rewrite H1 in L1. rewrite !app_length in L1. lia. }
      pose proof (comment_yes Ps _ _ _ D1) as Y. destruct (IH _ L2 r1 (Nat.le_refl _)) as [(l2 & r2 & H2 & D2)|(N2 & ts2 & r2 & D2 & C2)].
      * left. exists (Inner l1 :: l2), r2. split; [exact (cl_open o c s1 l1 r1 l2 r2 H1 H2)|]. exact (loop_comment Ps _ _ _ _ _ Y D2).
      * right. split; [|eexists; eexists; split; [exact (loop_comment Ps _ _ _ _ _ Y D2)|exact C2]].
        intros l rest H. remember (o ++ s1) as z eqn:Z in H. destruct H as [rest|s2 k2 s2' l2 rest K' L'|x s2 l2 rest M1 M2 L'].
        -- apply C. rewrite <- Z. exists rest. reflexivity.
        -- apply app_inv_head in Z. subst s2. destruct (closes_det _ _ _ H1 _ _ K') as [<- <-]. exact (N2 _ _ L').
        -- apply M1. rewrite Z. exists s1. reflexivity.
    + right. split.
      * intros l rest H. remember (o ++ s1) as z eqn:Z in H. destruct H as [rest|s2 k2 s2' l2 rest K' L'|x s2 l2 rest M1 M2 L'].
        -- apply C. rewrite <- Z. exists rest. reflexivity.
        -- apply app_inv_head in Z. subst s2. exact (N1 _ _ K').
        -- apply M1. rewrite Z. exists s1. reflexivity.
      * exists [], (o ++ s1). split; [|exact C]. apply loop_none; [exact (comment_no Ps _ _ _ D1 C1)|]. apply plain_no. left. exists s1. reflexivity.
  - destruct s as [|x s].
    + right. split; [|exists [], []; split; [apply loop_none; [apply comment_not; exact O|apply plain_no; right; right; reflexivity]|exact C]].
      intros l rest H. apply closes_text in H. symmetry in H. apply app_eq_nil in H. destruct H as [_ H]. apply app_eq_nil in H. destruct H as [H _]. exact (CN H).
    + cbn in L. assert (L1 : length s < k) by lia. destruct (IH _ L1 s (Nat.le_refl _)) as [(l1 & r1 & H1 & D1)|(N1 & ts1 & r1 & D1 & C1)].
      * left. exists (Plain x :: l1), r1. split; [apply cl_char; assumption|]. exact (loop_plain Ps _ _ _ _ (comment_not Ps _ O) (plain_ok _ _ O C) D1).
      * right. split; [|eexists; eexists; split; [exact (loop_plain Ps _ _ _ _ (comment_not Ps _ O) (plain_ok _ _ O C) D1)|exact C1]].
        intros l rest H. remember (x :: s) as z eqn:Z in H. destruct H as [rest|s2 k2 s2' l2 rest K' L'|y s2 l2 rest M1 M2 L'].
        -- apply C. rewrite <- Z. exists rest. reflexivity.
        -- apply O. rewrite <- Z. exists s2. reflexivity.
        -- injection Z as -> ->. exact (N1 _ _ L').
Qed.

Lemma strict_comment : forall s,
  (exists body l rest, s = o ++ body /\ closes o c body l rest /\ peg Gs (RuleName nm_comment) s (PMatch [item_tree o c (Inner l)] rest)) \/
  ((forall body l rest, s = o ++ body -> ~ closes o c body l rest) /\ peg Gs (RuleName nm_comment) s PFail).
Proof.
  intro s. destruct (starts_dec o s) as [(b & ->)|O].
  - destruct (strict_total b) as [(l & rest & H & D)|(N & ts & r & D & C)].
    + left. exists b, l, rest. split; [reflexivity|]. split; [exact H|exact (comment_yes Ps _ _ _ D)].
    + right. split; [|exact (comment_no Ps _ _ _ D C)]. intros b' l rest E. apply app_inv_head in E. subst b'. apply N.
  - right. split; [|exact (comment_not Ps _ O)]. intros b l rest E. destruct O. exists b. exact E.
Qed.
Lemma strict_sane : sane Ps.
Proof. repeat constructor. Qed.
Lemma strict_accepts : forall s debug, ascii s -> forall ast, (exists fuel, parse_with_debug fuel s (strict_rules o c) debug = Ok ast) <->
  exists body l, s = o ++ body /\ closes o c body l [] /\ ast = Rule main [item_tree o c (Inner l)].
Proof.
  intros s debug A ast. unfold strict_rules. rewrite (accepts_of Ps strict_sane s debug A ast). split.
  - intros (t & -> & D). destruct (strict_comment s) as [(b & l & rest & E & H & D')|[_ D']]; pose proof (peg_det _ _ _ _ D _ D') as X; [|discriminate].
    injection X as -> <-. exists b, l. repeat split; assumption.
  - intros (b & l & -> & H & ->). eexists. split; [reflexivity|]. destruct (strict_comment (o ++ b)) as [(b' & l' & rest & E & H' & D')|[N _]]; [|destruct (N b l [] eq_refl H)].
    apply app_inv_head in E. subst b'. destruct (closes_det _ _ _ H _ _ H') as [<- <-]. exact D'.
Qed.
Lemma strict_rejects : forall s debug, ascii s -> (forall body l, s = o ++ body -> ~ closes o c body l []) ->
  exists fuel er, parse_with_debug fuel s (strict_rules o c) debug = Err er /\ e_priority er = Normal.
Proof.
  intros s debug A N. apply (rejects_of Ps strict_sane s debug A). destruct (strict_comment s) as [(b & l & rest & E & H & D)|[_ D]]; [right|left; exact D].
  eexists. exists rest. split; [|exact D]. intros ->. exact (N b l E H).
Qed.
End Marks.
