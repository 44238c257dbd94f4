(** Every parse of a grammar text yields a tree of the shape the token consumer understands, and, unless the tree
    has a defect, the text is one of the written syntax, with that meaning. *)
From Verif Require Import Base ModelAst ModelParser ModelPegRules ModelPeg SpecPeg SpecSyntax ProofParser ProofEngine ProofAst ProofConsume PegTools PegNames PegLeaf.

Definition haseol (s : str) : Prop := In ch_cr s \/ In ch_nl s.

Lemma haseol_app : forall a s, haseol s -> haseol (a ++ s).
Proof. intros a s [H|H]; [left|right]; apply in_or_app; auto. Qed.
Lemma haseol_l : forall a s, haseol a -> haseol (a ++ s).
Proof. intros a s [H|H]; [left|right]; apply in_or_app; auto. Qed.

Lemma haseol_split : forall s, haseol s -> exists c e r, s = c ++ e ++ r /\ ~ In ch_cr c /\ ~ In ch_nl c /\ eol e.
Proof.
  induction s as [|x s IH]; intro H; [destruct H as [[]|[]]|].
  destruct (N.eq_dec x ch_cr) as [->|N1]; [exists [], [ch_cr], s; repeat split; [intros []|intros []|constructor]|].
  destruct (N.eq_dec x ch_nl) as [->|N2]; [exists [], [ch_nl], s; repeat split; [intros []|intros []|constructor]|].
  destruct IH as (c & e & r & -> & H1 & H2 & E).
  { destruct H as [[?|H]|[?|H]]; [congruence|left; exact H|congruence|right; exact H]. }
  exists (x :: c), e, r. split; [reflexivity|]. split; [intros [?|I]; [congruence|exact (H1 I)]|]. split; [intros [?|I]; [congruence|exact (H2 I)]|exact E].
Qed.

Lemma clean_slash_hd : forall s, haseol s -> clean (47%N :: s) -> hd_error s <> Some 47%N.
Proof.
  intros s H [_ C] E. destruct s as [|x s]; [discriminate|]. injection E as ->.
  assert (H' : haseol s). { destruct H as [[?|H]|[?|H]]; [discriminate|left; exact H|discriminate|right; exact H]. }
  destruct (haseol_split s H') as (c & e & r & -> & N1 & N2 & Ee).
  apply (C (s_ "//" ++ c ++ e) r); [constructor; assumption|]. rewrite <- !app_assoc. reflexivity.
Qed.

Lemma clean_blank : forall b s, blank b -> clean (b ++ s) -> b = [].
Proof.
  intros b s B [C1 C2]. destruct B as [|b B|e b E B|c b C B]; [reflexivity| | |]; exfalso.
  - destruct (C1 ch_space (b ++ s) eq_refl) as [N _]. congruence.
  - destruct (eol_head e E) as (x & y & -> & I). destruct (C1 x ((y ++ b) ++ s) eq_refl) as [_ N]. contradiction.
  - rewrite <- app_assoc in C2. exact (C2 c (b ++ s) C eq_refl).
Qed.

(** The statement for one syntactic category. *)
Definition inv_at {A} (n : nat) (nm : str) (T : node -> option A -> Prop) (W : str -> A -> Prop) : Prop :=
  forall s ts rest, length s <= n -> haseol rest -> peg PG (RuleName nm) s (PMatch ts rest) ->
  exists x o, ts = [x] /\ T x o /\ forall v, o = Some v -> exists t, W t v /\ s = t ++ rest.

Lemma atom_inv : forall s ts rest, peg PG (RuleName (s_ "atom")) s (PMatch ts rest) ->
  exists x o, ts = [x] /\ t_atom x o /\ forall v, o = Some v -> exists t, atom_text t v /\ s = t ++ rest.
Proof.
  intros s ts rest H. eapply inv_nt in H; [|exact g_atom]. destruct H as (k & -> & M). cbn in M.
  apply inv_or_cons in M. destruct M as [M|[_ M]].
  { apply lit_fwd in M. destruct M as (x & o & -> & T & K). eexists _, _. split; [reflexivity|]. split; [apply ta_lit; exact T|].
    intros v E. destruct o as [u|]; [|discriminate]. injection E as <-. destruct K as (t & L & ->). exists t. split; [constructor; exact L|reflexivity]. }
  apply inv_or_cons in M. destruct M as [M|[_ M]].
  { apply class_fwd in M. destruct M as (x & cs & rg & t & -> & T & K & ->). eexists _, _. split; [reflexivity|]. split; [apply ta_class; exact T|].
    intros v E. injection E as <-. exists t. split; [constructor; exact K|reflexivity]. }
  apply inv_or_cons in M. destruct M as [M|[_ M]].
  { apply name_fwd in M. destruct M as (n & x & -> & T & K & -> & _). eexists _, _. split; [reflexivity|]. split; [apply ta_name; exact T|].
    intros v E. injection E as <-. exists n. split; [constructor; exact K|reflexivity]. }
  apply inv_or_cons in M. destruct M as [M|[_ M]]; [|destruct (inv_or_nil _ _ _ M)].
  eapply inv_nt in M; [|exact g_dot]. destruct M as (k2 & -> & M). cbn in M. inv_m.
  eexists _, _. split; [reflexivity|]. split; [apply ta_dot|]. intros v E. injection E as <-. eexists. split; [constructor|reflexivity].
Qed.

Lemma unit_inv : forall n, (forall m, m < n -> inv_at m (s_ "expr") t_expr expr_text) -> inv_at n (s_ "atom_or_par") t_unit unit_text.
Proof.
  intros n IH s ts rest L He H. eapply inv_nt in H; [|exact g_atom_or_par]. destruct H as (k & -> & M). cbn in M.
  apply inv_or_cons in M. destruct M as [M|[_ M]].
  { apply atom_inv in M. destruct M as (x & o & -> & T & K). eexists _, _. split; [reflexivity|]. split; [apply tu_atom; exact T|].
    intros v E. destruct (K v E) as (t & W & ->). exists t. split; [constructor; exact W|reflexivity]. }
  apply inv_or_cons in M. destruct M as [M|[_ M]]; [|destruct (inv_or_nil _ _ _ M)].
  eapply inv_nt in M; [|exact g_parenth]. destruct M as (k2 & -> & M). cbn in M. inv_m.
  match goal with H : peg PG (Or _) _ _ |- _ => apply inv_or_cons in H; destruct H as [H|[_ H]]; [|apply inv_or_cons in H; destruct H as [H|[_ H]]; [destruct (inv_error _ _ _ _ _ H)|destruct (inv_or_nil _ _ _ H)]] end.
  inv_m. repeat match goal with H : peg PG (RuleName (s_ "_")) _ _ |- _ => apply blank_fwd in H; let B := fresh "B" in destruct H as (? & ? & B & -> & -> & _) end.
  match goal with H : peg PG (RuleName (s_ "expr")) ?s0 (PMatch _ ?r0) |- _ => rename H into M;
    assert (Lt : length s0 < n) by (rewrite !app_length in L; change (length (s_ "(")) with 1 in L; lia);
    assert (Hr : haseol r0) by (do 2 apply haseol_app; exact He);
    destruct (IH (length s0) Lt s0 _ _ (le_n _) Hr M) as (y & o & -> & T & K) end.
  eexists _, o. split; [reflexivity|]. split; [cbn [app]; apply tu_par; exact T|].
  intros v E. destruct (K v E) as (t & W & ->). eexists. split; [apply ut_par; [exact B0|exact W|exact B]|]. rewrite <- !app_assoc. reflexivity.
Qed.

Lemma item_inv : forall n, (forall m, m < n -> inv_at m (s_ "expr") t_expr expr_text) -> inv_at n (s_ "rep_or_neg") t_item item_text.
Proof.
  intros n IH s ts rest L He H. eapply inv_nt in H; [|exact g_rep_or_neg]. destruct H as (k & -> & M). cbn in M.
  apply inv_or_cons in M. destruct M as [M|[_ M]].
  - apply inv_and_cons in M. destruct M as (t1 & s1 & t2 & -> & M1 & M2). apply inv_and_cons in M2. destruct M2 as (t3 & s2 & t4 & -> & M2 & M3).
    apply inv_and_nil in M3. destruct M3 as [-> <-]. apply inv_opt in M2.
    assert (He1 : haseol s1). { destruct M2 as [[_ <-]|M2]; [exact He|]. apply peg_split in M2. destruct M2 as (c & ->). apply haseol_app. exact He. }
    destruct (unit_inv n IH _ _ _ L He1 M1) as (x & o & -> & T & K).
    destruct M2 as [[-> <-]|M2].
    { eexists _, _. split; [reflexivity|]. split; [apply ti_one; exact T|]. intros v E. destruct (K v E) as (t & W & ->). exists t. split; [constructor; exact W|reflexivity]. }
    repeat (apply inv_or_cons in M2; destruct M2 as [M2|[_ M2]]; [inv_m; eexists _, _; (split; [reflexivity|]); 
      (split; [cbn [app]; first [apply ti_star|apply ti_plus|apply ti_opt]; exact T|]); intros v E; (destruct o as [e|]; [|discriminate]); injection E as <-;
      destruct (K e eq_refl) as (t & W & ->); eexists; (split; [first [apply it_star|apply it_plus|apply it_opt]; exact W|rewrite <- !app_assoc; reflexivity])|]).
    destruct (inv_or_nil _ _ _ M2).
  - apply inv_or_cons in M. destruct M as [M|[_ M]]; [|destruct (inv_or_nil _ _ _ M)]. inv_m.
    match goal with H : peg PG (RuleName _) _ _ |- _ => rename H into M; apply (unit_inv n IH) in M; [destruct M as (x & o & -> & T & K)| |exact He] end.
    + eexists _, _. split; [reflexivity|]. split; [cbn [app]; apply ti_not; exact T|]. intros v E. destruct o as [e|]; [|discriminate]. injection E as <-.
      destruct (K e eq_refl) as (t & W & ->). eexists. split; [apply it_not; exact W|rewrite <- !app_assoc; reflexivity].
    + rewrite app_length in L. lia.
Qed.

Definition header : expr := And [RuleName (s_ "rule_name"); RuleName (s_ "_"); Or [Simple (Literal (s_ "=")); Simple (Literal (s_ "{"))]].
Definition cont : expr := And [RuleName (s_ "_1"); RuleName (s_ "_"); Not header; RuleName (s_ "and")].

Lemma cont_inv : forall n, (forall m, m < n -> inv_at m (s_ "and") t_seq seq_text) ->
  forall s ts rest, length s <= n -> haseol rest -> peg PG cont s (PMatch ts rest) ->
  exists k1 k2 y o, ts = [b1_node k1; b_node k2; y] /\ t_seq y o /\ (exists k, y = Rule (s_ "and") k) /\
    forall es, o = Some es -> exists sp t, separator sp /\ seq_text t es /\ s = sp ++ t ++ rest.
Proof.
  intros n IH s ts rest L He H. unfold cont in H.
  apply inv_and_cons in H. destruct H as (t1 & s1 & t2 & -> & M1 & H). apply inv_and_cons in H. destruct H as (t3 & s2 & t4 & -> & M2 & H).
  apply inv_and_cons in H. destruct H as (t5 & s3 & t6 & -> & M3 & H). apply inv_not in M3. destruct M3 as [-> ->].
  apply inv_and_cons in H. destruct H as (t7 & s4 & t8 & -> & M4 & H). apply inv_and_nil in H. destruct H as [-> ->].
  destruct (sep_fwd _ _ _ _ _ M1 M2) as (sp & k1 & k2 & Sp & -> & -> & -> & _).
  assert (Y : exists k, t7 = [Rule (s_ "and") k]). { eapply inv_nt in M4; [|exact g_and]. destruct M4 as (k & -> & _). eauto. }
  destruct (sep_head sp Sp) as (c & r & E0 & _).
  assert (Lt : length s2 < n) by (rewrite app_length, E0 in L; cbn in L; lia).
  destruct (IH (length s2) Lt s2 _ _ (le_n _) He M4) as (y & o & -> & T & K).
  exists k1, k2, y, o. split; [reflexivity|]. split; [exact T|]. split; [destruct Y as (k & E); injection E as ->; eauto|].
  intros es E. destruct (K es E) as (t & W & ->). exists sp, t. auto.
Qed.

Lemma seq_inv : forall n, (forall m, m < n -> inv_at m (s_ "expr") t_expr expr_text) -> inv_at n (s_ "and") t_seq seq_text.
Proof.
  induction n as [n IHn] using lt_wf_ind. intro IH.
  assert (IHs : forall m, m < n -> inv_at m (s_ "and") t_seq seq_text). { intros m Hm. apply IHn; [exact Hm|]. intros k Hk. apply IH. lia. }
  clear IHn. intros s ts rest L He H. eapply inv_nt in H; [|exact g_and]. destruct H as (k & -> & M). cbn in M. fold header in M. fold cont in M.
  apply inv_or_cons in M. destruct M as [M|[F M]].
  { apply error_fwd in M. destruct M as (x & o & -> & T & K). eexists _, _. split; [reflexivity|]. split; [apply tq_error; exact T|].
    intros v E. destruct o as [u|]; [|discriminate]. injection E as <-. destruct K as (t & W & ->). exists t. split; [constructor; exact W|reflexivity]. }
  apply inv_or_cons in M. destruct M as [M|[_ M]]; [|destruct (inv_or_nil _ _ _ M)].
  apply inv_and_cons in M. destruct M as (t1 & s1 & t2 & -> & M1 & M2). apply inv_and_cons in M2. destruct M2 as (t3 & s2 & t4 & -> & M2 & M3).
  apply inv_and_nil in M3. destruct M3 as [-> <-]. apply inv_rep0 in M2. destruct M2 as (l & St & -> & _). rewrite app_nil_r.
  assert (Sf : forall s l r, star PG cont s l r -> exists c, s = c ++ r).
  { clear. intros s l r St. induction St as [s|s t s1 ts r H1 H2 (c & ->)]; [exists []; reflexivity|]. apply peg_split in H1. destruct H1 as (d & ->). exists (d ++ c). apply app_assoc. }
  assert (He1 : haseol s1). { destruct (Sf _ _ _ St) as (c & ->). apply haseol_app. exact He. }
  assert (L1 : length s1 <= length s) by (eapply match_le; exact M1).
  destruct (item_inv n IH _ _ _ L He1 M1) as (x & o & -> & T & K). cbn [app].
  assert (NE : forall t r, s = t ++ r -> ~ starts_with_error t).
  { intros t r -> (z & v & r' & Ez & ->). rewrite <- app_assoc in F. destruct (error_bwd z v (r' ++ r) Ez) as (y & My & _). exact (fail_nomatch _ _ F _ _ My). }
  destruct o as [e|]; [|eexists _, _; split; [reflexivity|]; split; [apply tq_bad; exact T|discriminate]].
  inversion St as [|? m1 s3 l' ? N1 N2]; subst.
  { eexists _, _. split; [reflexivity|]. split; [apply tq_one; exact T|]. intros es E. cbn in E. injection E as <-.
    destruct (K e eq_refl) as (t & W & E). exists t. split; [apply st_one; [exact W|apply (NE t rest E)]|exact E]. }
  assert (He3 : haseol s3). { destruct (Sf _ _ _ N2) as (c & ->). apply haseol_app. exact He. }
  assert (L3 : length s3 <= length s1) by (eapply match_le; exact N1).
  assert (L1' : length s1 <= n) by lia.
  destruct (cont_inv n IHs _ _ _ L1' He3 N1) as (k1 & k2 & y & o & -> & Ty & _ & Ky).
  inversion N2 as [|? m2 s4 l2 ? N3 N4]; subst.
  { eexists _, _. split; [reflexivity|]. split; [cbn [concat app]; apply tq_more; [exact T|exact Ty]|].
    intros es E. destruct o as [es'|]; [|discriminate]. cbn in E. injection E as <-. destruct (Ky es' eq_refl) as (sp & t2 & Sp & W2 & E1).
    destruct (K e eq_refl) as (t & W & E). exists (t ++ sp ++ t2). assert (E' : s = (t ++ sp ++ t2) ++ rest) by (rewrite <- !app_assoc, E, E1; reflexivity).
    split; [apply st_more; [exact W|exact Sp|exact W2|exact (NE _ _ E')]|exact E']. }
  assert (He4 : haseol s4). { destruct (Sf _ _ _ N4) as (c & ->). apply haseol_app. exact He. }
  assert (L3' : length s3 <= n) by lia.
  destruct (cont_inv n IHs _ _ _ L3' He4 N3) as (k3 & k4 & y2 & o2 & -> & _ & (k5 & ->) & _).
  eexists _, None. split; [reflexivity|]. split; [cbn [concat app]; eapply tq_extra; [exact T|exact Ty]|discriminate].
Qed.

Lemma choice_inv : forall n, (forall m, m < n -> inv_at m (s_ "expr") t_expr expr_text) -> inv_at n (s_ "or") t_choice choice_text.
Proof.
  induction n as [n IHn] using lt_wf_ind. intro IH.
  assert (IHc : forall m, m < n -> inv_at m (s_ "or") t_choice choice_text). { intros m Hm. apply IHn; [exact Hm|]. intros k Hk. apply IH. lia. }
  clear IHn. intros s ts rest L He H. eapply inv_nt in H; [|exact g_or]. destruct H as (k & -> & M). cbn in M.
  apply inv_and_cons in M. destruct M as (t1 & s1 & t2 & -> & M1 & M2). apply inv_and_cons in M2. destruct M2 as (t3 & s2 & t4 & -> & M2 & M3).
  apply inv_and_nil in M3. destruct M3 as [-> <-]. apply inv_opt in M2. rewrite app_nil_r.
  assert (L1 : length s1 <= length s) by (eapply match_le; exact M1).
  assert (He1 : haseol s1). { destruct M2 as [[_ <-]|M2]; [exact He|]. apply peg_split in M2. destruct M2 as (c & ->). apply haseol_app. exact He. }
  destruct (seq_inv n IH _ _ _ L He1 M1) as (x & o & -> & T & K). destruct M2 as [[-> <-]|M2].
  - eexists _, _. split; [reflexivity|]. split; [apply tch_one; exact T|]. intros v E. destruct o as [es|]; [|discriminate]. cbn in E. injection E as <-.
    destruct (K es eq_refl) as (t & W & ->). exists t. split; [apply ct_one; exact W|reflexivity].
  - destruct o as [es|]; [|eexists _, _; split; [reflexivity|]; split; [cbn [app]; apply tch_bad; exact T|discriminate]].
    destruct (K es eq_refl) as (t & W & ->). clear K.
    apply inv_and_cons in M2. destruct M2 as (t5 & s5 & t6 & -> & N1 & M2). apply inv_and_cons in M2. destruct M2 as (t7 & s6 & t8 & -> & N2 & M2).
    apply inv_and_cons in M2. destruct M2 as (t9 & s7 & t10 & -> & N3 & M2). apply inv_and_cons in M2. destruct M2 as (t11 & s8 & t12 & -> & N4 & M2).
    apply inv_and_nil in M2. destruct M2 as [-> <-]. apply blank_fwd in N1. destruct N1 as (b1 & k1 & B1 & -> & -> & C1). apply inv_lit in N2. destruct N2 as [-> ->].
    apply blank_fwd in N3. destruct N3 as (b2 & k2 & B2 & -> & -> & C2).
    assert (Hb : hd_error b2 <> Some 47%N).
    { intro E. apply clean_slash_hd in C1; [|apply haseol_app; apply peg_split in N4; destruct N4 as (c & ->); apply haseol_app; exact He].
      apply C1. destruct b2; [discriminate|]. exact E. }
    assert (Lt : length s7 < n) by (rewrite !app_length in L1, L; change (length (s_ "/")) with 1 in *; lia).
    destruct (IHc (length s7) Lt s7 _ _ (le_n _) He N4) as (y & o & -> & Ty & Ky).
    eexists _, _. split; [reflexivity|]. split; [cbn [app]; apply tch_more; [exact T|exact Ty]|].
    intros v E. destruct o as [xs|]; [|discriminate]. cbn in E. injection E as <-. destruct (Ky xs eq_refl) as (t2 & W2 & ->).
    exists (t ++ b1 ++ s_ "/" ++ b2 ++ t2). split; [apply ct_more; assumption|rewrite <- !app_assoc; reflexivity].
Qed.

Theorem expr_inv : forall n, inv_at n (s_ "expr") t_expr expr_text.
Proof.
  induction n as [n IH] using lt_wf_ind. intros s ts rest L He H. eapply inv_nt in H; [|exact g_expr]. destruct H as (k & -> & M). cbn in M.
  destruct (choice_inv n IH _ _ _ L He M) as (x & o & -> & T & K). eexists _, _. split; [reflexivity|]. split; [apply tx; exact T|].
  intros v E. destruct o as [xs|]; [|discriminate]. cbn in E. injection E as <-. destruct (K xs eq_refl) as (t & W & ->). exists t. split; [constructor; exact W|reflexivity].
Qed.

(* ------------------------------------------------------------------------------------------- *)
(** * Definitions *)

Definition one_def : expr := Or [RuleName (s_ "rule"); RuleName (s_ "module")].

Definition def_at (s : str) (ts : list node) (rest : str) : Prop :=
  exists x o, ts = [x] /\ t_def x o /\ clean rest /\ length rest < length s /\
    forall d, o = Some d -> exists b t, blank b /\ def_text t d /\ s = b ++ t ++ rest /\ (clean s -> b = []).

Definition defs_at (s : str) (nodes : list node) (rest : str) : Prop :=
  exists o, t_defs nodes o /\ (forall y, In y nodes -> exists o, t_def y o) /\
    forall l, o = Some l -> (l = [] /\ rest = s) \/ exists b t, blank b /\ defs_text t l /\ s = b ++ t ++ rest /\ (clean s -> b = []).

Lemma rule_inv : forall s ts rest, peg PG (RuleName (s_ "rule")) s (PMatch ts rest) -> def_at s ts rest.
Proof.
  intros s ts rest H. pose proof H as H0. eapply inv_nt in H; [|exact g_rule]. destruct H as (k & -> & M). cbn in M.
  apply inv_and_cons in M. destruct M as (t1 & s1 & m1 & -> & M1 & M). apply inv_and_cons in M. destruct M as (t2 & s2 & m2 & -> & M2 & M).
  apply inv_and_cons in M. destruct M as (t3 & s3 & m3 & -> & M3 & M). apply inv_and_cons in M. destruct M as (t4 & s4 & m4 & -> & M4 & M).
  apply inv_and_cons in M. destruct M as (t5 & s5 & m5 & -> & M5 & M). apply inv_and_cons in M. destruct M as (t6 & s6 & m6 & -> & M6 & M).
  apply inv_and_cons in M. destruct M as (t7 & s7 & m7 & -> & M7 & M). apply inv_and_cons in M. destruct M as (t8 & s8 & m8 & -> & M8 & M).
  apply inv_and_nil in M. destruct M as [-> <-].
  apply blank_fwd in M1. destruct M1 as (b0 & k1 & B0 & -> & -> & C0). apply name_fwd in M2. destruct M2 as (n & xn & -> & Tn & Wn & -> & _).
  apply blank_fwd in M3. destruct M3 as (b1 & k3 & B1 & -> & -> & _). apply inv_lit in M4. destruct M4 as [-> ->].
  apply blank_fwd in M5. destruct M5 as (b2 & k5 & B2 & -> & -> & _). apply end_fwd in M7. destruct M7 as (r & k7 & R & -> & ->).
  apply blank_fwd in M8. destruct M8 as (b3 & k8 & B3 & -> & -> & C3).
  destruct (expr_inv (length s5) s5 t6 _ (le_n _) (haseol_l _ _ (end_has_eol r R)) M6) as (x & o & -> & T & K).
  eexists _, _. split; [reflexivity|]. split; [cbn [app]; apply tf_rule; [exact Tn|exact T]|]. split; [exact C3|].
  split.
  { apply match_le in M6. destruct (name_head n Wn) as (c & y & -> & _). repeat (rewrite app_length || cbn [length app]). rewrite !app_length in M6. lia. }
  intros d E. destruct o as [e|]; [|discriminate]. cbn in E. injection E as <-. destruct (K e eq_refl) as (t & W & ->).
  exists b0, (n ++ b1 ++ s_ "=" ++ b2 ++ t ++ r ++ b3). split; [exact B0|]. split; [apply df_rule; assumption|].
  split; [rewrite <- !app_assoc; reflexivity|]. intro C. exact (clean_blank _ _ B0 C).
Qed.

Lemma defs_inv : forall n, (forall s ts rest, length s <= n -> peg PG one_def s (PMatch ts rest) -> def_at s ts rest) ->
  forall s l rest, length s <= n -> star PG one_def s l rest -> defs_at s (concat l) rest.
Proof.
  intros n IH s l rest L St. revert L. induction St as [s|s t s1 ts rest H1 H2 IHs]; intro L.
  - exists (Some []). split; [constructor|]. split; [intros y []|]. intros l E. injection E as <-. left. auto.
  - destruct (IH _ _ _ L H1) as (x & o & -> & T & C & Lt & K). destruct IHs as (o2 & T2 & A2 & K2); [lia|]. cbn [concat app].
    assert (A : forall y, In y (x :: concat ts) -> exists o, t_def y o). { intros y [<-|I]; eauto. }
    destruct o as [d|]; [|exists None; split; [apply tds_bad; [exact T|exact A2]|]; split; [exact A|discriminate]].
    exists (option_map (cons d) o2). split; [apply tds_more; assumption|]. split; [exact A|].
    intros l E. destruct o2 as [l2|]; [|discriminate]. cbn in E. injection E as <-. right.
    destruct (K d eq_refl) as (b & t & B & W & -> & Cb). exists b. destruct (K2 l2 eq_refl) as [[-> ->]|(b2 & t2 & B2 & W2 & -> & Cb2)].
    + exists t. split; [exact B|]. split; [constructor; exact W|]. split; [reflexivity|exact Cb].
    + rewrite (Cb2 C) in *. exists (t ++ t2). split; [exact B|]. split; [constructor; assumption|]. split; [rewrite <- app_assoc; reflexivity|exact Cb].
Qed.

Lemma defs_clean : forall s l rest, (forall s ts rest, peg PG one_def s (PMatch ts rest) -> clean rest) -> star PG one_def s l rest -> l <> [] -> clean rest.
Proof.
  intros s l rest IH St N. induction St as [s|s t s1 ts rest H1 H2 IHs]; [congruence|].
  destruct ts as [|t2 ts]; [inversion H2; subst; exact (IH _ _ _ H1)|]. apply IHs. discriminate.
Qed.

Lemma one_clean : forall s ts rest, peg PG one_def s (PMatch ts rest) -> clean rest.
Proof.
  intros s ts rest M. unfold one_def in M. apply inv_or_cons in M. destruct M as [M|[_ M]].
  - apply rule_inv in M. destruct M as (x & o & _ & _ & C & _). exact C.
  - apply inv_or_cons in M. destruct M as [M|[_ M]]; [|destruct (inv_or_nil _ _ _ M)].
    eapply inv_nt in M; [|exact g_module]. destruct M as (k & -> & M). cbn in M.
    repeat (apply inv_and_cons in M; destruct M as (? & ? & ? & -> & ? & M)). apply inv_and_nil in M. destruct M as [-> <-].
    repeat match goal with H : peg PG (RuleName (s_ "_")) _ (PMatch _ rest) |- _ => apply blank_fwd in H; destruct H as (? & ? & _ & _ & _ & C); exact C end.
Qed.

Lemma grammar_inv : forall n, (forall s ts rest, length s <= n -> peg PG one_def s (PMatch ts rest) -> def_at s ts rest) ->
  forall s ts rest, length s <= n -> peg PG (RuleName (s_ "grammar")) s (PMatch ts rest) ->
  exists x o, ts = [x] /\ t_grammar x o /\ clean rest /\
    forall l, o = Some l -> exists b t, blank b /\ defs_text t l /\ s = b ++ t ++ rest /\ (clean s -> b = []).
Proof.
  intros n IH s ts rest L H. eapply inv_nt in H; [|exact g_grammar]. destruct H as (k & -> & M). cbn in M. fold one_def in M.
  apply inv_rep1 in M. destruct M as (t & l & s1 & M1 & St & -> & _). assert (St1 := star_cons PG one_def _ _ _ _ _ M1 St).
  pose proof (defs_inv n IH _ _ _ L St1) as (o & T & _ & K). cbn [concat] in T. eexists _, o. split; [reflexivity|]. split; [constructor; exact T|].
  split; [eapply defs_clean; [exact one_clean|exact St1|discriminate]|]. intros l0 E. destruct (K l0 E) as [[_ Er]|Q]; [|exact Q].
  exfalso. destruct (IH _ _ _ L M1) as (x & o1 & _ & _ & _ & Lt & _). subst rest.
  assert (Sf : forall s l r, star PG one_def s l r -> length r <= length s).
  { clear. intros s l r St. induction St as [s|s t s1 ts r H1 H2 IH]; [lia|]. apply match_le in H1. lia. }
  apply Sf in St. lia.
Qed.

Theorem def_inv : forall n s ts rest, length s <= n -> peg PG one_def s (PMatch ts rest) -> def_at s ts rest.
Proof.
  induction n as [n IH] using lt_wf_ind. intros s ts rest L M. unfold one_def in M.
  apply inv_or_cons in M. destruct M as [M|[_ M]]; [apply rule_inv; exact M|].
  apply inv_or_cons in M. destruct M as [M|[_ M]]; [|destruct (inv_or_nil _ _ _ M)].
  eapply inv_nt in M; [|exact g_module]. destruct M as (k & -> & M). cbn in M.
  apply inv_and_cons in M. destruct M as (t1 & s1 & m1 & -> & M1 & M). apply inv_and_cons in M. destruct M as (t2 & s2 & m2 & -> & M2 & M).
  apply inv_and_cons in M. destruct M as (t3 & s3 & m3 & -> & M3 & M). apply inv_and_cons in M. destruct M as (t4 & s4 & m4 & -> & M4 & M).
  apply inv_and_cons in M. destruct M as (t5 & s5 & m5 & -> & M5 & M). apply inv_and_cons in M. destruct M as (t6 & s6 & m6 & -> & M6 & M).
  apply inv_and_cons in M. destruct M as (t7 & s7 & m7 & -> & M7 & M). apply inv_and_cons in M. destruct M as (t8 & s8 & m8 & -> & M8 & M).
  apply inv_and_cons in M. destruct M as (t9 & s9 & m9 & -> & M9 & M). apply inv_and_cons in M. destruct M as (t10 & s10 & m10 & -> & M10 & M).
  apply inv_and_nil in M. destruct M as [-> <-].
  assert (Ls5 : length s5 < length s /\ length rest < length s).
  { pose proof (match_le _ _ _ _ M1). pose proof (match_le _ _ _ _ M2). pose proof (match_le _ _ _ _ M3). pose proof (consumes_lit 123%N [] _ _ _ M4).
    pose proof (match_le _ _ _ _ M5). pose proof (match_le _ _ _ _ M6). pose proof (match_le _ _ _ _ M7). pose proof (match_le _ _ _ _ M8).
    pose proof (match_le _ _ _ _ M9). pose proof (match_le _ _ _ _ M10). lia. }
  destruct Ls5 as [Ls5 Lr].
  apply blank_fwd in M1. destruct M1 as (b0 & k1 & B0 & -> & -> & C0).
  eapply inv_nt in M2; [|exact g_mod_name]. destruct M2 as (k2 & -> & M2). cbn in M2. apply symbol_fwd in M2. destruct M2 as (m & xm & -> & Tm & Wm & -> & _).
  apply blank_fwd in M3. destruct M3 as (b1 & k3 & B1 & -> & -> & _). apply inv_lit in M4. destruct M4 as [-> ->].
  apply blank_fwd in M5. destruct M5 as (b2 & k5 & B2 & -> & -> & C2).
  destruct (grammar_inv (length s5)) with (3 := M6) as (x & o & -> & T & C6 & K).
  { intros s' ts' rest' L'. apply (IH (length s5)); [lia|exact L']. } { lia. }
  apply blank_fwd in M7. destruct M7 as (b6 & k7 & B6 & -> & -> & _). rewrite (clean_blank _ _ B6 C6) in *. cbn [app] in M6.
  apply inv_lit in M8. destruct M8 as [-> ->].
  apply end_fwd in M9. destruct M9 as (r & k9 & R & -> & ->). apply blank_fwd in M10. destruct M10 as (b3 & k10 & B3 & -> & -> & C3).
  eexists _, _. split; [reflexivity|]. split; [cbn [app]; apply tf_module; [exact Tm|exact T]|]. split; [exact C3|].
  split; [exact Lr|].
  intros d E. destruct o as [l|]; [|discriminate]. cbn in E. injection E as <-. destruct (K l eq_refl) as (b & t & B & W & -> & Cb). rewrite (Cb C2) in *.
  exists b0, (m ++ b1 ++ s_ "{" ++ b2 ++ t ++ s_ "}" ++ r ++ b3). split; [exact B0|]. split; [apply df_module; assumption|].
  split; [rewrite <- !app_assoc; reflexivity|]. intro C. exact (clean_blank _ _ B0 C).
Qed.

Theorem main_inv : forall s ts rest, peg PG (RuleName (s_ "main")) s (PMatch ts rest) ->
  exists x o, ts = [Rule (s_ "main") [x]] /\ t_grammar x o /\ forall l, o = Some l -> exists t, grammar_text t l /\ s = t ++ rest.
Proof.
  intros s ts rest H. eapply inv_nt in H; [|exact g_main]. destruct H as (k & -> & M). cbn in M.
  destruct (grammar_inv (length s)) with (3 := M) as (x & o & -> & T & _ & K); [intros s' ts' rest' L'; apply (def_inv (length s)); exact L'|lia|].
  exists x, o. split; [reflexivity|]. split; [exact T|]. intros l E. destruct (K l E) as (b & t & B & W & -> & _). exists (b ++ t).
  split; [exists b, t; auto|apply app_assoc].
Qed.
