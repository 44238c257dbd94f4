(** The lexical rules of the PEG grammar against the written syntax: layout, names, literals, classes, [error]. *)
From Verif Require Import Base ModelAst ModelParser ModelPegRules ModelPeg SpecPeg SpecSyntax ProofParser ProofEngine ProofAst ProofConsume PegTools PegNames.

(* ------------------------------------------------------------------------------------------- *)
(** * Deciding: always a match or a failure *)

Definition decid (e : expr) : Prop := forall s, peg PG e s PFail \/ exists ts rest, peg PG e s (PMatch ts rest).
Definition consumes (e : expr) : Prop := forall s ts rest, peg PG e s (PMatch ts rest) -> length rest < length s.

Lemma str_prefix_dec : forall (l s : str), (exists rest, s = l ++ rest) \/ (forall rest, s <> l ++ rest).
Proof.
  induction l as [|c l IH]; intro s; [left; exists s; reflexivity|]. destruct s as [|d s]; [right; discriminate|].
  destruct (N.eq_dec c d) as [->|N].
  - destruct (IH s) as [[r ->]|H]; [left; exists r; reflexivity|]. right. intros rest E. injection E as E. exact (H rest E).
  - right. intros rest E. injection E as E _. congruence.
Qed.

Lemma decid_lit : forall l, decid (Simple (Literal l)).
Proof.
  intros l s. destruct (str_prefix_dec l s) as [[r ->]|H]; [right; eexists; eexists; constructor|left; constructor; exact H].
Qed.

Lemma decid_class : forall cs rg, decid (Simple (Match cs rg)).
Proof.
  intros cs rg [|c s]; [left; apply peg_class_fail; discriminate|].
  destruct (match_char cs rg c) eqn:E.
  - right. do 2 eexists. apply peg_class_ok. apply match_char_iff. exact E.
  - left. apply peg_class_fail. intros d r Q C. injection Q as <- _. apply match_char_iff in C. congruence.
Qed.

Lemma decid_dot : decid (Simple Dot).
Proof. intros [|c s]; [left; constructor|right; do 2 eexists; constructor]. Qed.

Lemma decid_and : forall es, Forall decid es -> decid (And es).
Proof.
  induction es as [|e es IH]; intros F s; [right; do 2 eexists; constructor|]. inversion F as [|? ? F1 F2]; subst.
  destruct (F1 s) as [H|(ts & s1 & H)]; [left; apply mk_and_fail1; exact H|].
  destruct (IH F2 s1) as [H2|(us & s2 & H2)]; [left; eapply mk_and_fail; eassumption|].
  right. do 2 eexists. eapply mk_and; eassumption.
Qed.

Lemma decid_or : forall es, Forall decid es -> decid (Or es).
Proof.
  induction es as [|e es IH]; intros F s; [left; constructor|]. inversion F as [|? ? F1 F2]; subst.
  destruct (F1 s) as [H|(ts & s1 & H)]; [|right; do 2 eexists; apply mk_or1; exact H].
  destruct (IH F2 s) as [H2|(us & s2 & H2)]; [left; apply peg_or_next; assumption|].
  right. do 2 eexists. eapply peg_or_next; eassumption.
Qed.

Lemma decid_not : forall e, decid e -> decid (Not e).
Proof.
  intros e D s. destruct (D s) as [H|(ts & r & H)]; [right; do 2 eexists; apply mk_not; exact H|left; eapply peg_not_fail; exact H].
Qed.

Lemma decid_rep : forall e mn, decid e -> consumes e -> decid (Repeat e mn None).
Proof.
  intros e mn D C s. revert mn. remember (length s) as n eqn:E. revert s E.
  induction n as [n IH] using lt_wf_ind. intros s -> mn. destruct (D s) as [H|(ts & r & H)].
  - destruct mn as [|mn]; [right; do 2 eexists; apply peg_rep_done; [discriminate|exact H]|left; apply peg_rep_short; [discriminate|lia|exact H]].
  - destruct (IH (length r) (C _ _ _ H) r eq_refl (pred mn)) as [H2|(us & s2 & H2)].
    + left. exact (peg_rep_more PG e mn None s ts r PFail ltac:(discriminate) H H2).
    + right. do 2 eexists. exact (peg_rep_more PG e mn None s ts r _ ltac:(discriminate) H H2).
Qed.

Lemma decid_opt : forall e, decid e -> decid (Repeat e 0 (Some 1)).
Proof.
  intros e D s. destruct (D s) as [H|(ts & r & H)]; right; do 2 eexists; [apply mk_opt_none; exact H|apply mk_opt_some; exact H].
Qed.

Lemma decid_rule : forall n e, PG n = Some e -> decid e -> decid (RuleName n).
Proof.
  intros n e E D s. destruct (D s) as [H|(ts & r & H)]; [left; eapply mk_rule_fail; eassumption|].
  right. do 2 eexists. eapply mk_rule; eassumption.
Qed.

Lemma match_le : forall e s ts rest, peg PG e s (PMatch ts rest) -> length rest <= length s.
Proof. intros e s ts rest H. apply peg_split in H. destruct H as [c ->]. rewrite app_length. lia. Qed.

Lemma consumes_lit : forall c l, consumes (Simple (Literal (c :: l))).
Proof. intros c l s ts rest H. apply inv_lit in H. destruct H as [_ ->]. rewrite app_length. cbn. lia. Qed.
Lemma consumes_class : forall cs rg, consumes (Simple (Match cs rg)).
Proof. intros cs rg s ts rest H. apply inv_class in H. destruct H as (c & _ & -> & _). cbn. lia. Qed.
Lemma consumes_dot : consumes (Simple Dot).
Proof. intros s ts rest H. apply inv_dot in H. destruct H as (c & -> & _). cbn. lia. Qed.
Lemma consumes_and : forall es, Exists consumes es -> consumes (And es).
Proof.
  intros es E. induction E as [e es C|e es E IH]; intros s ts rest H; apply inv_and_cons in H; destruct H as (t1 & s1 & t2 & -> & H1 & H2).
  - apply match_le in H2. specialize (C _ _ _ H1). lia.
  - apply match_le in H1. specialize (IH _ _ _ H2). lia.
Qed.
Lemma consumes_or : forall es, Forall consumes es -> consumes (Or es).
Proof.
  intros es F s ts rest H. apply inv_or in H. destruct H as (l1 & e & l2 & -> & H & _). rewrite Forall_forall in F.
  apply (F e (in_elt e l1 l2) s ts rest H).
Qed.
Lemma consumes_rule : forall n e, PG n = Some e -> consumes e -> consumes (RuleName n).
Proof. intros n e E C s ts rest H. eapply inv_nt in H; [|exact E]. destruct H as (k & -> & H). exact (C _ _ _ H). Qed.
Lemma consumes_rep1 : forall e, consumes e -> consumes (Repeat e 1 None).
Proof.
  intros e C s ts rest H. pose proof H as H'. apply inv_rep1 in H. destruct H as (t & l & s1 & H & St & _ & _). specialize (C _ _ _ H).
  assert (length rest <= length s1). { clear - St. induction St as [|s t s1 ts rest H1 H2 IH]; [lia|]. apply match_le in H1. lia. } lia.
Qed.

Lemma nomatch_fails : forall e s, decid e -> (forall ts rest, ~ peg PG e s (PMatch ts rest)) -> peg PG e s PFail.
Proof. intros e s D N. destruct (D s) as [H|(ts & r & H)]; [exact H|destruct (N _ _ H)]. Qed.

Lemma fail_nomatch : forall e s, peg PG e s PFail -> forall ts rest, ~ peg PG e s (PMatch ts rest).
Proof. intros e s H ts rest H2. pose proof (peg_det _ _ _ _ H _ H2). discriminate. Qed.

Ltac fa := repeat first [apply Forall_nil | apply Forall_cons].

(** Splitting hypotheses about matches. *)
Ltac inv_m :=
  repeat match goal with
  | H : peg PG (And (_ :: _)) _ (PMatch _ _) |- _ =>
      let t1 := fresh "t" in let s1 := fresh "s" in let t2 := fresh "t" in
      apply inv_and_cons in H; destruct H as (t1 & s1 & t2 & -> & ? & ?)
  | H : peg PG (And []) _ (PMatch _ _) |- _ => let E := fresh in apply inv_and_nil in H; destruct H as [-> E]; match type of E with ?r = ?s => first [subst s | subst r] end
  | H : peg PG (Simple (Literal _)) _ (PMatch _ _) |- _ => apply inv_lit in H; destruct H as [-> ->]
  | H : peg PG (Simple Dot) _ (PMatch _ _) |- _ => apply inv_dot in H; let c := fresh "c" in destruct H as (c & -> & ->)
  | H : peg PG (Simple (AError _)) _ (PMatch _ _) |- _ => destruct (inv_error PG _ _ _ _ H)
  end.

(* ------------------------------------------------------------------------------------------- *)
(** * Line breaks *)

Definition is_eolc (c : char) : Prop := c = ch_cr \/ c = ch_nl.

Lemma decid_eol : decid (RuleName (s_ "eol")).
Proof. eapply decid_rule; [exact g_eol|]. apply decid_or. fa; apply decid_lit. Qed.
Lemma consumes_eol : consumes (RuleName (s_ "eol")).
Proof. eapply consumes_rule; [exact g_eol|]. apply consumes_or. fa; apply consumes_lit. Qed.

(** A line break before [rest] is complete: it is not a CR before a LF. *)
Definition complete (e rest : str) : Prop := ~ (exists c0 r0, e = c0 ++ [ch_cr] /\ rest = ch_nl :: r0).

Lemma complete_other : forall c x rest, x <> ch_cr -> complete (c ++ [x]) rest.
Proof. intros c x rest N (c0 & r0 & E & _). apply app_inj_tail in E. destruct E as [_ E]. congruence. Qed.
Lemma complete_crlf : forall rest, complete [ch_cr; ch_nl] rest.
Proof. intro rest. apply (complete_other [ch_cr] ch_nl). discriminate. Qed.
Lemma complete_nl : forall rest, complete [ch_nl] rest.
Proof. intro rest. apply (complete_other [] ch_nl). discriminate. Qed.

Lemma inv_or_cons : forall e es s ts rest, peg PG (Or (e :: es)) s (PMatch ts rest) ->
  peg PG e s (PMatch ts rest) \/ (peg PG e s PFail /\ peg PG (Or es) s (PMatch ts rest)).
Proof. intros e es s ts rest H. inversion H; subst; auto. Qed.
Lemma inv_or_nil : forall s ts rest, peg PG (Or []) s (PMatch ts rest) -> False.
Proof. intros s ts rest H. inversion H. Qed.

Lemma eol_fwd : forall s ts rest, peg PG (RuleName (s_ "eol")) s (PMatch ts rest) ->
  exists e, eol e /\ s = e ++ rest /\ complete e rest.
Proof.
  intros s ts rest H. eapply inv_nt in H; [|exact g_eol]. destruct H as (k & -> & H). cbn in H.
  apply inv_or_cons in H. destruct H as [H|[F1 H]].
  { apply inv_lit in H. destruct H as [_ ->]. exists [ch_cr; ch_nl]. split; [constructor|]. split; [reflexivity|apply complete_crlf]. }
  apply inv_or_cons in H. destruct H as [H|[F2 H]].
  { apply inv_lit in H. destruct H as [_ ->]. exists [ch_nl]. split; [constructor|]. split; [reflexivity|apply complete_nl]. }
  apply inv_or_cons in H. destruct H as [H|[_ H]]; [|destruct (inv_or_nil _ _ _ H)].
  apply inv_lit in H. destruct H as [_ ->]. eexists. split; [apply eol_cr|]. split; [reflexivity|].
  intros (c0 & r0 & E & ->). apply (fail_nomatch _ _ F1 [Val [ch_cr; ch_nl]] r0). apply mk_lit. reflexivity.
Qed.

Lemma eol_bwd : forall e rest, eol e -> complete e rest -> exists ts, peg PG (RuleName (s_ "eol")) (e ++ rest) (PMatch ts rest).
Proof.
  intros e rest H C. destruct H; eexists; (eapply mk_rule; [exact g_eol|]); cbn [lit].
  - apply mk_or1. apply mk_lit. reflexivity.
  - apply peg_or_next; [apply peg_lit_fail; intros r E; discriminate|]. apply mk_or1. apply mk_lit. reflexivity.
  - apply peg_or_next; [apply peg_lit_fail; intros r E; cbn in E; injection E as E; apply C; exists [], r; split; [reflexivity|exact E]|].
    apply peg_or_next; [apply peg_lit_fail; intros r E; discriminate|]. apply mk_or1. apply mk_lit. reflexivity.
Qed.

Lemma eol_head : forall e, eol e -> exists c r, e = c :: r /\ is_eolc c.
Proof. intros e H. destruct H; do 2 eexists; (split; [reflexivity|]); unfold is_eolc; auto. Qed.

Lemma eol_fail : forall s, (forall c r, s = c :: r -> ~ is_eolc c) -> peg PG (RuleName (s_ "eol")) s PFail.
Proof.
  intros s H. apply nomatch_fails; [apply decid_eol|]. intros ts rest M. apply eol_fwd in M. destruct M as (e & E & -> & _).
  destruct (eol_head e E) as (c & r & -> & I). exact (H c (r ++ rest) eq_refl I).
Qed.

Lemma eol_starts : forall s, (exists c r, s = c :: r /\ is_eolc c) -> exists ts rest, peg PG (RuleName (s_ "eol")) s (PMatch ts rest).
Proof.
  intros s (c & r & -> & I). destruct (decid_eol (c :: r)) as [F|M]; [|exact M]. exfalso.
  destruct I as [->| ->].
  - destruct r as [|d r].
    + destruct (eol_bwd [ch_cr] [] eol_cr) as [ts M]; [intros (? & ? & _ & ?); discriminate|]. exact (fail_nomatch _ _ F _ _ M).
    + destruct (N.eq_dec d ch_nl) as [->|N].
      * destruct (eol_bwd [ch_cr; ch_nl] r eol_crlf) as [ts M]; [apply complete_crlf|]. exact (fail_nomatch _ _ F _ _ M).
      * destruct (eol_bwd [ch_cr] (d :: r) eol_cr) as [ts M]; [intros (? & ? & _ & E); injection E as E _; congruence|]. exact (fail_nomatch _ _ F _ _ M).
  - destruct (eol_bwd [ch_nl] r eol_nl) as [ts M]; [apply complete_nl|]. exact (fail_nomatch _ _ F _ _ M).
Qed.

(* ------------------------------------------------------------------------------------------- *)
(** * Scanning up to something *)

Lemma scan_fwd : forall X s l rest, decid X -> star PG (And [Not X; Simple Dot]) s l rest ->
  exists t, s = t ++ rest /\ l = map (fun c => [v1 c]) t /\ forall a b, t = a ++ b -> b <> [] -> peg PG X (b ++ rest) PFail.
Proof.
  intros X s l rest D H. induction H as [s|s t s1 ts rest H1 H2 (t2 & -> & -> & IH)].
  - exists []. split; [reflexivity|]. split; [reflexivity|]. intros a b E N. destruct a; [|discriminate]. cbn in E. congruence.
  - apply inv_and_cons in H1. destruct H1 as (n1 & s2 & d1 & -> & H1 & H3). pose proof (inv_not _ _ _ _ _ H1) as [-> ->].
    inv_m. exists (c :: t2). split; [reflexivity|]. split; [reflexivity|]. intros a b E N. destruct a as [|x a].
    + cbn in E. subst b. destruct (D ((c :: t2) ++ rest)) as [F|(us & r & M)]; [exact F|]. exfalso.
      pose proof (peg_not_fail PG _ _ _ _ M) as F. pose proof (peg_det _ _ _ _ F _ H1). discriminate.
    + injection E as _ E. apply (IH a b E N).
Qed.

Lemma scan_bwd : forall X t rest, (forall a b, t = a ++ b -> b <> [] -> peg PG X (b ++ rest) PFail) ->
  star PG (And [Not X; Simple Dot]) (t ++ rest) (map (fun c => [v1 c]) t) rest.
Proof.
  intros X t rest. induction t as [|c t IH]; intro H; [constructor|]. cbn [map app]. econstructor.
  - change [v1 c] with ([] ++ [v1 c]). eapply mk_and; [apply mk_not; apply (H [] (c :: t) eq_refl); discriminate|].
    change [v1 c] with ([v1 c] ++ []). eapply mk_and; [constructor|constructor].
  - apply IH. intros a b E N. apply (H (c :: a) b); [rewrite E; reflexivity|exact N].
Qed.

Lemma concat_v1 : forall t, concat (map (fun c => [v1 c]) t) = map v1 t.
Proof. induction t as [|c t IH]; cbn; congruence. Qed.

(* ------------------------------------------------------------------------------------------- *)
(** * Comments *)

Lemma decid_not_dot : forall X, decid X -> decid (And [Not X; Simple Dot]).
Proof. intros X D. apply decid_and. fa; [apply decid_not; exact D|apply decid_dot]. Qed.
Lemma consumes_not_dot : forall X, consumes (And [Not X; Simple Dot]).
Proof. intros X. apply consumes_and. right. left. apply consumes_dot. Qed.

Lemma decid_comment : decid (RuleName (s_ "comment")).
Proof.
  eapply decid_rule; [exact g_comment|]. apply decid_or. fa; cbn [ref_rule].
  - eapply decid_rule; [exact g_line_comment|]. apply decid_and. fa; cbn.
    + apply decid_lit.
    + apply decid_rep; [apply decid_not_dot, decid_eol|apply consumes_not_dot].
    + apply decid_eol.
  - eapply decid_rule; [exact g_mline_comment|]. apply decid_and. fa; cbn.
    + apply decid_lit.
    + apply decid_rep; [apply decid_not_dot, decid_lit|apply consumes_not_dot].
    + apply decid_lit.
Qed.
Lemma consumes_comment : consumes (RuleName (s_ "comment")).
Proof.
  eapply consumes_rule; [exact g_comment|]. apply consumes_or. fa; cbn [ref_rule].
  - eapply consumes_rule; [exact g_line_comment|]. apply consumes_and. left. apply (consumes_lit 47%N).
  - eapply consumes_rule; [exact g_mline_comment|]. apply consumes_and. left. apply (consumes_lit 47%N).
Qed.

Lemma comment_fwd : forall s ts rest, peg PG (RuleName (s_ "comment")) s (PMatch ts rest) ->
  exists c, comment c /\ s = c ++ rest /\ complete c rest.
Proof.
  intros s ts rest H. eapply inv_nt in H; [|exact g_comment]. destruct H as (k & -> & H). cbn in H.
  apply inv_or_cons in H. destruct H as [H|[F1 H]].
  - eapply inv_nt in H; [|exact g_line_comment]. destruct H as (k2 & -> & H). cbn in H. inv_m.
    match goal with H : peg PG (Repeat _ _ _) _ _ |- _ => apply inv_rep0 in H; destruct H as (l & St & -> & F) end.
    apply scan_fwd in St; [|apply decid_eol]. destruct St as (t & -> & -> & Ft).
    match goal with H : peg PG (RuleName _) _ _ |- _ => apply eol_fwd in H; destruct H as (e & E & -> & C) end.
    assert (NE : forall c, In c t -> ~ is_eolc c).
    { intros c I J. apply in_split in I. destruct I as (a & b & ->). specialize (Ft a (c :: b) eq_refl ltac:(discriminate)).
      destruct (eol_starts ((c :: b) ++ e ++ rest)) as (us & r & M); [exists c, (b ++ e ++ rest); auto|]. exact (fail_nomatch _ _ Ft _ _ M). }
    exists (s_ "//" ++ t ++ e). split; [|split].
    + constructor; [intro I; apply (NE _ I); left; reflexivity|intro I; apply (NE _ I); right; reflexivity|exact E].
    + rewrite <- !app_assoc. reflexivity.
    + intros (c0 & r0 & E1 & E2). destruct E.
      * change [ch_cr; ch_nl] with ([ch_cr] ++ [ch_nl]) in E1. rewrite !app_assoc in E1. apply app_inj_tail in E1. destruct E1 as [_ E1]. discriminate.
      * rewrite !app_assoc in E1. apply app_inj_tail in E1. destruct E1 as [_ E1]. discriminate.
      * apply C. exists [], r0. auto.
  - apply inv_or_cons in H. destruct H as [H|[_ H]]; [|destruct (inv_or_nil _ _ _ H)].
    eapply inv_nt in H; [|exact g_mline_comment]. destruct H as (k2 & -> & H). cbn in H. inv_m.
    match goal with H : peg PG (Repeat _ _ _) _ _ |- _ => apply inv_rep0 in H; destruct H as (l & St & -> & F) end.
    apply scan_fwd in St; [|apply decid_lit]. destruct St as (t & -> & -> & Ft).
    exists (s_ "/*" ++ t ++ s_ "*/"). split; [|split].
    + constructor. intros a b E.
      (* a is at least as long as t *)
      destruct (app_eq_app _ _ _ _ E) as (m & [[E1 E2]|[E1 E2]]).
      * destruct m as [|x m].
        -- cbn in E2. change (s_ "*/") with [42%N; 47%N] in E2. cbn in E2. injection E2 as E2. exact E2.
        -- exfalso. specialize (Ft a (x :: m) E1 ltac:(discriminate)).
           destruct (str_prefix_dec (s_ "*/") ((x :: m) ++ s_ "*/" ++ rest)) as [[r Q]|Q].
           ++ rewrite Q in Ft. apply (fail_nomatch _ _ Ft [Val (s_ "*/")] r). constructor.
           ++ apply (Q (b ++ rest)). rewrite app_assoc, <- E2, <- app_assoc. reflexivity.
      * apply (f_equal (@length _)) in E2. rewrite !app_length in E2. destruct b as [|y b]; [reflexivity|]. cbn [length] in E2. lia.
    + rewrite <- !app_assoc. reflexivity.
    + intros (c0 & r0 & E1 & E2). change (s_ "*/") with ([42%N] ++ [47%N]) in E1. rewrite !app_assoc in E1. apply app_inj_tail in E1.
      destruct E1 as [_ E1]. discriminate.
Qed.

Lemma complete_app : forall a e rest, e <> [] -> complete (a ++ e) rest -> complete e rest.
Proof. intros a e rest N C (c0 & r0 & -> & ->). apply C. exists (a ++ c0), r0. rewrite <- app_assoc. auto. Qed.

Lemma eol_nonempty : forall e, eol e -> e <> [].
Proof. intros e H. destruct H; discriminate. Qed.

Lemma peg_and_last : forall e s ts rest, peg PG e s (PMatch ts rest) -> peg PG (And [e]) s (PMatch ts rest).
Proof. intros e s ts rest H. rewrite <- (app_nil_r ts). eapply mk_and; [exact H|constructor]. Qed.

Lemma comment_bwd : forall c rest, comment c -> complete c rest -> exists ts, peg PG (RuleName (s_ "comment")) (c ++ rest) (PMatch ts rest).
Proof.
  intros c rest H C. destruct H as [c e N1 N2 E|c B].
  - rewrite app_assoc in C. apply complete_app in C; [|apply eol_nonempty; exact E]. destruct (eol_bwd e rest E C) as [te Me].
    destruct (eol_head e E) as (x & e' & -> & Ix).
    eexists. eapply mk_rule; [exact g_comment|]. cbn. apply mk_or1. eapply mk_rule; [exact g_line_comment|]. cbn.
    rewrite <- !app_assoc. eapply mk_and; [apply mk_lit; reflexivity|]. eapply mk_and; [|apply peg_and_last; exact Me].
    apply mk_star.
    + apply scan_bwd. intros a b -> Nb. apply eol_fail. intros y r Ey [->| ->]; destruct b as [|z b]; try congruence; cbn in Ey; injection Ey as -> _.
      * apply N1. apply in_or_app. right. left. reflexivity.
      * apply N2. apply in_or_app. right. left. reflexivity.
    + apply mk_and_fail1. eapply peg_not_fail. exact Me.
  - eexists. eapply mk_rule; [exact g_comment|]. cbn. apply peg_or_next.
    { eapply mk_rule_fail; [exact g_line_comment|]. cbn. apply mk_and_fail1. apply peg_lit_fail. intros r E. discriminate. }
    apply mk_or1. eapply mk_rule; [exact g_mline_comment|]. cbn. rewrite <- !app_assoc.
    eapply mk_and; [apply mk_lit; reflexivity|]. eapply mk_and; [|apply peg_and_last; apply mk_lit; reflexivity].
    apply mk_star.
    + apply scan_bwd. intros a b -> Nb. apply peg_lit_fail. intros r E. change (s_ "*/") with [42%N; 47%N] in *.
      destruct b as [|x [|y b]]; [congruence|discriminate|]. cbn in E. injection E as -> -> _.
      specialize (B a (b ++ [42%N; 47%N])). rewrite <- !app_assoc in B. specialize (B eq_refl). destruct b; discriminate.
    + apply mk_and_fail1. eapply peg_not_fail. apply mk_lit. reflexivity.
Qed.

Lemma comment_head : forall c, comment c -> exists d r, c = 47%N :: d :: r /\ (d = 47%N \/ d = 42%N).
Proof. intros c H. destruct H as [c e N1 N2 E|c B]; do 2 eexists; (split; [reflexivity|]); auto. Qed.

(* ------------------------------------------------------------------------------------------- *)
(** * Blanks *)

(** No blank starts here. *)
Definition clean (s : str) : Prop :=
  (forall c r, s = c :: r -> c <> ch_space /\ ~ is_eolc c) /\ (forall c r, comment c -> s <> c ++ r).

Definition b_unit : expr := Or [Simple (Literal (s_ " ")); RuleName (s_ "eol"); RuleName (s_ "comment")].

Lemma decid_unit : decid b_unit.
Proof. apply decid_or. fa; [apply decid_lit|apply decid_eol|apply decid_comment]. Qed.
Lemma consumes_unit : consumes b_unit.
Proof. apply consumes_or. fa; [apply consumes_lit|apply consumes_eol|apply consumes_comment]. Qed.
Lemma decid_blank : decid (RuleName (s_ "_")).
Proof. eapply decid_rule; [exact g_blank|]. apply decid_rep; [apply decid_unit|apply consumes_unit]. Qed.

(** Comments can always be completed. *)
Lemma comment_extend : forall c rest, comment c -> ~ complete c rest -> exists rest', rest = ch_nl :: rest' /\ comment (c ++ [ch_nl]).
Proof.
  intros c rest H N. destruct H as [c e N1 N2 E|c B].
  - destruct E.
    + exfalso. apply N. change [ch_cr; ch_nl] with ([ch_cr] ++ [ch_nl]). rewrite !app_assoc. apply complete_other. discriminate.
    + exfalso. apply N. rewrite !app_assoc. apply complete_other. discriminate.
    + destruct rest as [|x rest]; [exfalso; apply N; intros (? & ? & _ & ?); discriminate|].
      destruct (N.eq_dec x ch_nl) as [->|Q]; [|exfalso; apply N; intros (? & ? & _ & E); injection E as E _; congruence].
      exists rest. split; [reflexivity|]. rewrite <- !app_assoc. constructor; [exact N1|exact N2|constructor].
  - exfalso. apply N. change (s_ "*/") with ([42%N] ++ [47%N]). rewrite !app_assoc. apply complete_other. discriminate.
Qed.

Lemma complete_dec : forall e rest, complete e rest \/ ~ complete e rest.
Proof.
  intros e rest. destruct rest as [|x rest]; [left; intros (? & ? & _ & ?); discriminate|].
  destruct (N.eq_dec x ch_nl) as [->|Q]; [|left; intros (? & ? & _ & E); injection E as E _; congruence].
  destruct e as [|y e] using rev_ind; [left; intros (c0 & ? & E & _); destruct c0; discriminate|].
  destruct (N.eq_dec y ch_cr) as [->|Q]; [right; intro C; apply C; eauto|left; apply complete_other; exact Q].
Qed.

Lemma clean_unit_fail : forall s, clean s -> peg PG b_unit s PFail.
Proof.
  intros s [C1 C2]. apply nomatch_fails; [apply decid_unit|]. intros ts rest M. unfold b_unit in M.
  apply inv_or_cons in M. destruct M as [M|[_ M]].
  { apply inv_lit in M. destruct M as [_ ->]. destruct (C1 ch_space rest eq_refl) as [N _]. congruence. }
  apply inv_or_cons in M. destruct M as [M|[_ M]].
  { apply eol_fwd in M. destruct M as (e & E & -> & _). destruct (eol_head e E) as (x & r & -> & I).
    destruct (C1 x (r ++ rest) eq_refl) as [_ N]. contradiction. }
  apply inv_or_cons in M. destruct M as [M|[_ M]]; [|destruct (inv_or_nil _ _ _ M)].
  apply comment_fwd in M. destruct M as (c & C & -> & _). exact (C2 c rest C eq_refl).
Qed.

Lemma unit_fail_clean : forall s, peg PG b_unit s PFail -> clean s.
Proof.
  intros s F. split.
  - intros c r ->. split.
    + intros ->. apply (fail_nomatch _ _ F [Val (s_ " ")] r). apply mk_or1. apply mk_lit. reflexivity.
    + intro I. destruct (eol_starts (c :: r)) as (ts & rest & M); [eauto|]. destruct (decid_lit (s_ " ") (c :: r)) as [F1|(t1 & r1 & M1)].
      * apply (fail_nomatch _ _ F ts rest). apply peg_or_next; [exact F1|]. apply mk_or1. exact M.
      * apply (fail_nomatch _ _ F t1 r1). apply mk_or1. exact M1.
  - intros c r C ->. 
    assert (X : exists c' r', comment c' /\ c ++ r = c' ++ r' /\ complete c' r').
    { destruct (complete_dec c r) as [Q|Q]; [eauto|]. destruct (comment_extend c r C Q) as (r' & -> & C'). exists (c ++ [ch_nl]), r'.
      split; [exact C'|]. split; [rewrite <- app_assoc; reflexivity|]. apply complete_other. discriminate. }
    destruct X as (c' & r' & C' & E & K). rewrite E in *. destruct (comment_bwd c' r' C' K) as [ts M].
    destruct (comment_head c' C') as (d & x & -> & _). apply (fail_nomatch _ _ F ts r'). 
    apply peg_or_next; [apply peg_lit_fail; intros ? Q; discriminate|].
    apply peg_or_next; [apply eol_fail; intros y z Q; cbn in Q; injection Q as <- _; intros [?|?]; discriminate|].
    apply mk_or1. exact M.
Qed.

Lemma blank_app : forall a b, blank a -> blank b -> blank (a ++ b).
Proof. intros a b H Hb. induction H; cbn [app]; rewrite <- ?app_assoc; [exact Hb| | |]; constructor; assumption. Qed.

Lemma blank_fwd : forall s ts rest, peg PG (RuleName (s_ "_")) s (PMatch ts rest) ->
  exists b k, blank b /\ s = b ++ rest /\ ts = [b_node k] /\ clean rest.
Proof.
  intros s ts rest H. eapply inv_nt in H; [|exact g_blank]. destruct H as (k & -> & H). cbn in H.
  apply inv_rep0 in H. destruct H as (l & St & -> & F). fold b_unit in *.
  assert (X : exists b, blank b /\ s = b ++ rest).
  { clear F. induction St as [s|s t s1 ts rest H1 H2 (b & B & ->)]; [exists []; split; [constructor|reflexivity]|].
    unfold b_unit in H1. apply inv_or_cons in H1. destruct H1 as [M|[_ M]].
    { apply inv_lit in M. destruct M as [_ ->]. exists (ch_space :: b). split; [constructor; exact B|reflexivity]. }
    apply inv_or_cons in M. destruct M as [M|[_ M]].
    { apply eol_fwd in M. destruct M as (e & E & -> & _). exists (e ++ b). split; [constructor; assumption|apply app_assoc]. }
    apply inv_or_cons in M. destruct M as [M|[_ M]]; [|destruct (inv_or_nil _ _ _ M)].
    apply comment_fwd in M. destruct M as (c & C & -> & _). exists (c ++ b). split; [constructor; assumption|apply app_assoc]. }
  destruct X as (b & B & ->). exists b. eexists. split; [exact B|]. split; [reflexivity|]. split; [reflexivity|apply unit_fail_clean; exact F].
Qed.

(** The first unit of a blank, completed. *)
Lemma blank_step : forall b, blank b -> b = [] \/ exists u b', b = u ++ b' /\ u <> [] /\ blank b' /\
  (u = [ch_space] \/ (eol u /\ complete u b') \/ (comment u /\ complete u b')).
Proof.
  intros b H. destruct H as [|b H|e b E H|c b C H]; [left; reflexivity| | |]; right.
  - exists [ch_space], b. split; [reflexivity|]. split; [discriminate|]. auto.
  - destruct (complete_dec e b) as [Q|Q]; [exists e, b; split; [reflexivity|]; split; [apply eol_nonempty; exact E|]; auto|].
    destruct E; try (exfalso; apply Q; first [apply complete_crlf|apply complete_nl]).
    destruct b as [|x b]; [exfalso; apply Q; intros (? & ? & _ & ?); discriminate|].
    destruct (N.eq_dec x ch_nl) as [->|N]; [|exfalso; apply Q; intros (? & ? & _ & E); injection E as E _; congruence].
    exists [ch_cr; ch_nl], b. split; [reflexivity|]. split; [discriminate|]. split; [|right; left; split; [constructor|apply complete_crlf]].
    clear Q. inversion H as [|b0 H0|e0 b0 E0 H0 Q|c0 b0 C0 H0 Q]; subst.
    + destruct E0; try discriminate. injection Q as ->. exact H0.
    + destruct (comment_head c0 C0) as (d & r & -> & _). discriminate.
  - destruct (complete_dec c b) as [Q|Q].
    + exists c, b. split; [reflexivity|]. split; [destruct (comment_head c C) as (d & r & -> & _); discriminate|]. auto.
    + destruct (comment_extend c b C Q) as (b' & -> & C'). exists (c ++ [ch_nl]), b'. split; [rewrite <- app_assoc; reflexivity|].
      split; [destruct c; discriminate|]. split; [|right; right; split; [exact C'|apply complete_other; discriminate]].
      inversion H as [|b0 H0|e0 b0 E0 H0 Q0|c0 b0 C0 H0 Q0]; subst.
      * destruct E0; try discriminate. injection Q0 as ->. exact H0.
      * destruct (comment_head c0 C0) as (d & r & -> & _). discriminate.
Qed.

Lemma complete_rest : forall u b rest, complete u b -> (b = [] -> forall r, rest <> ch_nl :: r) -> complete u (b ++ rest).
Proof.
  intros u b rest C N (c0 & r0 & -> & E). destruct b as [|x b].
  - cbn in E. exact (N eq_refl r0 E).
  - cbn in E. injection E as -> _. apply C. eauto.
Qed.

Lemma blank_units : forall n b rest, length b <= n -> blank b -> (forall r, rest <> ch_nl :: r) -> exists l, star PG b_unit (b ++ rest) l rest.
Proof.
  induction n as [|n IH]; intros b rest L H N.
  - destruct b; [exists []; constructor|cbn in L; lia].
  - destruct (blank_step b H) as [->|(u & b' & -> & Nu & B' & K)]; [exists []; constructor|].
    assert (length u > 0) by (destruct u; [congruence|cbn; lia]). rewrite app_length in L.
    destruct (IH b' rest ltac:(lia) B' N) as [l St]. rewrite <- app_assoc.
    assert (M : exists ts, peg PG b_unit (u ++ b' ++ rest) (PMatch ts (b' ++ rest))).
    { destruct K as [->|[[E C]|[E C]]].
      - eexists. apply mk_or1. apply mk_lit. reflexivity.
      - destruct (eol_bwd u (b' ++ rest) E) as [ts M]; [apply complete_rest; auto|]. exists ts.
        apply peg_or_next; [|apply mk_or1; exact M]. apply peg_lit_fail. destruct E; intros r Q; discriminate.
      - destruct (comment_bwd u (b' ++ rest) E) as [ts M]; [apply complete_rest; auto|]. exists ts.
        destruct (comment_head u E) as (d & x & -> & _). 
        apply peg_or_next; [apply peg_lit_fail; intros r Q; discriminate|].
        apply peg_or_next; [apply eol_fail; intros y z Q; cbn in Q; injection Q as <- _; intros [?|?]; discriminate|].
        apply mk_or1. exact M. }
    destruct M as [ts M]. exists (ts :: l). econstructor; eassumption.
Qed.

Lemma clean_no_nl : forall s r, clean s -> s <> ch_nl :: r.
Proof. intros s r [C _] ->. destruct (C ch_nl r eq_refl) as [_ N]. apply N. right. reflexivity. Qed.

Lemma blank_bwd : forall b rest, blank b -> clean rest -> exists k, peg PG (RuleName (s_ "_")) (b ++ rest) (PMatch [b_node k] rest).
Proof.
  intros b rest B C. destruct (blank_units (length b) b rest (le_n _) B (fun r => clean_no_nl rest r C)) as [l St].
  exists (concat l). eapply mk_rule; [exact g_blank|]. cbn. apply mk_star; [exact St|apply clean_unit_fail; exact C].
Qed.

(** Sufficient condition for [clean]. *)
Lemma clean_char : forall c r, c <> ch_space -> c <> ch_cr -> c <> ch_nl -> c <> 47%N -> clean (c :: r).
Proof.
  intros c r N1 N2 N3 N4. split.
  - intros d x E. injection E as <- _. split; [exact N1|]. intros [?|?]; contradiction.
  - intros d x C E. destruct (comment_head d C) as (y & z & -> & _). cbn in E. injection E as E _. contradiction.
Qed.
Lemma clean_nil : clean [].
Proof.
  split; [discriminate|]. intros c r C E. destruct (comment_head c C) as (y & z & -> & _). discriminate.
Qed.
Lemma clean_slash : forall r, hd_error r <> Some 47%N -> hd_error r <> Some 42%N -> clean (47%N :: r).
Proof.
  intros r N1 N2. split.
  - intros d x E. injection E as <- _. split; [discriminate|]. intros [?|?]; discriminate.
  - intros d x C E. destruct (comment_head d C) as (y & z & -> & K). cbn in E. injection E as E. rewrite E in *. cbn in *. destruct K as [->| ->]; congruence.
Qed.

(** A blank, if any, starts like this. *)
Lemma blank_head : forall b c r, blank b -> b = c :: r -> c = ch_space \/ is_eolc c \/ c = 47%N.
Proof.
  intros b c r H E. destruct H as [|b H|e b Ee H|d b C H]; [discriminate| | |].
  - injection E as <- _. auto.
  - destruct (eol_head e Ee) as (x & y & -> & I). cbn in E. injection E as <- _. auto.
  - destruct (comment_head d C) as (x & y & -> & I). cbn in E. injection E as <- _. auto.
Qed.

(* ------------------------------------------------------------------------------------------- *)
(** * Separators and rule ends *)

Lemma eol_split : forall e b, eol e -> blank b -> exists e' b', e ++ b = e' ++ b' /\ eol e' /\ blank b' /\ complete e' b'.
Proof.
  intros e b E H. destruct (complete_dec e b) as [Q|Q]; [exists e, b; auto|].
  destruct E; try (exfalso; apply Q; first [apply complete_crlf|apply complete_nl]).
  destruct b as [|x b]; [exfalso; apply Q; intros (? & ? & _ & ?); discriminate|].
  destruct (N.eq_dec x ch_nl) as [->|N]; [|exfalso; apply Q; intros (? & ? & _ & E); injection E as E _; congruence].
  exists [ch_cr; ch_nl], b. split; [reflexivity|]. split; [constructor|]. split; [|apply complete_crlf].
  clear Q. inversion H as [|b0 H0|e0 b0 E0 H0 Q|c0 b0 C0 H0 Q]; subst.
  + destruct E0; try discriminate. injection Q as ->. exact H0.
  + destruct (comment_head c0 C0) as (d & r & -> & _). discriminate.
Qed.

Lemma one_fwd : forall s ts rest, peg PG (RuleName (s_ "_1")) s (PMatch ts rest) ->
  exists u k, (u = [ch_space] \/ eol u) /\ s = u ++ rest /\ ts = [b1_node k].
Proof.
  intros s ts rest H. eapply inv_nt in H; [|exact g_one]. destruct H as (k & -> & M). cbn in M.
  apply inv_or_cons in M. destruct M as [M|[_ M]].
  { apply inv_lit in M. destruct M as [_ ->]. exists [ch_space]. eexists. split; [left; reflexivity|]. split; reflexivity. }
  apply inv_or_cons in M. destruct M as [M|[_ M]]; [|destruct (inv_or_nil _ _ _ M)].
  apply eol_fwd in M. destruct M as (e & E & -> & _). exists e. eexists. split; [right; exact E|]. split; reflexivity.
Qed.

Lemma sep_fwd : forall s t1 s1 t2 rest, peg PG (RuleName (s_ "_1")) s (PMatch t1 s1) -> peg PG (RuleName (s_ "_")) s1 (PMatch t2 rest) ->
  exists sp k1 k2, separator sp /\ s = sp ++ rest /\ t1 = [b1_node k1] /\ t2 = [b_node k2] /\ clean rest.
Proof.
  intros s t1 s1 t2 rest H1 H2. apply one_fwd in H1. destruct H1 as (u & k1 & U & -> & ->).
  apply blank_fwd in H2. destruct H2 as (b & k2 & B & -> & -> & C). exists (u ++ b), k1, k2.
  split; [destruct U as [->|E]; constructor; assumption|]. split; [apply app_assoc|]. auto.
Qed.

Lemma sep_bwd : forall sp rest, separator sp -> clean rest -> exists k1 s1 k2,
  peg PG (RuleName (s_ "_1")) (sp ++ rest) (PMatch [b1_node k1] s1) /\ peg PG (RuleName (s_ "_")) s1 (PMatch [b_node k2] rest).
Proof.
  intros sp rest H C. destruct H as [b B|e b E B].
  - destruct (blank_bwd b rest B C) as [k2 M]. eexists _, (b ++ rest), k2. split; [|exact M].
    eapply mk_rule; [exact g_one|]. cbn. apply mk_or1. apply mk_lit. reflexivity.
  - destruct (eol_split e b E B) as (e' & b' & -> & E' & B' & K). destruct (blank_bwd b' rest B' C) as [k2 M].
    destruct (eol_bwd e' (b' ++ rest) E') as [te Me]; [apply complete_rest; [exact K|intros _ r; apply clean_no_nl; exact C]|].
    eexists _, (b' ++ rest), k2. split; [|exact M]. rewrite <- app_assoc.
    eapply mk_rule; [exact g_one|]. cbn. apply peg_or_next; [|apply mk_or1; exact Me].
    apply peg_lit_fail. destruct E'; intros r Q; discriminate.
Qed.

Lemma sep_head : forall sp, separator sp -> exists c r, sp = c :: r /\ (c = ch_space \/ is_eolc c).
Proof.
  intros sp H. destruct H as [b B|e b E B]; [eauto|]. destruct (eol_head e E) as (c & r & -> & I). cbn. eauto.
Qed.
Lemma sep_blank : forall sp, separator sp -> blank sp.
Proof. intros sp H. destruct H; constructor; assumption. Qed.

Definition e_unit : expr := Or [Simple (Literal (s_ " ")); RuleName (s_ "comment")].
Lemma decid_eunit : decid e_unit.
Proof. apply decid_or. fa; [apply decid_lit|apply decid_comment]. Qed.
Lemma consumes_eunit : consumes e_unit.
Proof. apply consumes_or. fa; [apply consumes_lit|apply consumes_comment]. Qed.
Lemma decid_end : decid (RuleName (s_ "_eol")).
Proof.
  eapply decid_rule; [exact g_eolr|]. apply decid_and. fa; [|apply decid_eol]. apply decid_rep; [apply decid_eunit|apply consumes_eunit].
Qed.

Lemma end_fwd : forall s ts rest, peg PG (RuleName (s_ "_eol")) s (PMatch ts rest) ->
  exists r k, rule_end r /\ s = r ++ rest /\ ts = [be_node k].
Proof.
  intros s ts rest H. eapply inv_nt in H; [|exact g_eolr]. destruct H as (k & -> & M). cbn in M.
  inv_m. match goal with H : peg PG (Repeat _ _ _) _ _ |- _ => rename H into M1; apply inv_rep0 in M1; destruct M1 as (l & St & -> & _) end.
  match goal with H : peg PG (RuleName (s_ "eol")) _ _ |- _ => rename H into M2; apply eol_fwd in M2; destruct M2 as (e & E & -> & K) end.
  fold e_unit in St.
  assert (X : exists r, rule_end r /\ s = r ++ rest).
  { remember (e ++ rest) as z eqn:Z. induction St as [s|s t s1 ts rest0 H1 H2 IH]; [subst; exists e; split; [constructor; exact E|reflexivity]|].
    destruct (IH Z) as (r & R & ->). unfold e_unit in H1. apply inv_or_cons in H1. destruct H1 as [M|[_ M]].
    { apply inv_lit in M. destruct M as [_ ->]. exists (ch_space :: r). split; [constructor; exact R|reflexivity]. }
    apply inv_or_cons in M. destruct M as [M|[_ M]]; [|destruct (inv_or_nil _ _ _ M)].
    apply comment_fwd in M. destruct M as (c & C & -> & K2). exists (c ++ r). split; [|apply app_assoc].
    constructor; [exact C|exact R|]. intros (c0 & r0 & -> & ->). apply K2. exists c0, (r0 ++ rest). auto. }
  destruct X as (r & R & ->). exists r. eexists. split; [exact R|]. split; reflexivity.
Qed.

Lemma end_nonempty : forall r, rule_end r -> r <> [].
Proof.
  intros r R. destruct R as [e E| |c r C R N]; [apply eol_nonempty; exact E|discriminate|].
  destruct (comment_head c C) as (d & y & -> & _). discriminate.
Qed.

(** The line break at the end of a rule may be completed by the first char of the following blank. *)
Lemma end_split : forall r b, rule_end r -> blank b -> exists r' b', r ++ b = r' ++ b' /\ rule_end r' /\ blank b' /\ complete r' b'.
Proof.
  intros r b R B. induction R as [e E|r R (r' & b' & Q & R' & B' & K)|c r C R (r' & b' & Q & R' & B' & K) N].
  - destruct (eol_split e b E B) as (e' & b' & Q & E' & B' & K). exists e', b'. split; [exact Q|]. split; [constructor; exact E'|]. auto.
  - exists (ch_space :: r'), b'. cbn. rewrite Q. split; [reflexivity|]. split; [constructor; exact R'|]. split; [exact B'|].
    intros (c0 & r0 & E & ->). destruct c0 as [|x c0].
    + cbn in E. injection E as _ ->. exact (end_nonempty [] R' eq_refl).
    + injection E as _ ->. apply K. exists c0, r0. auto.
  - exists (c ++ r'), b'. rewrite <- !app_assoc, Q. split; [reflexivity|].
    assert (Hr : exists x y z, r = x :: y /\ r' = x :: z).
    { destruct r' as [|x z]; [destruct (end_nonempty [] R' eq_refl)|]. destruct r as [|x' y]; [destruct (end_nonempty [] R eq_refl)|].
      cbn in Q. injection Q as -> _. eauto. }
    destruct Hr as (x & y & z & -> & ->).
    split; [constructor; [exact C|exact R'|]; intros (c0 & r0 & -> & E); injection E as -> ->; apply N; eauto|].
    split; [exact B'|]. apply complete_rest with (rest := []) in K; [|intros _ ? ?; discriminate]. rewrite app_nil_r in K.
    intros (c0 & r0 & E & ->). apply K.
    destruct (exists_last (l := x :: z) ltac:(discriminate)) as (l0 & w & E0). exists l0, r0. rewrite E0 in *.
    rewrite app_assoc in E. apply app_inj_tail in E. destruct E as [_ ->]. auto.
Qed.

Lemma end_bwd : forall r rest, rule_end r -> complete r rest -> exists k, peg PG (RuleName (s_ "_eol")) (r ++ rest) (PMatch [be_node k] rest).
Proof.
  intros r rest R K.
  assert (X : exists l e, star PG e_unit (r ++ rest) l (e ++ rest) /\ eol e /\ complete e rest).
  { induction R as [e E|r R IH|c r C R IH N].
    - exists [], e. split; [constructor|]. auto.
    - destruct IH as (l & e & St & E & K2).
      { change (ch_space :: r) with ([ch_space] ++ r) in K. apply complete_app in K; [exact K|apply end_nonempty; exact R]. }
      eexists ([_] :: l), e. split; [|auto]. econstructor; [|exact St]. apply mk_or1. apply mk_lit. reflexivity.
    - destruct IH as (l & e & St & E & K2).
      { apply complete_app in K; [exact K|apply end_nonempty; exact R]. }
      destruct (comment_bwd c (r ++ rest) C) as [tc Mc].
      { apply complete_rest; [exact N|]. intro Q. exfalso. exact (end_nonempty r R Q). }
      eexists (tc :: l), e. split; [|auto]. rewrite <- app_assoc. econstructor; [|exact St].
      destruct (comment_head c C) as (d & y & -> & _). apply peg_or_next; [apply peg_lit_fail; intros ? Q; discriminate|]. apply mk_or1. exact Mc. }
  destruct X as (l & e & St & E & K2). destruct (eol_bwd e rest E K2) as [te Me].
  eexists. eapply mk_rule; [exact g_eolr|]. cbn. eapply mk_and; [|apply peg_and_last; exact Me].
  apply mk_star; [exact St|]. destruct E; (apply peg_or_next; [apply peg_lit_fail; intros ? Q; discriminate|]; apply peg_or_next; [|constructor]);
  apply nomatch_fails; try apply decid_comment; intros ts r1 M; apply comment_fwd in M; destruct M as (c & C & Q & _);
  destruct (comment_head c C) as (d & y & -> & _); discriminate.
Qed.

(** Rule end and blank together. *)
Lemma tail_bwd : forall r b rest, rule_end r -> blank b -> clean rest -> exists k1 s1 k2,
  peg PG (RuleName (s_ "_eol")) (r ++ b ++ rest) (PMatch [be_node k1] s1) /\ peg PG (RuleName (s_ "_")) s1 (PMatch [b_node k2] rest).
Proof.
  intros r b rest R B C. destruct (end_split r b R B) as (r' & b' & Q & R' & B' & K). rewrite app_assoc, Q, <- app_assoc.
  destruct (blank_bwd b' rest B' C) as [k2 M2].
  destruct (end_bwd r' (b' ++ rest) R') as [k1 M1]; [apply complete_rest; [exact K|intros _ x; apply clean_no_nl; exact C]|]. eauto.
Qed.

Lemma end_has_eol : forall r, rule_end r -> In ch_cr r \/ In ch_nl r.
Proof.
  intros r R. induction R as [e E|r R IH|c r C R IH N].
  - destruct E; cbn; auto.
  - cbn. tauto.
  - destruct IH; [left|right]; apply in_or_app; auto.
Qed.

(* ------------------------------------------------------------------------------------------- *)
(** * Names *)

Definition c_start : expr := Simple (Match (s_ "_") [(97%N, 122%N); (65%N, 90%N); (48%N, 57%N)]).
Definition c_char : expr := Simple (Match (s_ "_'""") [(97%N, 122%N); (65%N, 90%N); (48%N, 57%N)]).

Lemma class_start : forall c, in_class (s_ "_") [(97%N, 122%N); (65%N, 90%N); (48%N, 57%N)] c <-> sym_start c.
Proof.
  intro c. unfold in_class, sym_start, between. split.
  - intros [[<-|[]]|(lo & hi & I & L)]; [auto|]. destruct I as [E|[E|[E|[]]]]; injection E as <- <-; auto.
  - intros [->|[L|[L|L]]]; [left; left; reflexivity| | |]; right; eexists _, _; (split; [|exact L]); cbn; auto.
Qed.
Lemma class_char : forall c, in_class (s_ "_'""") [(97%N, 122%N); (65%N, 90%N); (48%N, 57%N)] c <-> sym_char c.
Proof.
  intro c. unfold sym_char. rewrite <- class_start. unfold in_class. split.
  - intros [[<-|[<-|[<-|[]]]]|I]; [left; left; left; reflexivity|right; left; reflexivity|right; right; reflexivity|left; right; exact I].
  - intros [[[<-|[]]|I]|[->| ->]]; [left; left; reflexivity|right; exact I|left; right; left; reflexivity|left; right; right; left; reflexivity].
Qed.

Lemma class_star_fwd : forall cs rg s l rest, star PG (Simple (Match cs rg)) s l rest ->
  exists t, s = t ++ rest /\ l = map (fun c => [v1 c]) t /\ Forall (in_class cs rg) t.
Proof.
  intros cs rg s l rest H. induction H as [s|s t s1 ts rest H1 H2 (t2 & -> & -> & F)]; [exists []; auto|].
  apply inv_class in H1. destruct H1 as (c & I & -> & ->). exists (c :: t2). auto.
Qed.
Lemma class_star_bwd : forall cs rg t rest, Forall (in_class cs rg) t -> star PG (Simple (Match cs rg)) (t ++ rest) (map (fun c => [v1 c]) t) rest.
Proof.
  intros cs rg t rest F. induction F as [|c t I F IH]; [constructor|]. cbn. econstructor; [constructor; exact I|exact IH].
Qed.

Definition sym_stop (rest : str) : Prop := forall c r, rest = c :: r -> ~ sym_char c.
Definition name_stop (rest : str) : Prop := sym_stop rest /\ forall c r, rest = 46%N :: c :: r -> ~ sym_start c.

Lemma decid_symbol : decid (RuleName (s_ "symbol")).
Proof. eapply decid_rule; [exact g_symbol|]. apply decid_and. fa; [apply decid_class|apply decid_rep; [apply decid_class|apply consumes_class]]. Qed.
Lemma consumes_symbol : consumes (RuleName (s_ "symbol")).
Proof. eapply consumes_rule; [exact g_symbol|]. apply consumes_and. left. apply consumes_class. Qed.

Lemma symbol_fwd : forall s ts rest, peg PG (RuleName (s_ "symbol")) s (PMatch ts rest) ->
  exists n x, ts = [x] /\ t_sym x n /\ symbol n /\ s = n ++ rest /\ sym_stop rest.
Proof.
  intros s ts rest H. eapply inv_nt in H; [|exact g_symbol]. destruct H as (k & -> & M). cbn in M. inv_m.
  match goal with H : peg PG (Simple _) _ _ |- _ => apply inv_class in H; destruct H as (c & I & -> & ->) end.
  match goal with H : peg PG (Repeat _ _ _) _ _ |- _ => apply inv_rep0 in H; destruct H as (l & St & -> & F) end.
  apply class_star_fwd in St. destruct St as (t & -> & -> & Ft). exists (c :: t). eexists. split; [reflexivity|].
  split; [rewrite concat_v1, app_nil_r; change ([Val [c]] ++ map v1 t) with (map v1 (c :: t)); constructor; discriminate|].
  split; [exists c, t; split; [reflexivity|]; split; [apply class_start; exact I|]; eapply Forall_impl; [|exact Ft]; intros; apply class_char; assumption|].
  split; [reflexivity|]. intros d r -> Q. apply class_char in Q. apply (fail_nomatch _ _ F [Val [d]] r). constructor. exact Q.
Qed.

Lemma symbol_bwd : forall n rest, symbol n -> sym_stop rest -> exists x, peg PG (RuleName (s_ "symbol")) (n ++ rest) (PMatch [x] rest) /\ t_sym x n.
Proof.
  intros n rest (c & t & -> & Sc & Ft) Q. exists (Rule (s_ "symbol") (map v1 (c :: t))). split; [|constructor; discriminate].
  eapply mk_rule; [exact g_symbol|]. cbn. change (v1 c :: map v1 t) with ([Val [c]] ++ map v1 t).
  eapply mk_and; [constructor; apply class_start; exact Sc|]. apply peg_and_last. rewrite <- concat_v1. apply mk_star.
  - apply class_star_bwd. eapply Forall_impl; [|exact Ft]. intros; apply class_char; assumption.
  - apply peg_class_fail. intros d r E I. apply class_char in I. exact (Q d r E I).
Qed.

Definition dot_sym : expr := And [Simple (Literal (s_ ".")); RuleName (s_ "symbol")].
Lemma decid_dot_sym : decid dot_sym.
Proof. apply decid_and. fa; [apply decid_lit|apply decid_symbol]. Qed.
Lemma consumes_dot_sym : consumes dot_sym.
Proof. apply consumes_and. left. apply (consumes_lit 46%N). Qed.

Lemma decid_name : decid (RuleName (s_ "rule_name")).
Proof.
  eapply decid_rule; [exact g_rule_name|]. apply decid_and. fa; cbn.
  - apply decid_opt, decid_lit.
  - apply decid_symbol.
  - apply decid_rep; [apply decid_dot_sym|apply consumes_dot_sym].
Qed.
Lemma consumes_name : consumes (RuleName (s_ "rule_name")).
Proof. eapply consumes_rule; [exact g_rule_name|]. apply consumes_and. right. left. apply consumes_symbol. Qed.

Lemma dots_fwd : forall s l rest, star PG dot_sym s l rest -> sym_stop s -> exists m, s = m ++ rest /\ t_dots (concat l) m /\ sym_stop rest /\
  forall t, symbol t -> dotted (t ++ m).
Proof.
  intros s l rest H. induction H as [s|s t s1 ts rest H1 H2 IH]; intro Q.
  - exists []. split; [reflexivity|]. split; [constructor|]. split; [exact Q|]. intros t S. rewrite app_nil_r. constructor. exact S.
  - unfold dot_sym in H1. inv_m. match goal with H : peg PG (RuleName _) _ _ |- _ => apply symbol_fwd in H; destruct H as (n & x & -> & T & S & -> & Q2) end.
    destruct (IH Q2) as (m & -> & D & Q3 & K). exists (s_ "." ++ n ++ m). split; [rewrite <- !app_assoc; reflexivity|].
    split; [cbn [concat app]; constructor; assumption|]. split; [exact Q3|]. intros t S2. apply dt_more; [exact S2|apply K; exact S].
Qed.

Lemma name_fwd : forall s ts rest, peg PG (RuleName (s_ "rule_name")) s (PMatch ts rest) ->
  exists n x, ts = [x] /\ t_name x n /\ rule_name n /\ s = n ++ rest /\ name_stop rest.
Proof.
  intros s ts rest H. eapply inv_nt in H; [|exact g_rule_name]. destruct H as (k & -> & M). cbn in M. inv_m.
  match goal with H : peg PG (RuleName _) _ _ |- _ => apply symbol_fwd in H; destruct H as (n & x & -> & T & S & -> & Q2) end.
  match goal with H : peg PG (Repeat _ _ None) _ _ |- _ => apply inv_rep0 in H; destruct H as (l & St & -> & F) end.
  fold dot_sym in *. destruct (dots_fwd _ _ _ St Q2) as (m & -> & D & Q3 & K). specialize (K n S).
  assert (NS : name_stop rest).
  { split; [exact Q3|]. intros c r -> I. destruct (decid_symbol (c :: r)) as [F2|(us & r2 & M2)].
    - assert (X : exists a b, c :: r = a ++ b /\ symbol a /\ sym_stop b).
      { clear - I. assert (Y : forall r, exists a b, r = a ++ b /\ Forall sym_char a /\ sym_stop b).
        { clear. induction r as [|d r (a & b & -> & Fa & Q)]; [exists [], []; split; [reflexivity|]; split; [constructor|]; intros ? ? E; discriminate|].
          destruct (match_char (s_ "_'""") [(97%N, 122%N); (65%N, 90%N); (48%N, 57%N)] d) eqn:E.
          - apply match_char_iff in E. exists (d :: a), b. split; [reflexivity|]. split; [constructor; [apply class_char; exact E|exact Fa]|exact Q].
          - exists [], (d :: a ++ b). split; [reflexivity|]. split; [constructor|]. intros x y Z S. injection Z as <- _. apply class_char in S. apply match_char_iff in S. congruence. }
        destruct (Y r) as (a & b & -> & Fa & Q). exists (c :: a), b. split; [reflexivity|]. split; [exists c, a; auto|exact Q]. }
      destruct X as (a & b & E & Sa & Qb). rewrite E in F2. destruct (symbol_bwd a b Sa Qb) as (y & M2 & _). exact (fail_nomatch _ _ F2 _ _ M2).
    - apply (fail_nomatch _ _ F ([Val (s_ ".")] ++ us) r2). eapply mk_and; [apply mk_lit; reflexivity|apply peg_and_last; exact M2]. }
  match goal with H : peg PG (Repeat _ 0 (Some 1)) _ _ |- _ => apply inv_opt in H; destruct H as [(-> & E0)|H]; [rewrite <- E0|] end; [|inv_m].
  2:{ eexists (s_ "." ++ n ++ m), _. split; [reflexivity|]. split; [rewrite ?app_nil_r; cbn [app]; constructor; assumption|].
    split; [right; exists (n ++ m); auto|]. split; [rewrite <- !app_assoc; reflexivity|exact NS]. }
  - eexists (n ++ m), _. split; [reflexivity|]. split; [rewrite ?app_nil_r; cbn [app]; constructor; assumption|].
    split; [left; exact K|]. split; [rewrite <- !app_assoc; reflexivity|exact NS].
Qed.

Lemma dotted_bwd : forall n rest, dotted n -> name_stop rest -> exists x t m l, n = t ++ m /\
  peg PG (RuleName (s_ "symbol")) (n ++ rest) (PMatch [x] (m ++ rest)) /\ t_sym x t /\ star PG dot_sym (m ++ rest) l rest /\ t_dots (concat l) m.
Proof.
  intros n rest D. induction D as [t S|t r S D IH]; intros [Q1 Q2].
  - destruct (symbol_bwd t rest S Q1) as (x & M & T). exists x, t, [], []. rewrite app_nil_r. repeat split; [exact M|exact T|constructor|constructor].
  - destruct IH as (x2 & t2 & m2 & l2 & -> & M2 & T2 & St & D2); [split; assumption|].
    destruct (symbol_bwd t ((s_ "." ++ t2 ++ m2) ++ rest) S) as (x & M & T).
    { intros c y E [I|[->| ->]]; cbn in E; injection E as E _; [|discriminate|discriminate]. subst c. unfold sym_start, between in I. lia. }
    exists x, t, (s_ "." ++ t2 ++ m2), (([Val (s_ ".")] ++ [x2]) :: l2). split; [reflexivity|]. split; [rewrite <- app_assoc; exact M|].
    split; [exact T|]. split; [|cbn [concat app]; constructor; assumption]. econstructor; [|exact St].
    eapply mk_and; [apply mk_lit; rewrite <- app_assoc; reflexivity|apply peg_and_last; exact M2].
Qed.

Lemma dot_sym_stop : forall rest, name_stop rest -> peg PG dot_sym rest PFail.
Proof.
  intros rest [Q1 Q2]. apply nomatch_fails; [apply decid_dot_sym|]. intros ts r M. unfold dot_sym in M. inv_m.
  match goal with H : peg PG (RuleName _) _ _ |- _ => apply symbol_fwd in H; destruct H as (n & x & -> & T & (c & y & -> & S & _) & -> & _) end.
  exact (Q2 c _ eq_refl S).
Qed.

Lemma dotted_head : forall n, dotted n -> exists c r, n = c :: r /\ sym_start c.
Proof. intros n D. destruct D as [t (c & r & -> & S & _)|t r (c & r' & -> & S & _) D]; cbn; eauto. Qed.

Lemma name_bwd : forall n rest, rule_name n -> name_stop rest ->
  exists x, peg PG (RuleName (s_ "rule_name")) (n ++ rest) (PMatch [x] rest) /\ t_name x n.
Proof.
  intros n rest [D|(r & -> & D)] Q.
  - destruct (dotted_head n D) as (c & y & En & S). destruct (dotted_bwd n rest D Q) as (x & t & m & l & E & M & T & St & Dm).
    exists (Rule (s_ "rule_name") (x :: concat l)). split; [|rewrite E; constructor; assumption].
    eapply mk_rule; [exact g_rule_name|]. cbn. change (x :: concat l) with ([] ++ [x] ++ concat l).
    eapply mk_and; [apply mk_opt_none|].
    { apply peg_lit_fail. intros r0 E0. rewrite En in E0. cbn in E0. injection E0 as -> _. unfold sym_start, between in S. lia. }
    eapply mk_and; [exact M|]. apply peg_and_last. apply mk_star; [exact St|apply dot_sym_stop; exact Q].
  - destruct (dotted_bwd r rest D Q) as (x & t & m & l & E & M & T & St & Dm).
    exists (Rule (s_ "rule_name") (Val (s_ ".") :: x :: concat l)). split; [|rewrite E; constructor; assumption].
    eapply mk_rule; [exact g_rule_name|]. cbn. change (Val (s_ ".") :: x :: concat l) with ([Val (s_ ".")] ++ [x] ++ concat l).
    eapply mk_and; [apply mk_opt_some; apply mk_lit; rewrite <- app_assoc; reflexivity|].
    eapply mk_and; [exact M|]. apply peg_and_last. apply mk_star; [exact St|apply dot_sym_stop; exact Q].
Qed.

Lemma name_head : forall n, rule_name n -> exists c r, n = c :: r /\ (sym_start c \/ c = 46%N).
Proof.
  intros n [D|(r & -> & D)]; [destruct (dotted_head n D) as (c & r & -> & S); eauto|].
  exists 46%N, r. split; [reflexivity|right; reflexivity].
Qed.

(* ------------------------------------------------------------------------------------------- *)
(** * Literals *)

Lemma q1_fwd : forall s ts rest, peg PG (RuleName (s_ "_'")) s (PMatch ts rest) -> ts = [q1_node] /\ s = ch_quote :: rest.
Proof. intros s ts rest H. eapply inv_nt in H; [|exact g_q1]. destruct H as (k & -> & M). cbn in M. inv_m. split; reflexivity. Qed.
Lemma q1_bwd : forall rest, peg PG (RuleName (s_ "_'")) (ch_quote :: rest) (PMatch [q1_node] rest).
Proof. intro rest. eapply mk_rule; [exact g_q1|]. apply mk_lit. reflexivity. Qed.
Lemma q2_fwd : forall s ts rest, peg PG (RuleName (s_ "_""")) s (PMatch ts rest) -> ts = [q2_node] /\ s = ch_dquote :: rest.
Proof. intros s ts rest H. eapply inv_nt in H; [|exact g_q2]. destruct H as (k & -> & M). cbn in M. inv_m. split; reflexivity. Qed.
Lemma q2_bwd : forall rest, peg PG (RuleName (s_ "_""")) (ch_dquote :: rest) (PMatch [q2_node] rest).
Proof. intro rest. eapply mk_rule; [exact g_q2|]. apply mk_lit. reflexivity. Qed.
Lemma decid_q1 : decid (RuleName (s_ "_'")).
Proof. eapply decid_rule; [exact g_q1|apply decid_lit]. Qed.
Lemma decid_q2 : decid (RuleName (s_ "_""")).
Proof. eapply decid_rule; [exact g_q2|apply decid_lit]. Qed.
Lemma q1_fail : forall s, hd_error s <> Some ch_quote -> peg PG (RuleName (s_ "_'")) s PFail.
Proof. intros s N. apply nomatch_fails; [apply decid_q1|]. intros ts r M. apply q1_fwd in M. destruct M as [_ ->]. apply N. reflexivity. Qed.
Lemma q2_fail : forall s, hd_error s <> Some ch_dquote -> peg PG (RuleName (s_ "_""")) s PFail.
Proof. intros s N. apply nomatch_fails; [apply decid_q2|]. intros ts r M. apply q2_fwd in M. destruct M as [_ ->]. apply N. reflexivity. Qed.

Lemma decid_esc : decid (RuleName (s_ "esc_char")).
Proof. eapply decid_rule; [exact g_esc_char|]. apply decid_or. fa; apply decid_lit. Qed.
Lemma consumes_esc : consumes (RuleName (s_ "esc_char")).
Proof. eapply consumes_rule; [exact g_esc_char|]. apply consumes_or. fa; apply consumes_lit. Qed.
Lemma decid_hex : decid (RuleName (s_ "hex_char")).
Proof. eapply decid_rule; [exact g_hex_char|]. apply decid_and. fa; [apply decid_lit|apply decid_class|apply decid_class]. Qed.
Lemma consumes_hex : consumes (RuleName (s_ "hex_char")).
Proof. eapply consumes_rule; [exact g_hex_char|]. apply consumes_and. left. apply (consumes_lit ch_bslash). Qed.

Lemma esc_fwd : forall s ts rest, peg PG (RuleName (s_ "esc_char")) s (PMatch ts rest) ->
  exists x y, escape x y /\ s = ch_bslash :: x :: rest /\ ts = [Rule (s_ "esc_char") [Val [ch_bslash; x]]].
Proof.
  intros s ts rest H. eapply inv_nt in H; [|exact g_esc_char]. destruct H as (k & -> & M). cbn in M.
  repeat (apply inv_or_cons in M; destruct M as [M|[_ M]]; [inv_m; eexists _, _; split; [constructor|]; split; reflexivity|]).
  destruct (inv_or_nil _ _ _ M).
Qed.
Lemma esc_bwd : forall x y rest, escape x y ->
  peg PG (RuleName (s_ "esc_char")) (ch_bslash :: x :: rest) (PMatch [Rule (s_ "esc_char") [Val [ch_bslash; x]]] rest).
Proof.
  intros x y rest E. eapply mk_rule; [exact g_esc_char|]. cbn.
  destruct E; repeat (first [apply mk_or1; apply mk_lit; reflexivity|apply peg_or_next; [apply peg_lit_fail; intros r Q; discriminate|]]).
Qed.

Definition c_hex : expr := Simple (Match (s_ "") [(48%N, 57%N); (65%N, 70%N)]).
Lemma class_hex : forall c, in_class (s_ "") [(48%N, 57%N); (65%N, 70%N)] c <-> exists d, upper_hex c d.
Proof.
  intro c. unfold in_class, upper_hex, between. split.
  - intros [[]|(lo & hi & I & L)]. destruct I as [E|[E|[]]]; injection E as <- <-; eauto.
  - intros (d & [[L _]|[L _]]); right; eexists _, _; (split; [|exact L]); cbn; auto.
Qed.
Lemma hex_fwd : forall s ts rest, peg PG (RuleName (s_ "hex_char")) s (PMatch ts rest) ->
  exists a b d1 d2, upper_hex a d1 /\ upper_hex b d2 /\ s = s_ "\0x" ++ a :: b :: rest /\
    ts = [Rule (s_ "hex_char") [Val (s_ "\0x"); v1 a; v1 b]].
Proof.
  intros s ts rest H. eapply inv_nt in H; [|exact g_hex_char]. destruct H as (k & -> & M). cbn in M. inv_m.
  repeat match goal with H : peg PG (Simple (Match _ _)) _ _ |- _ => apply inv_class in H; let I := fresh "I" in destruct H as (? & I & -> & ->); apply class_hex in I; destruct I as (? & ?) end.
  do 4 eexists. split; [|split; [|split; reflexivity]]; eassumption.
Qed.
Lemma hex_bwd : forall a b d1 d2 rest, upper_hex a d1 -> upper_hex b d2 ->
  peg PG (RuleName (s_ "hex_char")) (s_ "\0x" ++ a :: b :: rest) (PMatch [Rule (s_ "hex_char") [Val (s_ "\0x"); v1 a; v1 b]] rest).
Proof.
  intros a b d1 d2 rest Ha Hb. eapply mk_rule; [exact g_hex_char|]. cbn. 
  change [Val (s_ "\0x"); v1 a; v1 b] with ([Val (s_ "\0x")] ++ [Val [a]] ++ [Val [b]]).
  eapply mk_and; [apply mk_lit; reflexivity|]. eapply mk_and; [constructor; apply class_hex; eauto|].
  apply peg_and_last. constructor. apply class_hex. eauto.
Qed.

Definition d_unit : expr := Or [RuleName (s_ "esc_char"); RuleName (s_ "hex_char"); And [Not (RuleName (s_ "_""")); Simple Dot]].
Lemma decid_dunit : decid d_unit.
Proof. apply decid_or. fa; [apply decid_esc|apply decid_hex|apply decid_not_dot, decid_q2]. Qed.
Lemma consumes_dunit : consumes d_unit.
Proof. apply consumes_or. fa; [apply consumes_esc|apply consumes_hex|apply consumes_not_dot]. Qed.

Lemma decid_literal : decid (RuleName (s_ "literal")).
Proof.
  eapply decid_rule; [exact g_literal|]. apply decid_or. fa.
  - eapply decid_rule; [exact g_lit_noesc|]. apply decid_and. fa; [apply decid_q1| |apply decid_q1].
    apply decid_rep; [apply decid_not_dot, decid_q1|apply consumes_not_dot].
  - eapply decid_rule; [exact g_lit_esc|]. apply decid_and. fa; [apply decid_q2| |apply decid_q2].
    apply decid_rep; [apply decid_dunit|apply consumes_dunit].
Qed.

Lemma dq_fwd : forall s l rest, star PG d_unit s l (ch_dquote :: rest) ->
  exists t v, s = t ++ rest /\ dq_body t v /\ t_elems (concat l) v.
Proof.
  intros s l rest H. remember (ch_dquote :: rest) as z eqn:Z. induction H as [s|s t s1 ts z H1 H2 IH].
  - subst s. exists [ch_dquote], []. split; [reflexivity|]. split; constructor.
  - destruct (IH Z) as (t2 & v & -> & D & T). unfold d_unit in H1. apply inv_or_cons in H1. destruct H1 as [M|[F1 M]].
    { apply esc_fwd in M. destruct M as (x & y & E & -> & ->). exists (ch_bslash :: x :: t2), (y :: v). split; [reflexivity|].
      split; [constructor; assumption|]. cbn [concat app]. change (y :: v) with ([y] ++ v). constructor; [constructor; exact E|exact T]. }
    apply inv_or_cons in M. destruct M as [M|[F2 M]].
    { apply hex_fwd in M. destruct M as (a & b & d1 & d2 & Ha & Hb & -> & ->). eexists (s_ "\0x" ++ a :: b :: t2), (_ :: v).
      split; [rewrite <- app_assoc; reflexivity|]. split; [econstructor; eassumption|]. cbn [concat app].
      change (?x :: v) with ([x] ++ v). constructor; [constructor; eassumption|exact T]. }
    apply inv_or_cons in M. destruct M as [M|[_ M]]; [|destruct (inv_or_nil _ _ _ M)].
    apply inv_and_cons in M. destruct M as (n1 & s2 & m1 & -> & M1 & M2). pose proof (inv_not _ _ _ _ _ M1) as [-> ->]. inv_m.
    exists (c :: t2), (c :: v). split; [reflexivity|]. split.
    + constructor; [| |exact D].
      * intros ->. pose proof (peg_not_fail PG _ _ _ _ (q2_bwd (t2 ++ rest))) as F. pose proof (peg_det _ _ _ _ F _ M1). discriminate.
      * intros [(x & y & r & E & Es)|(a & b & d1 & d2 & r & E & Ha & Hb)].
        -- injection E as -> ->. apply (fail_nomatch _ _ F1 _ _ (esc_bwd x y (r ++ rest) Es)).
        -- pose proof (hex_bwd a b d1 d2 (r ++ rest) Ha Hb) as Mh. apply (fail_nomatch _ _ F2 [Rule (s_ "hex_char") [Val (s_ "\0x"); v1 a; v1 b]] (r ++ rest)).
           change (c :: t2 ++ rest) with ((c :: t2) ++ rest). rewrite E, <- app_assoc. exact Mh.
    + cbn [concat app]. change (c :: v) with ([c] ++ v). constructor; [constructor|exact T].
Qed.

Lemma dq_last : forall t v, dq_body t v -> exists t0, t = t0 ++ [ch_dquote].
Proof.
  intros t v H. induction H as [|x y t v E H (t0 & ->)|a b d1 d2 t v Ha Hb H (t0 & ->)|c t v N1 N2 H (t0 & ->)].
  - exists []. reflexivity.
  - exists (ch_bslash :: x :: t0). reflexivity.
  - exists (s_ "\0x" ++ a :: b :: t0). rewrite <- app_assoc. reflexivity.
  - exists (c :: t0). reflexivity.
Qed.

Lemma upper_hex_dq : forall d, ~ upper_hex ch_dquote d.
Proof. intros d [[L _]|[L _]]; unfold between, ch_dquote in L; lia. Qed.

Lemma dq_bwd : forall t v rest, dq_body t v -> exists l, star PG d_unit (t ++ rest) l (ch_dquote :: rest) /\ t_elems (concat l) v.
Proof.
  intros t v rest H. induction H as [|x y t v E H (l & St & T)|a b d1 d2 t v Ha Hb H (l & St & T)|c t v N1 N2 H (l & St & T)].
  - exists []. split; constructor.
  - eexists (_ :: l). split; [econstructor; [|exact St]; apply mk_or1; eapply esc_bwd; exact E|].
    cbn [concat app]. change (y :: v) with ([y] ++ v). constructor; [constructor; exact E|exact T].
  - eexists (_ :: l). split; [econstructor; [|exact St]|].
    + rewrite <- app_assoc. cbn [app]. apply peg_or_next.
      * apply nomatch_fails; [apply decid_esc|]. intros ts r M. apply esc_fwd in M. destruct M as (x & y & E & Q & _). 
        cbn in Q. injection Q as <- _. inversion E.
      * apply mk_or1. eapply hex_bwd; eassumption.
    + cbn [concat app]. change (?x :: v) with ([x] ++ v). constructor; [constructor; eassumption|exact T].
  - exists ([v1 c] :: l). split; [econstructor; [|exact St]|].
    + destruct (dq_last t v H) as (t0 & Et). apply peg_or_next; [|apply peg_or_next; [|apply mk_or1]].
      * apply nomatch_fails; [apply decid_esc|]. intros ts r M. apply esc_fwd in M. destruct M as (x & y & E & Q & _).
        destruct t as [|x' t]; [destruct t0; discriminate|]. cbn in Q. injection Q as -> -> _. apply N2. left. exists x, y, t. auto.
      * apply nomatch_fails; [apply decid_hex|]. intros ts r M. apply hex_fwd in M. destruct M as (a & b & d1 & d2 & Ha & Hb & Q & _).
        change (s_ "\0x") with [ch_bslash; 48%N; 120%N] in *. cbn in Q. injection Q as -> Q.
        destruct t as [|y0 [|y1 [|y2 [|y3 t]]]]; cbn in Q.
        -- destruct t0; discriminate.
        -- injection Q as -> _. destruct t0 as [|? [|? ?]]; discriminate.
        -- injection Q as -> -> _. destruct t0 as [|? [|? [|? ?]]]; discriminate.
        -- injection Q as -> -> -> _. destruct t0 as [|? [|? [|? [|? ?]]]]; try discriminate. cbn in Et. injection Et as _ _ ->.
           exact (upper_hex_dq _ Ha).
        -- injection Q as -> -> -> -> _. apply N2. right. exists a, b, d1, d2, t. auto.
      * change [v1 c] with ([] ++ [v1 c]). eapply mk_and; [|apply peg_and_last; constructor].
        apply mk_not. apply q2_fail. cbn. congruence.
    + cbn [concat app]. change (c :: v) with ([c] ++ v). constructor; [constructor|exact T].
Qed.

Lemma dunit_stop : forall rest, peg PG d_unit (ch_dquote :: rest) PFail.
Proof.
  intro rest. apply peg_or_next; [|apply peg_or_next; [|apply peg_or_next; [|constructor]]].
  - apply nomatch_fails; [apply decid_esc|]. intros ts r M. apply esc_fwd in M. destruct M as (x & y & E & Q & _). discriminate.
  - apply nomatch_fails; [apply decid_hex|]. intros ts r M. apply hex_fwd in M. destruct M as (a & b & d1 & d2 & Ha & Hb & Q & _). discriminate.
  - apply mk_and_fail1. eapply peg_not_fail. apply q2_bwd.
Qed.

Lemma lit_fwd : forall s ts rest, peg PG (RuleName (s_ "literal")) s (PMatch ts rest) ->
  exists x o, ts = [x] /\ t_lit x o /\ match o with Some v => exists t, literal t v /\ s = t ++ rest | None => s = [ch_quote; ch_quote] ++ rest end.
Proof.
  intros s ts rest H. eapply inv_nt in H; [|exact g_literal]. destruct H as (k & -> & M). cbn in M.
  apply inv_or_cons in M. destruct M as [M|[_ M]].
  - eapply inv_nt in M; [|exact g_lit_noesc]. destruct M as (k2 & -> & M). cbn in M. inv_m.
    repeat match goal with H : peg PG (RuleName _) _ _ |- _ => apply q1_fwd in H; destruct H as [-> ->] end.
    match goal with H : peg PG (Repeat _ _ _) _ _ |- _ => apply inv_rep0 in H; destruct H as (l & St & -> & _) end.
    apply scan_fwd in St; [|apply decid_q1]. destruct St as (t & -> & -> & F). rewrite concat_v1.
    eexists _, _. split; [reflexivity|]. split; [cbn [app]; apply tt_single|]. destruct t as [|c t]; [reflexivity|].
    exists ([ch_quote] ++ (c :: t) ++ [ch_quote]). split; [|rewrite <- !app_assoc; reflexivity]. constructor; [discriminate|].
    intro I. apply in_split in I. destruct I as (a & b & E). specialize (F a (ch_quote :: b) E ltac:(discriminate)).
    exact (fail_nomatch _ _ F _ _ (q1_bwd _)).
  - apply inv_or_cons in M. destruct M as [M|[_ M]]; [|destruct (inv_or_nil _ _ _ M)].
    eapply inv_nt in M; [|exact g_lit_esc]. destruct M as (k2 & -> & M). cbn in M. inv_m.
    repeat match goal with H : peg PG (RuleName _) _ _ |- _ => apply q2_fwd in H; destruct H as [-> ->] end.
    match goal with H : peg PG (Repeat _ _ _) _ _ |- _ => apply inv_rep0 in H; destruct H as (l & St & -> & _) end.
    fold d_unit in *. apply dq_fwd in St. destruct St as (t & v & -> & D & T). eexists _, (Some v). split; [reflexivity|].
    split; [cbn [app]; apply tt_double; exact T|]. exists (ch_dquote :: t). split; [constructor; exact D|reflexivity].
Qed.

Lemma lit_bwd : forall t v rest, literal t v -> exists x, peg PG (RuleName (s_ "literal")) (t ++ rest) (PMatch [x] rest) /\ t_lit x (Some v).
Proof.
  intros t v rest H. destruct H as [body N1 N2|t v D].
  - exists (Rule (s_ "literal") [Rule (s_ "lit_noesc") (q1_node :: map v1 body ++ [q1_node])]). split.
    + eapply mk_rule; [exact g_literal|]. cbn [lit ref_rule]. apply mk_or1. eapply mk_rule; [exact g_lit_noesc|]. cbn.
      change (q1_node :: map v1 body ++ [q1_node]) with ([q1_node] ++ map v1 body ++ [q1_node]).
      eapply mk_and; [apply q1_bwd|]. rewrite <- app_assoc. eapply mk_and; [|apply peg_and_last; apply q1_bwd]. rewrite <- concat_v1. apply mk_star.
      * apply scan_bwd. intros a b -> Nb. apply q1_fail. destruct b as [|c b]; [congruence|]. cbn. intro E. injection E as ->.
        apply N2. apply in_or_app. right. left. reflexivity.
      * apply mk_and_fail1. eapply peg_not_fail. apply q1_bwd.
    + pose proof (tt_single body) as T. destruct body; [congruence|exact T].
  - destruct (dq_bwd t v rest D) as (l & St & T). eexists. split; [|apply tt_double; exact T].
    eapply mk_rule; [exact g_literal|]. cbn [lit ref_rule]. apply peg_or_next.
    + eapply mk_rule_fail; [exact g_lit_noesc|]. cbn. apply mk_and_fail1. apply q1_fail. discriminate.
    + apply mk_or1. eapply mk_rule; [exact g_lit_esc|]. cbn. change (q2_node :: ?a ++ [q2_node]) with ([q2_node] ++ a ++ [q2_node]).
      eapply mk_and; [apply q2_bwd|]. eapply mk_and; [|apply peg_and_last; apply q2_bwd]. apply mk_star; [exact St|apply dunit_stop].
Qed.

Lemma lit_head : forall t v, literal t v -> exists c r, t = c :: r /\ (c = ch_quote \/ c = ch_dquote).
Proof. intros t v H. destruct H; eexists _, _; (split; [reflexivity|]); auto. Qed.

(* ------------------------------------------------------------------------------------------- *)
(** * Classes *)

Definition m_unit : expr := And [Not (Simple (Literal (s_ "]"))); Not (And [Simple Dot; Simple (Literal (s_ "-"))]); Simple Dot].
Definition m_range : expr := RuleName (s_ "mbetween").

Lemma decid_munit : decid m_unit.
Proof. apply decid_and. fa; [apply decid_not, decid_lit|apply decid_not, decid_and; fa; [apply decid_dot|apply decid_lit]|apply decid_dot]. Qed.
Lemma consumes_munit : consumes m_unit.
Proof. apply consumes_and. right. right. left. apply consumes_dot. Qed.
Lemma decid_mrange : decid m_range.
Proof. eapply decid_rule; [exact g_mbetween|]. apply decid_and. fa; [apply decid_dot|apply decid_lit|apply decid_dot]. Qed.
Lemma consumes_mrange : consumes m_range.
Proof. eapply consumes_rule; [exact g_mbetween|]. apply consumes_and. left. apply consumes_dot. Qed.
Lemma decid_class_rule : decid (RuleName (s_ "match")).
Proof.
  eapply decid_rule; [exact g_class|]. apply decid_and. fa; [apply decid_lit| |apply decid_lit]. apply decid_or. fa.
  - apply decid_and. fa; [|apply decid_rep; [apply decid_mrange|apply consumes_mrange]].
    eapply decid_rule; [exact g_mchars|]. apply decid_rep; [apply decid_munit|apply consumes_munit].
  - apply decid_rep; [apply decid_mrange|apply consumes_mrange].
Qed.

Lemma munit_fwd : forall s ts rest, peg PG m_unit s (PMatch ts rest) ->
  exists c, ts = [v1 c] /\ s = c :: rest /\ c <> 93%N /\ hd_error rest <> Some 45%N.
Proof.
  intros s ts rest H. unfold m_unit in H. apply inv_and_cons in H. destruct H as (n1 & s2 & m1 & -> & M1 & H). pose proof (inv_not _ _ _ _ _ M1) as [-> ->].
  apply inv_and_cons in H. destruct H as (n1 & s2 & m2 & -> & M2 & H). pose proof (inv_not _ _ _ _ _ M2) as [-> ->]. inv_m. exists c.
  split; [reflexivity|]. split; [reflexivity|]. split.
  - intros ->. assert (F : peg PG (Simple (Literal (s_ "]"))) (93%N :: rest) (PMatch [Val (s_ "]")] rest)) by (apply mk_lit; reflexivity).
    apply peg_not_fail in F. pose proof (peg_det _ _ _ _ F _ M1). discriminate.
  - intro E. destruct rest as [|d rest]; [discriminate|]. injection E as ->.
    assert (F : peg PG (And [Simple Dot; Simple (Literal (s_ "-"))]) (c :: 45%N :: rest) (PMatch ([v1 c] ++ [Val (s_ "-")]) rest)).
    { eapply mk_and; [constructor|]. apply peg_and_last. apply mk_lit. reflexivity. }
    apply peg_not_fail in F. pose proof (peg_det _ _ _ _ F _ M2). discriminate.
Qed.
Lemma munit_bwd : forall c rest, c <> 93%N -> hd_error rest <> Some 45%N -> peg PG m_unit (c :: rest) (PMatch [v1 c] rest).
Proof.
  intros c rest N1 N2. change [v1 c] with ([] ++ [] ++ [v1 c]). eapply mk_and.
  { apply mk_not. apply peg_lit_fail. intros r E. injection E as E _. contradiction. }
  eapply mk_and; [|apply peg_and_last; constructor].
  apply mk_not. eapply mk_and_fail; [constructor|]. apply mk_and_fail1. apply peg_lit_fail. intros r ->. apply N2. reflexivity.
Qed.
Lemma munit_fail : forall c rest, c = 93%N \/ hd_error rest = Some 45%N -> peg PG m_unit (c :: rest) PFail.
Proof.
  intros c rest K. apply nomatch_fails; [apply decid_munit|]. intros ts r M. apply munit_fwd in M.
  destruct M as (d & _ & E & N1 & N2). injection E as -> ->. destruct K; contradiction.
Qed.

Lemma mchars_star_fwd : forall s l rest, star PG m_unit s l rest -> exists cs, s = cs ++ rest /\ concat l = map v1 cs /\
  forall pre c post, cs = pre ++ c :: post -> c <> 93%N /\ hd_error (post ++ rest) <> Some 45%N.
Proof.
  intros s l rest H. induction H as [s|s t s1 ts rest H1 H2 (cs & -> & E & K)].
  - exists []. split; [reflexivity|]. split; [reflexivity|]. intros pre c post Q. destruct pre; discriminate.
  - apply munit_fwd in H1. destruct H1 as (c & -> & -> & N1 & N2). exists (c :: cs). split; [reflexivity|]. split; [cbn; rewrite E; reflexivity|].
    intros pre d post Q. destruct pre as [|x pre]; cbn in Q; injection Q as -> ->; [auto|]. apply (K pre d post eq_refl).
Qed.
Lemma mchars_star_bwd : forall cs rest, (forall pre c post, cs = pre ++ c :: post -> c <> 93%N /\ hd_error (post ++ rest) <> Some 45%N) ->
  star PG m_unit (cs ++ rest) (map (fun c => [v1 c]) cs) rest.
Proof.
  intros cs rest. induction cs as [|c cs IH]; intro K; [constructor|]. cbn. destruct (K [] c cs eq_refl) as [N1 N2].
  econstructor; [apply munit_bwd; assumption|]. apply IH. intros pre d post E. apply (K (c :: pre) d post). rewrite E. reflexivity.
Qed.

Lemma range_fwd : forall s ts rest, peg PG m_range s (PMatch ts rest) -> exists p, ts = [range_node p] /\ s = fst p :: 45%N :: snd p :: rest.
Proof.
  intros s ts rest H. eapply inv_nt in H; [|exact g_mbetween]. destruct H as (k & -> & M). cbn in M. inv_m. exists (c0, c). split; reflexivity.
Qed.
Lemma range_bwd : forall p rest, peg PG m_range (fst p :: 45%N :: snd p :: rest) (PMatch [range_node p] rest).
Proof.
  intros [a b] rest. eapply mk_rule; [exact g_mbetween|]. cbn. change [v1 a; Val (s_ "-"); v1 b] with ([v1 a] ++ [Val (s_ "-")] ++ [v1 b]).
  eapply mk_and; [constructor|]. eapply mk_and; [apply mk_lit; reflexivity|]. apply peg_and_last. constructor.
Qed.
Lemma ranges_fwd : forall s l rest, star PG m_range s l rest -> exists rg, s = ranges_text rg ++ rest /\ concat l = map range_node rg.
Proof.
  intros s l rest H. induction H as [s|s t s1 ts rest H1 H2 (rg & -> & E)]; [exists []; auto|].
  apply range_fwd in H1. destruct H1 as (p & -> & ->). exists (p :: rg). split; [reflexivity|]. cbn. rewrite E. reflexivity.
Qed.
Lemma ranges_bwd : forall rg rest, star PG m_range (ranges_text rg ++ rest) (map (fun p => [range_node p]) rg) rest.
Proof.
  intros rg rest. induction rg as [|p rg IH]; [constructor|]. cbn. econstructor; [apply range_bwd|exact IH].
Qed.
Lemma concat_ranges : forall rg, concat (map (fun p => [range_node p]) rg) = map range_node rg.
Proof. induction rg as [|p rg IH]; cbn; congruence. Qed.
Lemma range_stop : forall rest, hd_error rest <> Some 45%N -> peg PG m_range (93%N :: rest) PFail.
Proof.
  intros rest N. apply nomatch_fails; [apply decid_mrange|]. intros ts r M. apply range_fwd in M. destruct M as (p & _ & E).
  injection E as _ ->. apply N. reflexivity.
Qed.

Lemma class_fwd : forall s ts rest, peg PG (RuleName (s_ "match")) s (PMatch ts rest) ->
  exists x cs rg t, ts = [x] /\ t_class x cs rg /\ class_text cs rg t /\ s = t ++ rest.
Proof.
  intros s ts rest H. eapply inv_nt in H; [|exact g_class]. destruct H as (k & -> & M). cbn in M. inv_m.
  match goal with H : peg PG (Or _) _ _ |- _ => rename H into M end. fold m_range in M.
  apply inv_or_cons in M. destruct M as [M|[_ M]].
  - inv_m. match goal with H : peg PG (RuleName _) _ _ |- _ => rename H into Mc end. eapply inv_nt in Mc; [|exact g_mchars].
    destruct Mc as (k2 & -> & Mc). cbn in Mc. fold m_unit in Mc. apply inv_rep1 in Mc. destruct Mc as (tc & l & sc & M1 & St & -> & _).
    match goal with H : peg PG (Repeat _ _ _) _ _ |- _ => apply inv_rep0 in H; destruct H as (l2 & St2 & -> & _) end.
    apply ranges_fwd in St2. destruct St2 as (rg & -> & E2).
    apply munit_fwd in M1. destruct M1 as (c & -> & -> & N1 & N2).
    apply mchars_star_fwd in St. destruct St as (cs0 & -> & E1 & K0). rewrite E1, E2, app_nil_r. clear E1 E2.
    set (cs := c :: cs0). assert (Ncs : cs <> []) by discriminate.
    change ([v1 c] ++ map v1 cs0) with (map v1 cs). change (c :: cs0 ++ ranges_text rg ++ s_ "]" ++ rest) with (cs ++ ranges_text rg ++ s_ "]" ++ rest).
    assert (K : forall pre d post, cs = pre ++ d :: post -> d <> 93%N /\ hd_error (post ++ ranges_text rg ++ s_ "]" ++ rest) <> Some 45%N).
    { intros pre d post E. destruct pre as [|y pre]; unfold cs in E; cbn in E; injection E as <- ->; [split; assumption|exact (K0 pre d post eq_refl)]. }
    clearbody cs. clear K0 N1 N2.
    eexists _, cs, rg, _. split; [reflexivity|]. split; [cbn [app]; constructor; exact Ncs|]. split.
    + split; [reflexivity|]. split; [left; exact Ncs|]. intros pre d post E. destruct (K pre d post E) as [N1 N2]. split; [exact N1|]. intro Q. apply N2.
      destruct post as [|? ?]; [|exact Q]. destruct rg as [|p rg]; [discriminate Q|]. exact Q.
    + rewrite <- !app_assoc. reflexivity.
  - apply inv_or_cons in M. destruct M as [M|[_ M]]; [|destruct (inv_or_nil _ _ _ M)].
    apply inv_rep1 in M. destruct M as (tc & l & sc & M1 & St & -> & _). pose proof (range_fwd _ _ _ M1) as (p & -> & ->).
    apply ranges_fwd in St. destruct St as (rg & -> & ->). eexists _, [], (p :: rg), _. split; [reflexivity|].
    split; [rewrite app_nil_r; cbn [app]; apply (tc_ranges (p :: rg)); discriminate|]. split.
    + split; [reflexivity|]. split; [right; discriminate|]. intros pre c post E. destruct pre; discriminate.
    + rewrite <- !app_assoc. reflexivity.
Qed.

Lemma class_bwd : forall cs rg t rest, class_text cs rg t -> hd_error rest <> Some 45%N ->
  exists x, peg PG (RuleName (s_ "match")) (t ++ rest) (PMatch [x] rest) /\ t_class x cs rg.
Proof.
  intros cs rg t rest (-> & NE & K) N. 
  assert (Stop : forall e, peg PG m_unit (ranges_text rg ++ 93%N :: e) PFail).
  { intro e. destruct rg as [|p rg]; [apply munit_fail; auto|]. apply munit_fail. right. reflexivity. }
  destruct cs as [|c cs].
  - destruct rg as [|p rg]; [destruct NE; congruence|]. exists (Rule (s_ "match") (Val (s_ "[") :: map range_node (p :: rg) ++ [Val (s_ "]")])).
    split; [|constructor; discriminate]. eapply mk_rule; [exact g_class|]. cbn [lit ref_rule rep0 app].
    change (Val (s_ "[") :: ?a ++ [Val (s_ "]")]) with ([Val (s_ "[")] ++ a ++ [Val (s_ "]")]).
    rewrite <- !app_assoc. eapply mk_and; [apply mk_lit; reflexivity|]. eapply mk_and; [|apply peg_and_last; apply mk_lit; reflexivity].
    apply peg_or_next.
    + apply mk_and_fail1. eapply mk_rule_fail; [exact g_mchars|]. apply peg_rep_short; [discriminate|lia|]. apply Stop.
    + apply mk_or1. cbn [map]. change (range_node p :: map range_node rg) with ([range_node p] ++ map range_node rg). rewrite <- concat_ranges.
      eapply mk_plus; [apply range_bwd|apply ranges_bwd|apply range_stop; exact N].
  - exists (Rule (s_ "match") (Val (s_ "[") :: Rule (s_ "mchars") (map v1 (c :: cs)) :: map range_node rg ++ [Val (s_ "]")])).
    split; [|constructor; discriminate]. eapply mk_rule; [exact g_class|]. cbn [lit ref_rule rep0].
    rewrite <- !app_assoc. change (Val (s_ "[") :: ?b :: ?a ++ [Val (s_ "]")]) with ([Val (s_ "[")] ++ ([b] ++ a) ++ [Val (s_ "]")]).
    eapply mk_and; [apply mk_lit; reflexivity|].
    eapply mk_and; [|apply peg_and_last; apply mk_lit; reflexivity]. apply mk_or1.
    assert (St : star PG m_unit ((c :: cs) ++ ranges_text rg ++ s_ "]" ++ rest) (map (fun c => [v1 c]) (c :: cs)) (ranges_text rg ++ s_ "]" ++ rest)).
    { apply mchars_star_bwd. intros pre d post E. destruct (K pre d post E) as [N1 N2]. split; [exact N1|]. intro Q. apply N2.
      destruct post; [|exact Q]. destruct rg; [discriminate Q|exact Q]. }
    eapply mk_and.
    + eapply mk_rule; [exact g_mchars|]. inversion St as [|? ? ? ? ? M1 M2]; subst. cbn [map]. change (v1 c :: map v1 cs) with ([v1 c] ++ map v1 cs).
      rewrite <- concat_v1. eapply mk_plus; [exact M1|exact M2|apply Stop].
    + apply peg_and_last. rewrite <- concat_ranges. apply mk_star; [apply ranges_bwd|apply range_stop; exact N].
Qed.

(* ------------------------------------------------------------------------------------------- *)
(** * [error(literal)] *)

Lemma decid_error : decid (RuleName (s_ "error")).
Proof.
  eapply decid_rule; [exact g_error|]. apply decid_and.
  fa; first [apply decid_lit|apply decid_blank|apply decid_literal].
Qed.

Lemma error_fwd : forall s ts rest, peg PG (RuleName (s_ "error")) s (PMatch ts rest) ->
  exists x o, ts = [x] /\ t_error x o /\ match o with Some v => exists t, error_text t v /\ s = t ++ rest | None => True end.
Proof.
  intros s ts rest H. eapply inv_nt in H; [|exact g_error]. destruct H as (k & -> & M). cbn in M. inv_m.
  repeat match goal with H : peg PG (RuleName (s_ "_")) _ _ |- _ => apply blank_fwd in H; destruct H as (? & ? & ? & -> & -> & _) end.
  match goal with H : peg PG (RuleName (s_ "literal")) _ _ |- _ => apply lit_fwd in H; destruct H as (xl & o & -> & T & K) end.
  eexists _, o. split; [reflexivity|]. split; [cbn [app]; constructor; exact T|]. destruct o as [v|]; [|exact I].
  destruct K as (t & L & E). subst. eexists. split; [do 4 eexists; split; [exact H0|split; [exact H1|split; [exact L|split; [exact H|reflexivity]]]]|].
  rewrite <- !app_assoc. reflexivity.
Qed.

Lemma error_bwd : forall t v rest, error_text t v -> exists x, peg PG (RuleName (s_ "error")) (t ++ rest) (PMatch [x] rest) /\ t_error x (Some v).
Proof.
  intros t v rest (b1 & b2 & l & b3 & B1 & B2 & L & B3 & ->).
  destruct (lit_head l v L) as (c & r & El & Hc).
  destruct (lit_bwd l v (b3 ++ s_ ")" ++ rest) L) as (x & Ml & T).
  destruct (blank_bwd b1 (s_ "(" ++ b2 ++ l ++ b3 ++ s_ ")" ++ rest) B1) as [k1 M1]; [apply clean_char; discriminate|].
  destruct (blank_bwd b2 (l ++ b3 ++ s_ ")" ++ rest) B2) as [k2 M2]; [rewrite El; destruct Hc as [->| ->]; apply clean_char; discriminate|].
  destruct (blank_bwd b3 (s_ ")" ++ rest) B3) as [k3 M3]; [apply clean_char; discriminate|].
  eexists. split; [|econstructor; exact T]. eapply mk_rule; [exact g_error|]. cbn [lit ref_rule].
  change (Val ?a :: ?b :: ?c :: ?d :: ?e :: ?f :: [?g]) with ([Val a] ++ [b] ++ [c] ++ [d] ++ [e] ++ [f] ++ [g]).
  rewrite <- !app_assoc. eapply mk_and; [apply mk_lit; reflexivity|]. eapply mk_and; [exact M1|]. eapply mk_and; [apply mk_lit; reflexivity|].
  eapply mk_and; [exact M2|]. eapply mk_and; [exact Ml|]. eapply mk_and; [exact M3|]. apply peg_and_last. apply mk_lit. reflexivity.
Qed.
