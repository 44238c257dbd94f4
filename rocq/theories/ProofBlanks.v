(** How many blanks there are does not matter. *)
From Verif Require Import Base ModelAst ModelParser SpecPeg SpecPos SpecApi SpecAst SpecTable SpecWords SpecBlanks.
From Verif Require Import ProofParser ProofEngine ProofApi ProofAst ProofRefactor ProofIdioms ProofTable ProofWords.

Section Blanks.
Variable cs : str.
Variable rg : list (char * char).
Notation blank := (in_class cs rg).
Notation sbb := (same_but_blanks cs rg).
Notation nbf := (no_blank_first cs rg).

Lemma sbb_first : forall s s', sbb s s' -> nbf s -> nbf s'.
Proof.
  intros s s' H N. destruct H as [|c s s' C H|u u' s s' U U' FU FU' NB H]; [exact I|exact C|].
  destruct u as [|c u]; [contradiction|]. inversion FU; subst. contradiction.
Qed.

Lemma sbb_sym : forall s s', sbb s s' -> sbb s' s.
Proof.
  intros s s' H. induction H as [|c s s' C H IH|u u' s s' U U' FU FU' NB H IH]; [constructor|constructor; assumption|].
  apply sb_run; try assumption. exact (sbb_first s s' H NB).
Qed.

Lemma sbb_char : forall c x s', ~ blank c -> sbb (c :: x) s' -> exists x', s' = c :: x' /\ sbb x x'.
Proof.
  intros c x s' C H. remember (c :: x) as y eqn:Y. destruct H as [|d s s' D H|u u' s s' U U' FU FU' NB H]; [discriminate|injection Y as -> ->; eauto|].
  exfalso. destruct u as [|d u]; [contradiction|]. inversion FU; subst. cbn in Y. injection Y as -> _. contradiction.
Qed.

Lemma sbb_lit : forall l x s', Forall (fun c => ~ blank c) l -> sbb (l ++ x) s' -> exists x', s' = l ++ x' /\ sbb x x'.
Proof.
  induction l as [|c l IH]; intros x s' FL H; [exists s'; split; [reflexivity|exact H]|].
  inversion FL as [|? ? C FL']; subst. destruct (sbb_char c (l ++ x) s' C H) as (y & -> & H1).
  destruct (IH x y FL' H1) as (x' & -> & H2). exists x'. split; [reflexivity|exact H2].
Qed.

Lemma sbb_nil : forall s', sbb [] s' -> s' = [].
Proof.
  intros s' H. remember (@nil char) as y eqn:Y. destruct H as [|d s s' D H|u u' s s' U U' FU FU' NB H]; [reflexivity|discriminate|].
  destruct u; [contradiction|discriminate].
Qed.

Section Grammar.
Variable G : str -> option expr.
Variable B : list str.
Hypothesis ONLY : only_read_by B cs rg G.

Inductive alike : presult -> presult -> Prop :=
| al_match ts ts' s s' : prune_list B ts = prune_list B ts' -> sbb s s' -> alike (PMatch ts s) (PMatch ts' s')
| al_fail : alike PFail PFail
| al_abort m s s' : sbb s s' -> alike (PAbort m s) (PAbort m s').

Lemma prune_list_cat : forall a b, prune_list B (a ++ b) = prune_list B a ++ prune_list B b.
Proof. intros a b. unfold prune_list. apply flat_map_app. Qed.

Lemma alike_prepend : forall ts ts' r r', prune_list B ts = prune_list B ts' -> alike r r' -> alike (prepend ts r) (prepend ts' r').
Proof. intros ts ts' r r' P H. destruct H; cbn [prepend]; constructor; try assumption. rewrite !prune_list_cat. congruence. Qed.

Lemma alike_stops : forall r r', alike r r' -> stops r -> stops r'.
Proof. intros r r' H S. destruct H; exact S. Qed.

Lemma alike_fail : forall r r', alike r r' -> r <> PFail -> r' <> PFail.
Proof. intros r r' H S. destruct H; try discriminate. exact S. Qed.

Lemma alike_wrap : forall n r r', alike r r' -> alike (wrap n r) (wrap n r').
Proof.
  intros n r r' H. destruct H as [ts ts' s s' P H| |]; cbn [wrap]; constructor; try assumption.
  unfold prune_list. cbn [flat_map node2prune]. destruct (name_in B n); [reflexivity|]. rewrite !prune_unfold, P. reflexivity.
Qed.

(** The rules that read blanks. *)
Lemma blanks_run : forall n mn s s' r, In n B -> (mn = 0 \/ mn = 1) -> peg G (rep0 (ematch cs rg) mn) s r -> sbb s s' ->
  exists r', peg G (rep0 (ematch cs rg) mn) s' r' /\ alike (wrap n r) (wrap n r').
Proof.
  intros n mn s s' r IN M H R.
  assert (PN : forall k, prune_list B [Rule n k] = []).
  { intro k. unfold prune_list. cbn [flat_map node2prune]. rewrite (proj2 (name_in_spec B n) IN). reflexivity. }
  assert (STAY : nbf s -> exists r', peg G (rep0 (ematch cs rg) mn) s' r' /\ alike (wrap n r) (wrap n r')).
  { intro N. pose proof (stop_class G cs rg s N) as F1. pose proof (stop_class G cs rg s' (sbb_first s s' R N)) as F2.
    destruct M as [->| ->].
    - exists (PMatch [] s'). split; [apply peg_rep_done; [discriminate|exact F2]|].
      rewrite (peg_det _ _ _ _ H _ (peg_rep_done G _ None s ltac:(discriminate) F1)). cbn [wrap]. constructor; [rewrite !PN; reflexivity|exact R].
    - exists PFail. split; [apply peg_rep_short; [discriminate|lia|exact F2]|].
      rewrite (peg_det _ _ _ _ H _ (peg_rep_short G _ 1 None s ltac:(discriminate) ltac:(lia) F1)). constructor. }
  destruct R as [|c s s' C R|u u' s s' U U' FU FU' NB R]; [apply STAY; exact Logic.I|apply STAY; exact C|]. clear STAY.
  assert (RUN : forall v x, v <> [] -> Forall blank v -> nbf x -> peg G (rep0 (ematch cs rg) mn) (v ++ x) (PMatch (by_chars v) x)).
  { intros v x V FV NX. destruct M as [->| ->]; [apply class_run; assumption|]. destruct v as [|c v]; [contradiction|]. inversion FV; subst.
    exact (peg_rep_more G (ematch cs rg) 1 None (c :: v ++ x) [Val [c]] (v ++ x) _ ltac:(discriminate) (peg_class_ok G cs rg c _ H2) (class_run G cs rg v x H3 NX)). }
  exists (PMatch (by_chars u') s'). split; [apply RUN; try assumption; exact (sbb_first s s' R NB)|].
  rewrite (peg_det _ _ _ _ H _ (RUN u s U FU NB)). cbn [wrap]. constructor; [rewrite !PN; reflexivity|exact R].
Qed.

Lemma alike_run : forall e s r, peg G e s r -> (forall a, has_atom a e -> reads_no_blank cs rg a) ->
  forall s', sbb s s' -> exists r', peg G e s' r' /\ alike r r'.
Proof.
  intros e s r H. induction H as
    [l rest|l s N|cs' rg' c rest C|cs' rg' s N|c rest| | |c rest|m s|s|e es s ts s1 r H1 IH1 H2 IH2|e es s r H1 IH1 ST|s|e es s r H1 IH1 NF
    |e es s r H1 IH1 H2 IH2|e s ts rest H1 IH1|e s r H1 IH1 ST|e s|e mn mx s ts s1 r MX H1 IH1 H2 IH2|e mx s MX H1 IH1|e mn mx s MX MN H1 IH1|e mn mx s m rest MX H1 IH1
    |n e s r E H1 IH1|n s E]; intros A s' R.
  - destruct (sbb_lit l rest s' (A _ (ha_simple _)) R) as (x & -> & R'). exists (PMatch [Val l] x). split; [constructor|constructor; [reflexivity|exact R']].
  - exists PFail. split; [|constructor]. apply peg_lit_fail. intros x ->.
    destruct (sbb_lit l x s (A _ (ha_simple _)) (sbb_sym _ _ R)) as (y & -> & _). exact (N y eq_refl).
  - destruct (sbb_char c rest s' (A _ (ha_simple _) c C) R) as (x & -> & R'). exists (PMatch [Val [c]] x).
    split; [apply peg_class_ok; exact C|constructor; [reflexivity|exact R']].
  - exists PFail. split; [|constructor]. apply peg_class_fail. intros c x -> C.
    destruct (sbb_char c x s (A _ (ha_simple _) c C) (sbb_sym _ _ R)) as (y & -> & _). exact (N c y eq_refl C).
  - destruct (A _ (ha_simple _)).
  - destruct (A _ (ha_simple _)).
  - apply sbb_nil in R. subst s'. exists (PMatch [Val (s_ "EOF")] []). split; [constructor|]. constructor; [reflexivity|constructor].
  - exists PFail. split; [|constructor]. destruct s' as [|c' s']; [|constructor]. apply sbb_sym, sbb_nil in R. discriminate.
  - exists (PAbort m s'). split; constructor. exact R.
  - exists (PMatch [] s'). split; constructor; [reflexivity|exact R].
  - destruct (IH1 (fun a Q => A a (ha_and _ _ _ (in_eq _ _) Q)) s' R) as (r1 & D1 & L1). inversion L1 as [ts0 ts' s0 s1' P R1| |]; subst.
    destruct (IH2 (fun a Q => A a ltac:(inversion Q; subst; eapply ha_and; [right; eassumption|assumption])) s1' R1) as (r2 & D2 & L2).
    exists (prepend ts' r2). split; [eapply peg_and_cons; eassumption|apply alike_prepend; assumption].
  - destruct (IH1 (fun a Q => A a (ha_and _ _ _ (in_eq _ _) Q)) s' R) as (r1 & D1 & L1).
    exists r1. split; [apply peg_and_stop; [exact D1|exact (alike_stops _ _ L1 ST)]|exact L1].
  - exists PFail. split; constructor.
  - destruct (IH1 (fun a Q => A a (ha_or _ _ _ (in_eq _ _) Q)) s' R) as (r1 & D1 & L1).
    exists r1. split; [apply peg_or_first; [exact D1|exact (alike_fail _ _ L1 NF)]|exact L1].
  - destruct (IH1 (fun a Q => A a (ha_or _ _ _ (in_eq _ _) Q)) s' R) as (r1 & D1 & L1). inversion L1; subst.
    destruct (IH2 (fun a Q => A a ltac:(inversion Q; subst; eapply ha_or; [right; eassumption|assumption])) s' R) as (r2 & D2 & L2).
    exists r2. split; [apply peg_or_next; assumption|exact L2].
  - destruct (IH1 (fun a Q => A a (ha_not _ _ Q)) s' R) as (r1 & D1 & L1). inversion L1; subst. exists PFail. split; [eapply peg_not_fail; exact D1|constructor].
  - destruct (IH1 (fun a Q => A a (ha_not _ _ Q)) s' R) as (r1 & D1 & L1). exists (PMatch [] s').
    split; [eapply peg_not_ok; [exact D1|exact (alike_stops _ _ L1 ST)]|constructor; [reflexivity|exact R]].
  - exists (PMatch [] s'). split; [apply peg_rep_full|constructor; [reflexivity|exact R]].
  - destruct (IH1 (fun a Q => A a (ha_rep _ _ _ _ Q)) s' R) as (r1 & D1 & L1). inversion L1 as [ts0 ts' s0 s1' P R1| |]; subst.
    destruct (IH2 (fun a Q => A a ltac:(inversion Q; subst; apply ha_rep; assumption)) s1' R1) as (r2 & D2 & L2).
    exists (prepend ts' r2). split; [eapply peg_rep_more; eassumption|apply alike_prepend; assumption].
  - destruct (IH1 (fun a Q => A a (ha_rep _ _ _ _ Q)) s' R) as (r1 & D1 & L1). inversion L1; subst.
    exists (PMatch [] s'). split; [apply peg_rep_done; assumption|constructor; [reflexivity|exact R]].
  - destruct (IH1 (fun a Q => A a (ha_rep _ _ _ _ Q)) s' R) as (r1 & D1 & L1). inversion L1; subst.
    exists PFail. split; [apply peg_rep_short; assumption|constructor].
  - destruct (IH1 (fun a Q => A a (ha_rep _ _ _ _ Q)) s' R) as (r1 & D1 & L1). inversion L1; subst.
    eexists. split; [apply peg_rep_abort; [exact MX|exact D1]|exact L1].
  - destruct (name_in B n) eqn:IN.
    + apply name_in_spec in IN. destruct (proj1 ONLY n IN) as [Q|Q]; rewrite Q in E; injection E as <-;
        (eapply (blanks_run n) in H1; [|exact IN| |exact R]); [|tauto| |tauto]; destruct H1 as (r' & D & L);
        exists (wrap n r'); (split; [eapply peg_rule; eassumption|exact L]).
    + apply name_in_false in IN. destruct (IH1 (fun a Q => proj2 ONLY n e a IN E Q) s' R) as (r1 & D1 & L1).
      exists (wrap n r1). split; [eapply peg_rule; eassumption|apply alike_wrap; exact L1].
  - eexists. split; [apply peg_rule_missing; exact E|constructor; exact R].
Qed.

End Grammar.

(** * Without blanks *)

Section Spaced.
Variable G G' : str -> option expr.
Variable b : str.
Hypothesis SR : spaced_rules b cs rg G G'.
Notation wb := (without_blanks cs rg).
Notation sp := (spaced b cs rg).

Lemma wb_first : forall c s t, ~ blank c -> wb (c :: s) t -> exists t', t = c :: t' /\ wb s t'.
Proof. intros c s t C H. inversion H; subst; [eauto|contradiction]. Qed.

Lemma wb_run : forall u x t, Forall blank u -> wb (u ++ x) t -> wb x t.
Proof.
  induction u as [|c u IH]; intros x t FU H; [exact H|]. inversion FU; subst. cbn in H. inversion H; subst; [contradiction|]. apply IH; assumption.
Qed.

(** What comes after a char that is not a blank is the text after the blanks that follow it. *)
Lemma wb_back : forall c t s, nbf s -> wb s (c :: t) -> exists s1, s = c :: s1 /\ ~ blank c /\ wb s1 t.
Proof. intros c t s N H. inversion H; subst; [eauto|contradiction]. Qed.

Lemma wb_end_inv : forall s, nbf s -> wb s [] -> s = [].
Proof. intros s N H. inversion H; subst; [reflexivity|contradiction]. Qed.

Lemma b_run : forall s t, wb s t -> exists u x, Forall blank u /\ s = u ++ x /\ nbf x /\ wb x t /\ peg G' (ref_rule b) s (PMatch [Rule b (by_chars u)] x).
Proof.
  intros s t W. destruct (first_word_ex cs rg s) as (u & x & -> & FU & NX). exists u, x. split; [exact FU|]. split; [reflexivity|]. split; [exact NX|].
  split; [exact (wb_run u x t FU W)|]. change (PMatch [Rule b (by_chars u)] x) with (wrap b (PMatch (by_chars u) x)).
  eapply peg_rule; [exact (proj1 SR)|]. apply class_run; assumption.
Qed.

Lemma b_stay : forall s, nbf s -> peg G' (ref_rule b) s (PMatch [Rule b []] s).
Proof.
  intros s N. change (PMatch [Rule b []] s) with (wrap b (PMatch [] s)). eapply peg_rule; [exact (proj1 SR)|].
  apply peg_rep_done; [discriminate|apply stop_class; exact N].
Qed.

Inductive bare : presult -> presult -> Prop :=
| ba_match ts ts' t s : ts = prune_list [b] ts' -> nbf s -> wb s t -> bare (PMatch ts t) (PMatch ts' s)
| ba_fail : bare PFail PFail
| ba_abort m t s : bare (PAbort m t) (PAbort m s).

Lemma pl_cat : forall x y, prune_list [b] (x ++ y) = prune_list [b] x ++ prune_list [b] y.
Proof. intros x y. unfold prune_list. apply flat_map_app. Qed.

Lemma pl_b : forall k, prune_list [b] [Rule b k] = [].
Proof. intro k. unfold prune_list. cbn [flat_map node2prune]. rewrite (proj2 (name_in_spec [b] b)); [reflexivity|left; reflexivity]. Qed.

Lemma bare_prepend : forall ts ts' r r', ts = prune_list [b] ts' -> bare r r' -> bare (prepend ts r) (prepend ts' r').
Proof. intros ts ts' r r' P H. destruct H; cbn [prepend]; constructor; try assumption. rewrite pl_cat. congruence. Qed.

Lemma bare_stops : forall r r', bare r r' -> (stops r <-> stops r').
Proof. intros r r' H. destruct H; cbn; tauto. Qed.

Lemma bare_fail : forall r r', bare r r' -> (r = PFail <-> r' = PFail).
Proof. intros r r' H. destruct H; split; intro; try discriminate; reflexivity. Qed.

Lemma bare_wrap : forall n r r', n <> b -> bare r r' -> bare (wrap n r) (wrap n r').
Proof.
  intros n r r' N H. destruct H as [ts ts' t s P NB W| |]; cbn [wrap]; constructor; try assumption.
  unfold prune_list. cbn [flat_map node2prune]. rewrite (proj2 (name_in_false [b] n)); [|intros [Q|[]]; congruence]. rewrite prune_unfold, <- P. reflexivity.
Qed.

(** An atom and the blanks after it. *)
Lemma atom_then : forall a c s1 t, wb s1 t -> peg G' (Simple a) (c :: s1) (PMatch [Val [c]] s1) ->
  exists r', peg G' (And [Simple a; ref_rule b]) (c :: s1) r' /\ bare (PMatch [Val [c]] t) r'.
Proof.
  intros a c s1 t W H. destruct (b_run s1 t W) as (u & x & FU & E & NX & W' & R).
  eexists. split; [eapply peg_and_cons; [exact H|]; eapply peg_and_cons; [exact R|]; apply peg_and_nil|].
  cbn [prepend app]. apply ba_match; try assumption. change [Val [c]; Rule b (by_chars u)] with ([Val [c]] ++ [Rule b (by_chars u)]).
  rewrite pl_cat, pl_b, app_nil_r. reflexivity.
Qed.

Definition goal_fwd (t : str) (r : presult) (e' : expr) : Prop := forall s, nbf s -> wb s t -> exists r', peg G' e' s r' /\ bare r r'.

Lemma fwd_before : forall t r e', goal_fwd t r e' -> goal_fwd t r (And [ref_rule b; e']).
Proof.
  intros t r e' H s N W. destruct (H s N W) as (r' & D & L).
  exists (prepend [Rule b []] (match r' with PMatch ts x => PMatch ts x | _ => r' end)). split.
  - eapply peg_and_cons; [apply b_stay; exact N|]. destruct r' as [ts x| |m x]; [|apply peg_and_stop; [exact D|exact Logic.I]..].
    rewrite <- (app_nil_r ts). change (PMatch (ts ++ []) x) with (prepend ts (PMatch [] x)). eapply peg_and_cons; [exact D|apply peg_and_nil].
  - destruct L as [ts ts' t0 s0 P NB W0| |]; cbn [prepend]; constructor; try assumption.
    change (prune_list [b] ([Rule b []] ++ ts')) with (prune_list [b] ([Rule b []] ++ ts')). rewrite pl_cat, pl_b. exact P.
Qed.

(** [spaced] up to references to [b] before the whole. *)
Lemma sp_cases : forall (P : expr -> Prop) e, (forall e', P e' -> P (And [ref_rule b; e'])) ->
  match e with
  | Simple (Literal l) => forall c, l = [c] -> ~ blank c -> P (And [lit [c]; ref_rule b])
  | Simple (Match cs' rg') => (forall c, in_class cs' rg' c -> ~ blank c) -> P (And [ematch cs' rg'; ref_rule b])
  | Simple Dot => True
  | Simple AEOF => P (Simple AEOF)
  | Simple (AError m) => P (Simple (AError m))
  | And es => forall es', Forall2 sp es es' -> P (And es')
  | Or es => forall es', Forall2 sp es es' -> P (Or es')
  | Not e1 => forall e1', sp e1 e1' -> P (Not e1')
  | Repeat e1 mn mx => forall e1', sp e1 e1' -> P (Repeat e1' mn mx)
  | RuleName n => n <> b -> P (RuleName n)
  end -> forall e', sp e e' -> P e'.
Proof.
  intros P e BEF H e' SP. induction SP; try (apply H; (assumption || reflexivity)); try exact H.
  apply BEF, IHSP. exact H.
Qed.

Lemma fwd : forall e t r, peg G e t r -> forall e', sp e e' -> goal_fwd t r e'.
Proof.
  intros e t r H. induction H as
    [l rest|l t N|cs' rg' c rest C|cs' rg' t N|c rest| | |c rest|m t|t|e es t ts s1 r H1 IH1 H2 IH2|e es t r H1 IH1 ST|t|e es t r H1 IH1 NF
    |e es t r H1 IH1 H2 IH2|e t ts rest H1 IH1|e t r H1 IH1 ST|e t|e mn mx t ts s1 r MX H1 IH1 H2 IH2|e mx t MX H1 IH1|e mn mx t MX MN H1 IH1|e mn mx t m rest MX H1 IH1
    |n e t r E H1 IH1|n t E]; apply sp_cases; try (intros; apply fwd_before; assumption); try exact Logic.I.
  - intros c -> C s N W. destruct (wb_back c rest s N W) as (s1 & -> & _ & W1). apply atom_then; [exact W1|exact (peg_lit_ok G' [c] s1)].
  - intros c -> C s NB W. exists PFail. split; [|constructor]. apply peg_and_stop; [|exact Logic.I]. apply peg_lit_fail. intros x ->.
    destruct (wb_first c x t C W) as (t' & -> & _). exact (N t' eq_refl).
  - intros NC s N W. destruct (wb_back c rest s N W) as (s1 & -> & _ & W1). apply atom_then; [exact W1|apply peg_class_ok; exact C].
  - intros NC s NB W. exists PFail. split; [|constructor]. apply peg_and_stop; [|exact Logic.I]. apply peg_class_fail. intros c x -> C.
    destruct (wb_first c x t (NC c C) W) as (t' & -> & _). exact (N c t' eq_refl C).
  - intros s N W. apply wb_end_inv in W; [|exact N]. subst s. eexists. split; [constructor|]. constructor; [reflexivity|exact Logic.I|constructor].
  - intros s N W. destruct (wb_back c rest s N W) as (s1 & -> & _ & W1). eexists. split; [apply peg_eof_fail|constructor].
  - intros s N W. eexists. split; constructor.
  - intros es' F s N W. inversion F; subst. eexists. split; [constructor|constructor; [reflexivity|exact N|exact W]].
  - intros es' F s N W. inversion F as [|? e' ? es1 SP F']; subst. destruct (IH1 e' SP s N W) as (r1 & D1 & L1). inversion L1 as [ts0 ts' t0 s0 P N1 W1| |]; subst.
    destruct (IH2 (And es1) (sp_and _ _ _ _ _ F') s0 N1 W1) as (r2 & D2 & L2).
    eexists. split; [eapply peg_and_cons; eassumption|apply bare_prepend; [reflexivity|exact L2]].
  - intros es' F s N W. inversion F as [|? e' ? es1 SP F']; subst. destruct (IH1 e' SP s N W) as (r1 & D1 & L1).
    exists r1. split; [apply peg_and_stop; [exact D1|apply (bare_stops _ _ L1); exact ST]|exact L1].
  - intros es' F s N W. inversion F; subst. eexists. split; constructor.
  - intros es' F s N W. inversion F as [|? e' ? es1 SP F']; subst. destruct (IH1 e' SP s N W) as (r1 & D1 & L1).
    exists r1. split; [apply peg_or_first; [exact D1|intro Q; apply NF; apply (bare_fail _ _ L1); exact Q]|exact L1].
  - intros es' F s N W. inversion F as [|? e' ? es1 SP F']; subst. destruct (IH1 e' SP s N W) as (r1 & D1 & L1). inversion L1; subst.
    destruct (IH2 (Or es1) (sp_or _ _ _ _ _ F') s N W) as (r2 & D2 & L2). exists r2. split; [apply peg_or_next; assumption|exact L2].
  - intros e' SP s N W. destruct (IH1 e' SP s N W) as (r1 & D1 & L1). inversion L1; subst. eexists. split; [eapply peg_not_fail; exact D1|constructor].
  - intros e' SP s N W. destruct (IH1 e' SP s N W) as (r1 & D1 & L1).
    eexists. split; [eapply peg_not_ok; [exact D1|apply (bare_stops _ _ L1); exact ST]|constructor; [reflexivity|exact N|exact W]].
  - intros e' SP s N W. eexists. split; [apply peg_rep_full|constructor; [reflexivity|exact N|exact W]].
  - intros e' SP s N W. destruct (IH1 e' SP s N W) as (r1 & D1 & L1). inversion L1 as [ts0 ts' t0 s0 P N1 W1| |]; subst.
    destruct (IH2 _ (sp_rep _ _ _ _ _ _ _ SP) s0 N1 W1) as (r2 & D2 & L2).
    eexists. split; [eapply peg_rep_more; eassumption|apply bare_prepend; [reflexivity|exact L2]].
  - intros e' SP s N W. destruct (IH1 e' SP s N W) as (r1 & D1 & L1). inversion L1; subst.
    eexists. split; [apply peg_rep_done; assumption|constructor; [reflexivity|exact N|exact W]].
  - intros e' SP s N W. destruct (IH1 e' SP s N W) as (r1 & D1 & L1). inversion L1; subst. eexists. split; [apply peg_rep_short; assumption|constructor].
  - intros e' SP s N W. destruct (IH1 e' SP s N W) as (r1 & D1 & L1). inversion L1; subst. eexists. split; [apply peg_rep_abort; [exact MX|exact D1]|exact L1].
  - intros NB s N W. destruct SR as (_ & _ & _ & ALL). specialize (ALL n NB). rewrite E in ALL. destruct (G' n) as [e'|] eqn:E'; [|contradiction].
    destruct (IH1 e' ALL s N W) as (r1 & D1 & L1). exists (wrap n r1). split; [eapply peg_rule; eassumption|apply bare_wrap; assumption].
  - intros NB s N W. destruct SR as (_ & _ & _ & ALL). specialize (ALL n NB). rewrite E in ALL. destruct (G' n) as [e'|] eqn:E'; [contradiction|].
    eexists. split; [apply peg_rule_missing; exact E'|constructor].
Qed.

Lemma and_one : forall e s r, peg G (And [e]) s r -> peg G e s r.
Proof.
  intros e s r H. inversion H as [| | | | | | | | | | e0 es s0 ts s1 r0 D1 D2|e0 es s0 r0 D1 ST| | | | | | | | | | | |]; subst; [|exact D1].
  inversion D2; subst. cbn [prepend]. rewrite app_nil_r. exact D1.
Qed.

Lemma bwd : forall e' s r', peg G' e' s r' -> forall e t, sp e e' -> nbf s -> wb s t -> exists r, peg G e t r /\ bare r r'.
Proof.
  intros e' s r' H. induction H as
    [l rest|l s N|cs' rg' c rest C|cs' rg' s N|c rest| | |c rest|m s|s|e es s ts s1 r H1 IH1 H2 IH2|e es s r H1 IH1 ST|s|e es s r H1 IH1 NF
    |e es s r H1 IH1 H2 IH2|e s ts rest H1 IH1|e s r H1 IH1 ST|e s|e mn mx s ts s1 r MX H1 IH1 H2 IH2|e mx s MX H1 IH1|e mn mx s MX MN H1 IH1|e mn mx s m rest MX H1 IH1
    |n e s r E H1 IH1|n s E]; intros e0 t SP NB W; inversion SP; subst.
  - inversion W; subst. eexists. split; [constructor|constructor; [reflexivity|exact Logic.I|constructor]].
  - destruct (wb_first c rest t NB W) as (t' & -> & _). eexists. split; [apply peg_eof_fail|constructor].
  - eexists. split; constructor.
  - match goal with F : Forall2 _ _ [] |- _ => inversion F; subst end. eexists. split; [constructor|constructor; [reflexivity|exact NB|exact W]].
  - (* a char *) inversion H1; subst. cbn [app] in *. destruct (wb_first c s1 t NB W) as (t' & -> & W1).
    destruct (atom_then (Literal [c]) c s1 t' W1 (peg_lit_ok G' [c] s1)) as (r1 & D1 & L1).
    exists (PMatch [Val [c]] t'). split; [exact (peg_lit_ok G [c] t')|]. 
    rewrite (peg_det _ _ _ _ (peg_and_cons G' _ _ _ _ _ _ H1 H2) _ D1). exact L1.
  - inversion H1; subst. destruct (wb_first c s1 t NB W) as (t' & -> & W1).
    destruct (atom_then (Match cs' rg') c s1 t' W1 ltac:(assumption)) as (r1 & D1 & L1).
    exists (PMatch [Val [c]] t'). split; [apply peg_class_ok; assumption|].
    rewrite (peg_det _ _ _ _ (peg_and_cons G' _ _ _ _ _ _ H1 H2) _ D1). exact L1.
  - match goal with F : Forall2 _ _ (_ :: _) |- _ => inversion F as [|x ? xs ? SX FX]; subst end.
    destruct (IH1 x t SX NB W) as (r1 & D1 & L1). inversion L1 as [ts0 ts' t0 s0 P N1 W1| |]; subst.
    destruct (IH2 (And xs) t0 (sp_and _ _ _ _ _ FX) N1 W1) as (r2 & D2 & L2).
    eexists. split; [eapply peg_and_cons; eassumption|apply bare_prepend; [reflexivity|exact L2]].
  - pose proof (peg_det _ _ _ _ H1 _ (b_stay s NB)) as Q. injection Q as -> ->.
    destruct (IH2 (And [e0]) t (sp_and _ _ _ _ _ (Forall2_cons _ _ ltac:(eassumption) (Forall2_nil _))) NB W) as (r2 & D2 & L2).
    exists r2. split; [apply and_one; exact D2|]. destruct L2; cbn [prepend]; constructor; try assumption. rewrite pl_cat, pl_b. assumption.
  - assert (r = PFail) as ->. { inversion H1; subst; [destruct ST|reflexivity]. }
    exists PFail. split; [|constructor]. apply peg_lit_fail. intros x ->. destruct (wb_back c x s NB W) as (s1 & -> & _ & _).
    pose proof (peg_det _ _ _ _ H1 _ (peg_lit_ok G' [c] s1)). discriminate.
  - assert (r = PFail) as ->. { inversion H1; subst; [destruct ST|reflexivity]. }
    exists PFail. split; [|constructor]. apply peg_class_fail. intros c x -> C. destruct (wb_back c x s NB W) as (s1 & -> & _ & _).
    pose proof (peg_det _ _ _ _ H1 _ (peg_class_ok G' cs' rg' c s1 C)). discriminate.
  - match goal with F : Forall2 _ _ (_ :: _) |- _ => inversion F as [|x ? xs ? SX FX]; subst end.
    destruct (IH1 x t SX NB W) as (r1 & D1 & L1). exists r1. split; [apply peg_and_stop; [exact D1|apply (bare_stops _ _ L1); exact ST]|exact L1].
  - pose proof (peg_det _ _ _ _ H1 _ (b_stay s NB)) as Q. subst r. destruct ST.
  - match goal with F : Forall2 _ _ [] |- _ => inversion F; subst end. eexists. split; constructor.
  - match goal with F : Forall2 _ _ (_ :: _) |- _ => inversion F as [|x ? xs ? SX FX]; subst end.
    destruct (IH1 x t SX NB W) as (r1 & D1 & L1). exists r1. split; [apply peg_or_first; [exact D1|intro Q; apply NF; apply (bare_fail _ _ L1); exact Q]|exact L1].
  - match goal with F : Forall2 _ _ (_ :: _) |- _ => inversion F as [|x ? xs ? SX FX]; subst end.
    destruct (IH1 x t SX NB W) as (r1 & D1 & L1). inversion L1; subst.
    destruct (IH2 (Or xs) t (sp_or _ _ _ _ _ FX) NB W) as (r2 & D2 & L2). exists r2. split; [apply peg_or_next; assumption|exact L2].
  - edestruct IH1 as (r1 & D1 & L1); try eassumption. inversion L1; subst. eexists. split; [eapply peg_not_fail; exact D1|constructor].
  - edestruct IH1 as (r1 & D1 & L1); try eassumption. eexists.
    split; [eapply peg_not_ok; [exact D1|apply (bare_stops _ _ L1); exact ST]|constructor; [reflexivity|exact NB|exact W]].
  - eexists. split; [apply peg_rep_full|constructor; [reflexivity|exact NB|exact W]].
  - edestruct IH1 as (r1 & D1 & L1); try eassumption. inversion L1 as [ts0 ts' t0 s0 P N1 W1| |]; subst.
    edestruct IH2 as (r2 & D2 & L2); [eapply sp_rep; eassumption|exact N1|exact W1|].
    eexists. split; [eapply peg_rep_more; eassumption|apply bare_prepend; [reflexivity|exact L2]].
  - edestruct IH1 as (r1 & D1 & L1); try eassumption. inversion L1; subst.
    eexists. split; [apply peg_rep_done; assumption|constructor; [reflexivity|exact NB|exact W]].
  - edestruct IH1 as (r1 & D1 & L1); try eassumption. inversion L1; subst. eexists. split; [apply peg_rep_short; assumption|constructor].
  - edestruct IH1 as (r1 & D1 & L1); try eassumption. inversion L1; subst. eexists. split; [apply peg_rep_abort; eassumption|constructor].
  - destruct SR as (_ & _ & _ & ALL). specialize (ALL n ltac:(assumption)). rewrite E in ALL. destruct (G n) as [x|] eqn:E'; [|contradiction].
    destruct (IH1 x t ALL NB W) as (r1 & D1 & L1). exists (wrap n r1). split; [eapply peg_rule; eassumption|apply bare_wrap; assumption].
  - destruct SR as (_ & _ & _ & ALL). specialize (ALL n ltac:(assumption)). rewrite E in ALL. destruct (G n) as [x|] eqn:E'; [contradiction|].
    eexists. split; [apply peg_rule_missing; exact E'|constructor].
Qed.

End Spaced.
End Blanks.

(** * Parse *)

(** What parse answers, from what the semantics says. *)
Definition told_by (r : presult) (o : outcome perror node) : Prop :=
  match o with
  | Ok t => r = PMatch [t] []
  | Err er => match e_priority er with
              | Normal => r = PFail \/ exists ts rest, r = PMatch ts rest /\ rest <> []
              | Critical => exists rest, r = PAbort (e_descr er) rest
              end
  | _ => False
  end.

Lemma parse_told : forall s rs fuel, sane_rules rs -> parse fuel s rs <> Fuel -> ascii s -> exists r, peg_main rs s r /\ told_by r (parse fuel s rs).
Proof.
  intros s rs fuel SR N As. pose proof (parse_sound fuel s rs false SR) as H. unfold parse in *.
  destruct (parse_with_debug fuel s rs false) as [t|er| |]; cbn [told_by].
  - destruct H as [_ H]. eauto.
  - destruct H as [_ H]. destruct (e_priority er).
    + destruct H as [H|(ts & rest & H & [NR|NR])]; [eauto 6|eauto 7|contradiction].
    + destruct H as (rest & H & _). eauto.
  - contradiction.
  - contradiction.
Qed.

Lemma told_parse : forall s rs r, sane_rules rs -> ascii s -> peg_main rs s r -> exists fuel, parse fuel s rs <> Fuel /\ told_by r (parse fuel s rs).
Proof.
  intros s rs r SR As D. destruct (proj2 (parse_terminates_iff s rs false SR As) (ex_intro _ _ D)) as [fuel F].
  exists fuel. split; [exact F|]. destruct (parse_told s rs fuel SR F As) as (r' & D' & T). rewrite (peg_det _ _ _ _ D _ D'). exact T.
Qed.

Lemma amount : forall rs B cs rg s s', sane_rules rs -> ascii s -> ascii s' -> only_read_by B cs rg (grammar_of rs) -> ~ In main B ->
  same_but_blanks cs rg s s' ->
  (forall fuel t, parse fuel s rs = Ok t -> exists fuel' t', parse fuel' s' rs = Ok t' /\ prune B t' = prune B t) /\
  (forall fuel er, parse fuel s rs = Err er -> exists fuel' er', parse fuel' s' rs = Err er' /\ e_priority er' = e_priority er /\
     (e_priority er = Critical -> e_descr er' = e_descr er)).
Proof.
  intros rs B cs rg s s' SR As As' ONLY NM R.
  assert (SIM : forall fuel, parse fuel s rs <> Fuel -> exists r r' fuel', peg_main rs s r /\ told_by r (parse fuel s rs) /\ peg_main rs s' r' /\
            told_by r' (parse fuel' s' rs) /\ alike cs rg B r r').
  { intros fuel N. destruct (parse_told s rs fuel SR N As) as (r & D & T).
    destruct (alike_run cs rg _ B ONLY _ _ _ D ltac:(intros a Q; inversion Q) s' R) as (r' & D' & L).
    destruct (told_parse s' rs r' SR As' D') as (fuel' & _ & T'). exists r, r', fuel'. tauto. }
  split.
  - intros fuel t P. destruct (SIM fuel ltac:(congruence)) as (r & r' & fuel' & D & T & D' & T' & L). rewrite P in T. cbn [told_by] in T. subst r.
    inversion L as [ts ts' x x' PR RX| |]; subst. apply sbb_nil in RX. subst x'. exists fuel'.
    apply peg_main_shape in D. destruct D as (e & k & _ & Q & _). apply peg_main_shape in D'. destruct D' as (e' & k' & _ & Q' & _).
    injection Q as ->. subst ts'. exists (Rule main k').
    destruct (parse fuel' s' rs) as [t'|er'| |]; cbn [told_by] in T'; try contradiction.
    + injection T' as <-. split; [reflexivity|]. revert PR. unfold prune_list. cbn [flat_map node2prune]. rewrite (proj2 (name_in_false B main) NM).
      rewrite !prune_unfold. intro PR. injection PR as PR. f_equal. exact (eq_sym PR).
    + exfalso. destruct (e_priority er').
      * destruct T' as [T'|(ts & rest & T' & NR)]; [discriminate|]. injection T' as _ <-. apply NR. reflexivity.
      * destruct T' as (rest & T'). discriminate.
  - intros fuel er P. destruct (SIM fuel ltac:(congruence)) as (r & r' & fuel' & D & T & D' & T' & L). rewrite P in T. cbn [told_by] in T. exists fuel'.
    destruct (parse fuel' s' rs) as [t'|er'| |]; cbn [told_by] in T'; try contradiction.
    + exfalso. subst r'. inversion L as [ts ts' x x' PR RX| |]; subst. apply sbb_sym, sbb_nil in RX. subst x.
      destruct (e_priority er).
      * destruct T as [T|(us & rest & T & NR)]; [discriminate|]. injection T as _ <-. apply NR. reflexivity.
      * destruct T as (rest & T). discriminate.
    + exists er'. split; [reflexivity|]. destruct (e_priority er) eqn:Q; destruct (e_priority er') eqn:Q'.
      * split; [reflexivity|discriminate].
      * exfalso. destruct T' as (rest & ->). inversion L; subst. destruct T as [T|(us & rest' & T & NR)]; discriminate.
      * exfalso. destruct T as (rest & ->). inversion L; subst. destruct T' as [T'|(us & rest' & T' & NR)]; discriminate.
      * destruct T as (rest & ->). destruct T' as (rest' & ->). inversion L; subst. split; [reflexivity|]. congruence.
Qed.

Lemma wb_main : forall rs rs' b cs rg s t r r', spaced_rules b cs rg (grammar_of rs) (grammar_of rs') -> without_blanks cs rg s t ->
  peg_main rs t r -> peg_main rs' s r' -> bare cs rg b r r'.
Proof.
  intros rs rs' b cs rg s t r r' SR W D D'. pose proof SR as SR'. destruct SR' as (EB & NM & (e & e' & E & E' & SP) & ALL).
  unfold peg_main in *. inversion D as [| | | | | | | | | | | | | | | | | | | | | |n0 e0 s0 r0 Q H|n0 s0 Q]; subst; [|congruence].
  rewrite E in Q. injection Q as <-. destruct (b_run cs rg _ _ b SR s t W) as (u & x & FU & -> & NX & W' & R).
  destruct (fwd cs rg _ _ b SR e t r0 H e' SP x NX W') as (r1 & D1 & L1).
  assert (D2 : exists r2, peg (grammar_of rs') (And [e']) x r2 /\ bare cs rg b r0 r2).
  { destruct r1 as [ts y| |m y].
    - exists (PMatch ts y). split; [|exact L1]. rewrite <- (app_nil_r ts). change (PMatch (ts ++ []) y) with (prepend ts (PMatch [] y)).
      eapply peg_and_cons; [exact D1|apply peg_and_nil].
    - exists PFail. split; [apply peg_and_stop; [exact D1|exact Logic.I]|exact L1].
    - exists (PAbort m y). split; [apply peg_and_stop; [exact D1|exact Logic.I]|exact L1]. }
  destruct D2 as (r2 & D2 & L2).
  rewrite (peg_det _ _ _ _ D' _ (peg_rule _ main _ _ _ E' (peg_and_cons _ _ _ _ _ _ _ R D2))).
  apply bare_wrap; [congruence|]. destruct L2; cbn [prepend]; constructor; try assumption. rewrite pl_cat, pl_b. assumption.
Qed.

Lemma wb_main_ends : forall rs rs' b cs rg s t, spaced_rules b cs rg (grammar_of rs) (grammar_of rs') -> without_blanks cs rg s t ->
  ((exists r, peg_main rs t r) <-> (exists r', peg_main rs' s r')).
Proof.
  intros rs rs' b cs rg s t SR W. pose proof SR as SR'. destruct SR' as (EB & NM & (e & e' & E & E' & SP) & ALL). unfold peg_main.
  destruct (b_run cs rg _ _ b SR s t W) as (u & x & FU & -> & NX & W' & R). split; intros (r & D).
  - inversion D as [| | | | | | | | | | | | | | | | | | | | | |n0 e0 s0 r0 Q H|n0 s0 Q]; subst; [|congruence].
    rewrite E in Q. injection Q as <-. destruct (fwd cs rg _ _ b SR e t r0 H e' SP x NX W') as (r1 & D1 & L1).
    destruct r1 as [ts y| |m y].
    + eexists. eapply peg_rule; [exact E'|]. eapply peg_and_cons; [exact R|]. eapply peg_and_cons; [exact D1|apply peg_and_nil].
    + eexists. eapply peg_rule; [exact E'|]. eapply peg_and_cons; [exact R|]. apply peg_and_stop; [exact D1|exact Logic.I].
    + eexists. eapply peg_rule; [exact E'|]. eapply peg_and_cons; [exact R|]. apply peg_and_stop; [exact D1|exact Logic.I].
  - inversion D as [| | | | | | | | | | | | | | | | | | | | | |n0 e0 s0 r0 Q H|n0 s0 Q]; subst; [|congruence].
    rewrite E' in Q. injection Q as <-. apply and_prepend_inv in H. destruct H as [(ts & s1 & r1 & D1 & D2 & ->)|[D1 ST]].
    + pose proof (peg_det _ _ _ _ D1 _ R) as Q. injection Q as -> ->. apply and_one in D2.
      destruct (bwd cs rg _ _ b SR e' x r1 D2 e t SP NX W') as (r2 & D3 & _). eexists. eapply peg_rule; eassumption.
    + pose proof (peg_det _ _ _ _ D1 _ R) as Q. subst r0. destruct ST.
Qed.

Lemma as_if_removed : forall rs rs' b cs rg s t, sane_rules rs -> sane_rules rs' -> ascii s -> ascii t ->
  spaced_rules b cs rg (grammar_of rs) (grammar_of rs') -> without_blanks cs rg s t ->
  (forall ast, (exists fuel, parse fuel t rs = Ok ast) <-> (exists fuel ast', parse fuel s rs' = Ok ast' /\ prune [b] ast' = ast)) /\
  ((exists fuel er, parse fuel t rs = Err er) <-> (exists fuel er', parse fuel s rs' = Err er')).
Proof.
  intros rs rs' b cs rg s t S S' As At SP W. pose proof (wb_main rs rs' b cs rg s t) as WM.
  assert (NM : b <> main) by (apply SP).
  assert (ACC : forall k k' x x', bare cs rg b (PMatch [Rule main k] x) (PMatch [Rule main k'] x') -> prune [b] (Rule main k') = Rule main k).
  { intros k k' x x' L. inversion L as [ts ts' ? ? PR NB WX| |]; subst. revert PR. unfold prune_list. cbn [flat_map node2prune].
    rewrite (proj2 (name_in_false [b] main)); [|intros [Q|[]]; congruence]. rewrite prune_unfold. intro PR. injection PR as ->. reflexivity. }
  split.
  - intro ast. split.
    + intros (fuel & P). destruct (parse_told t rs fuel S ltac:(congruence) At) as (r & D & T). rewrite P in T. cbn in T. subst r.
      destruct (proj1 (wb_main_ends rs rs' b cs rg s t SP W) (ex_intro _ _ D)) as (r' & D').
      pose proof (WM _ _ SP W D D') as L. inversion L as [ts ts' ? y PR NB WX| |]; subst. apply wb_end_inv in WX; [|exact NB]. subst y.
      destruct (peg_main_shape _ _ _ _ D) as (e & k & _ & Q & _). destruct (peg_main_shape _ _ _ _ D') as (e' & k' & _ & Q' & _). injection Q as ->. subst ts'.
      destruct (proj2 (parse_accepts_iff s rs' false S' As _) D') as (fuel' & P'). exists fuel', (Rule main k'). split; [exact P'|]. exact (ACC _ _ _ _ L).
    + intros (fuel & ast' & P & PR). destruct (parse_told s rs' fuel S' ltac:(congruence) As) as (r' & D' & T). rewrite P in T. cbn in T. subst r'.
      destruct (proj2 (wb_main_ends rs rs' b cs rg s t SP W) (ex_intro _ _ D')) as (r & D).
      pose proof (WM _ _ SP W D D') as L. inversion L as [ts ts' y ? PR' NB WX| |]; subst. inversion WX; subst.
      destruct (peg_main_shape _ _ _ _ D) as (e & k & _ & Q & _). destruct (peg_main_shape _ _ _ _ D') as (e' & k' & _ & Q' & _). injection Q' as ->.
      destruct (proj2 (parse_accepts_iff t rs false S At (Rule main k))) as (fuel' & P'); [unfold peg_main in *; rewrite <- Q; exact D|].
      exists fuel'. transitivity (@Ok perror node (Rule main k)); [exact P'|]. f_equal. symmetry. rewrite Q in L. exact (ACC _ _ _ _ L).
  - split.
    + intros (fuel & er & P). destruct (parse_told t rs fuel S ltac:(congruence) At) as (r & D & T). rewrite P in T. cbn [told_by] in T.
      destruct (proj1 (wb_main_ends rs rs' b cs rg s t SP W) (ex_intro _ _ D)) as (r' & D'). pose proof (WM _ _ SP W D D') as L.
      destruct (told_parse s rs' r' S' As D') as (fuel' & N' & T'). exists fuel'. destruct (parse fuel' s rs') as [ast|er'| |]; try contradiction; [|eauto].
      exfalso. cbn in T'. subst r'. inversion L as [ts ts' y ? PR' NB WX| |]; subst. inversion WX; subst. destruct (e_priority er).
      * destruct T as [T|(us & rest & T & NR)]; [discriminate|]. injection T as _ <-. apply NR. reflexivity.
      * destruct T as (rest & T). discriminate.
    + intros (fuel & er & P). destruct (parse_told s rs' fuel S' ltac:(congruence) As) as (r' & D' & T'). rewrite P in T'. cbn [told_by] in T'.
      destruct (proj2 (wb_main_ends rs rs' b cs rg s t SP W) (ex_intro _ _ D')) as (r & D). pose proof (WM _ _ SP W D D') as L.
      destruct (told_parse t rs r S At D) as (fuel' & N' & T). exists fuel'. destruct (parse fuel' t rs) as [ast|er'| |]; try contradiction; [|eauto].
      exfalso. cbn in T. subst r. inversion L as [ts ts' ? y PR' NB WX| |]; subst. apply wb_end_inv in WX; [|exact NB]. subst y. destruct (e_priority er).
      * destruct T' as [T'|(us & rest & T' & NR)]; [discriminate|]. injection T' as _ <-. apply NR. reflexivity.
      * destruct T' as (rest & T'). discriminate.
Qed.
