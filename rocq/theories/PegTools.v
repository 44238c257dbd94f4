(** Inverting and building PEG derivations. *)
From Verif Require Import Base ModelAst ModelParser SpecPeg ProofParser ProofEngine.

Section Tools.
Variable G : str -> option expr.

(* ------------------------------------------------------------------------------------------- *)
(** * Inversion of matches *)

Lemma prepend_match : forall ts r us rest, prepend ts r = PMatch us rest -> exists vs, r = PMatch vs rest /\ us = ts ++ vs.
Proof. intros ts [vs r1| |m1 r1] us rest H; try discriminate. cbn in H. injection H as <- <-. eauto. Qed.

Lemma inv_lit : forall l s ts rest, peg G (Simple (Literal l)) s (PMatch ts rest) -> ts = [Val l] /\ s = l ++ rest.
Proof. intros l s ts rest H. inversion H; subst. auto. Qed.

Lemma inv_class : forall cs rs s ts rest, peg G (Simple (Match cs rs)) s (PMatch ts rest) ->
  exists c, in_class cs rs c /\ s = c :: rest /\ ts = [Val [c]].
Proof. intros cs rs s ts rest H. inversion H; subst. eauto. Qed.

Lemma inv_dot : forall s ts rest, peg G (Simple Dot) s (PMatch ts rest) -> exists c, s = c :: rest /\ ts = [Val [c]].
Proof. intros s ts rest H. inversion H; subst. eauto. Qed.

Lemma inv_error : forall m s ts rest, peg G (Simple (AError m)) s (PMatch ts rest) -> False.
Proof. intros m s ts rest H. inversion H. Qed.

Lemma inv_and_nil : forall s ts rest, peg G (And []) s (PMatch ts rest) -> ts = [] /\ rest = s.
Proof. intros s ts rest H. inversion H; subst. auto. Qed.

Lemma inv_and_cons : forall e es s ts rest, peg G (And (e :: es)) s (PMatch ts rest) ->
  exists t1 s1 t2, ts = t1 ++ t2 /\ peg G e s (PMatch t1 s1) /\ peg G (And es) s1 (PMatch t2 rest).
Proof.
  intros e es s ts rest H. inversion H; subst.
  - match goal with X : prepend _ _ = PMatch _ _ |- _ => apply prepend_match in X; destruct X as (t2 & -> & ->) end. eauto 7.
  - contradiction.
Qed.

Lemma inv_or : forall es s ts rest, peg G (Or es) s (PMatch ts rest) ->
  exists l1 e l2, es = l1 ++ e :: l2 /\ peg G e s (PMatch ts rest) /\ Forall (fun x => peg G x s PFail) l1.
Proof.
  intros es s ts rest H. remember (Or es) as oe eqn:E. remember (PMatch ts rest) as r eqn:R. revert es E ts rest R.
  induction H; intros es0 E ts0 rest0 R; try discriminate.
  - injection E as <-. subst. exists [], e, es. auto.
  - injection E as <-. destruct (IHpeg2 es eq_refl ts0 rest0 R) as (l1 & x & l2 & -> & P & F).
    exists (e :: l1), x, l2. repeat split; [exact P|constructor; assumption].
Qed.

Lemma inv_not : forall e s ts rest, peg G (Not e) s (PMatch ts rest) -> ts = [] /\ rest = s.
Proof. intros e s ts rest H. inversion H; subst. auto. Qed.

Lemma inv_rule : forall n s ts rest, peg G (RuleName n) s (PMatch ts rest) ->
  exists e k, G n = Some e /\ ts = [Rule n k] /\ peg G e s (PMatch k rest).
Proof.
  intros n s ts rest H. inversion H; subst.
  match goal with Y : wrap _ ?r = PMatch _ _ |- _ => destruct r as [k r1| |m1 r1]; try discriminate; cbn in Y; injection Y as <- <- end. eauto.
Qed.

(** A sequence of matches of [e]. *)
Inductive star (e : expr) : str -> list (list node) -> str -> Prop :=
| star_nil s : star e s [] s
| star_cons s t s1 ts rest : peg G e s (PMatch t s1) -> star e s1 ts rest -> star e s (t :: ts) rest.

Lemma inv_rep0 : forall e s ts rest, peg G (Repeat e 0 None) s (PMatch ts rest) ->
  exists l, star e s l rest /\ ts = concat l /\ peg G e rest PFail.
Proof.
  intros e s ts rest H. remember (Repeat e 0 None) as x eqn:E. remember (PMatch ts rest) as r eqn:R. revert E ts rest R.
  induction H; intros E ts0 rest0 R; try discriminate.
  - injection E as -> -> ->. apply prepend_match in R. destruct R as (vs & -> & ->).
    destruct (IHpeg2 eq_refl vs rest0 eq_refl) as (l & L1 & -> & L3). exists (ts :: l). split; [econstructor; eassumption|auto].
  - injection E as -> ->. injection R as <- <-. exists []. split; [constructor|auto].
Qed.

Lemma inv_rep1 : forall e s ts rest, peg G (Repeat e 1 None) s (PMatch ts rest) ->
  exists t l s1, peg G e s (PMatch t s1) /\ star e s1 l rest /\ ts = t ++ concat l /\ peg G e rest PFail.
Proof.
  intros e s ts rest H. inversion H; subst; clear H.
  match goal with Y : prepend _ _ = PMatch _ _ |- _ => apply prepend_match in Y; destruct Y as (vs & -> & ->) end.
  match goal with H2 : peg G (Repeat _ _ _) _ _ |- _ => cbn in H2; apply inv_rep0 in H2; destruct H2 as (l & L1 & -> & L2) end. eauto 8.
Qed.

Lemma inv_opt : forall e s ts rest, peg G (Repeat e 0 (Some 1)) s (PMatch ts rest) ->
  (ts = [] /\ rest = s) \/ peg G e s (PMatch ts rest).
Proof.
  intros e s ts rest H. inversion H; subst; clear H.
  - right. match goal with Y : prepend _ _ = PMatch _ _ |- _ => apply prepend_match in Y; destruct Y as (vs & -> & ->) end.
    match goal with H2 : peg G (Repeat _ _ _) _ _ |- _ => cbn in H2; inversion H2; subst; try congruence end.
    cbn [prepend]. rewrite app_nil_r. assumption.
  - left. auto.
Qed.

(** What is consumed is a prefix. *)
Lemma peg_suffix : forall e s r, peg G e s r -> match r with PMatch _ rest => exists c, s = c ++ rest | _ => True end.
Proof.
  intros e s r H. induction H; cbn; try exact I; try (eexists; reflexivity);
    try (exists []; reflexivity); try (exists [c]; reflexivity).
  - destruct r as [us rest| |]; cbn; try exact I. destruct IHpeg1 as [a ->], IHpeg2 as [b ->]. exists (a ++ b). apply app_assoc.
  - exact IHpeg.
  - exact IHpeg.
  - exact IHpeg2.
  - destruct r as [us rest| |]; cbn; try exact I. destruct IHpeg1 as [a ->], IHpeg2 as [b ->]. exists (a ++ b). apply app_assoc.
  - destruct r as [us rest| |]; cbn; try exact I. exact IHpeg.
Qed.

Lemma peg_split : forall e s ts rest, peg G e s (PMatch ts rest) -> exists c, s = c ++ rest.
Proof. intros e s ts rest H. exact (peg_suffix e s _ H). Qed.

(* ------------------------------------------------------------------------------------------- *)
(** * Building *)

Lemma mk_lit : forall l s rest, s = l ++ rest -> peg G (Simple (Literal l)) s (PMatch [Val l] rest).
Proof. intros l s rest ->. constructor. Qed.

Lemma mk_and : forall e es s t1 s1 t2 rest, peg G e s (PMatch t1 s1) -> peg G (And es) s1 (PMatch t2 rest) ->
  peg G (And (e :: es)) s (PMatch (t1 ++ t2) rest).
Proof. intros e es s t1 s1 t2 rest H1 H2. exact (peg_and_cons G e es s t1 s1 _ H1 H2). Qed.

Lemma mk_and_fail : forall e es s t1 s1, peg G e s (PMatch t1 s1) -> peg G (And es) s1 PFail -> peg G (And (e :: es)) s PFail.
Proof. intros e es s t1 s1 H1 H2. exact (peg_and_cons G e es s t1 s1 _ H1 H2). Qed.

Lemma mk_and_fail1 : forall e es s, peg G e s PFail -> peg G (And (e :: es)) s PFail.
Proof. intros e es s H. apply peg_and_stop; [exact H|exact I]. Qed.

Lemma mk_or1 : forall e es s ts rest, peg G e s (PMatch ts rest) -> peg G (Or (e :: es)) s (PMatch ts rest).
Proof. intros. apply peg_or_first; [assumption|discriminate]. Qed.

Lemma mk_rule : forall n e s k rest, G n = Some e -> peg G e s (PMatch k rest) -> peg G (RuleName n) s (PMatch [Rule n k] rest).
Proof. intros n e s k rest E H. exact (peg_rule G n e s _ E H). Qed.

Lemma mk_rule_fail : forall n e s, G n = Some e -> peg G e s PFail -> peg G (RuleName n) s PFail.
Proof. intros n e s E H. exact (peg_rule G n e s _ E H). Qed.

Lemma mk_not : forall e s, peg G e s PFail -> peg G (Not e) s (PMatch [] s).
Proof. intros e s H. eapply peg_not_ok; [exact H|exact I]. Qed.

Lemma mk_star : forall e s l rest, star e s l rest -> peg G e rest PFail -> peg G (Repeat e 0 None) s (PMatch (concat l) rest).
Proof.
  intros e s l rest H F. induction H as [s|s t s1 ts rest H1 H2 IH].
  - apply peg_rep_done; [discriminate|exact F].
  - cbn. change (PMatch (t ++ concat ts) rest) with (prepend t (PMatch (concat ts) rest)).
    eapply peg_rep_more; [discriminate|exact H1|exact (IH F)].
Qed.

Lemma mk_plus : forall e s t s1 l rest, peg G e s (PMatch t s1) -> star e s1 l rest -> peg G e rest PFail ->
  peg G (Repeat e 1 None) s (PMatch (t ++ concat l) rest).
Proof.
  intros e s t s1 l rest H1 H2 F. change (PMatch (t ++ concat l) rest) with (prepend t (PMatch (concat l) rest)).
  eapply peg_rep_more; [discriminate|exact H1|]. cbn. apply mk_star; assumption.
Qed.

Lemma mk_opt_some : forall e s ts rest, peg G e s (PMatch ts rest) -> peg G (Repeat e 0 (Some 1)) s (PMatch ts rest).
Proof.
  intros e s ts rest H. replace (PMatch ts rest) with (prepend ts (PMatch [] rest)) by (cbn; rewrite app_nil_r; reflexivity).
  eapply peg_rep_more; [discriminate|exact H|]. cbn. apply peg_rep_full.
Qed.

Lemma mk_opt_none : forall e s, peg G e s PFail -> peg G (Repeat e 0 (Some 1)) s (PMatch [] s).
Proof. intros e s H. apply peg_rep_done; [discriminate|exact H]. Qed.

Lemma star_app : forall e s l1 s1 l2 rest, star e s l1 s1 -> star e s1 l2 rest -> star e s (l1 ++ l2) rest.
Proof. intros e s l1 s1 l2 rest H1 H2. induction H1; cbn; [exact H2|]. econstructor; eauto. Qed.

(* ------------------------------------------------------------------------------------------- *)
(** * Failing by looking at the first char *)

Definition head_is (h : option char) (s : str) : Prop :=
  match h, s with None, [] => True | Some c, d :: _ => c = d | _, _ => False end.

Definition in_classb (cs : str) (rs : list (char * char)) (c : char) : bool :=
  existsb (fun x => N.eqb x c) cs || existsb (fun p => N.leb (fst p) c && N.leb c (snd p)) rs.

Lemma in_classb_spec : forall cs rs c, in_classb cs rs c = false -> ~ in_class cs rs c.
Proof.
  intros cs rs c H C. unfold in_classb in H. apply orb_false_iff in H. destruct H as [H1 H2].
  assert (X : match_char cs rs c = true) by (apply match_char_iff; exact C).
  unfold match_char in X. rewrite H1 in X. congruence.
Qed.

(** [looks f e h = Some true]: [e] matches the empty prefix of every text starting with [h];
    [Some false]: it fails on all of them; [None]: unknown. *)
Fixpoint looks (f : nat) (e : expr) (h : option char) : option bool :=
  match f with
  | 0 => None
  | S f =>
      match e with
      | Simple (Literal []) => Some true
      | Simple (Literal (c :: _)) =>
          match h with None => Some false | Some d => if N.eqb c d then None else Some false end
      | Simple (Match cs rs) =>
          match h with None => Some false | Some d => if in_classb cs rs d then None else Some false end
      | Simple Dot => match h with None => Some false | Some _ => None end
      | Simple (AError _) => None
      | Simple AEOF => match h with None => Some true | Some _ => Some false end
      | And es =>
          (fix go (l : list expr) : option bool :=
             match l with
             | [] => Some true
             | x :: r => match looks f x h with Some true => go r | y => y end
             end) es
      | Or es =>
          (fix go (l : list expr) : option bool :=
             match l with
             | [] => Some false
             | x :: r => match looks f x h with Some false => go r | y => y end
             end) es
      | Not e1 => match looks f e1 h with Some b => Some (negb b) | None => None end
      | Repeat e1 mn mx =>
          match mx with
          | Some 0 => None
          | _ => match looks f e1 h with Some false => Some (mn =? 0) | _ => None end
          end
      | RuleName n => match G n with Some e1 => looks f e1 h | None => None end
      end
  end.

Lemma looks_sound : forall f e h s, head_is h s ->
  match looks f e h with
  | Some true => exists ts, peg G e s (PMatch ts s)
  | Some false => peg G e s PFail
  | None => True
  end.
Proof.
  induction f as [|f IH]; intros e h s H; [exact I|].
  destruct e as [a|es|es|e1|e1 mn mx|n]; cbn [looks].
  - destruct a as [[|c l]|cs rs|m| |].
    + exists [Val []]. exact (mk_lit [] s s eq_refl).
    + destruct h as [d|], s as [|x s]; try contradiction; cbn in H.
      * subst x. destruct (N.eqb_spec c d) as [E|E]; [exact I|]. apply peg_lit_fail. intros rest Q. injection Q as Q _. congruence.
      * apply peg_lit_fail. discriminate.
    + destruct h as [d|], s as [|x s]; try contradiction; cbn in H.
      * subst x. destruct (in_classb cs rs d) eqn:E; [exact I|]. apply peg_class_fail. intros c r Q. injection Q as -> _.
        exact (in_classb_spec cs rs c E).
      * apply peg_class_fail. discriminate.
    + exact I.
    + destruct h as [d|], s as [|x s]; try contradiction; [exact I|constructor].
    + destruct h as [d|], s as [|x s]; try contradiction; [constructor|exists [Val (s_ "EOF")]; constructor].
  - induction es as [|x es IHl].
    + exists []. constructor.
    + pose proof (IH x h s H) as X. destruct (looks f x h) as [[|]|]; [|apply mk_and_fail1; exact X|exact I].
      destruct X as [ts X].
      match goal with |- match ?g es with _ => _ end => destruct (g es) as [[|]|] end.
      * destruct IHl as [us Y]. exists (ts ++ us). eapply mk_and; eassumption.
      * eapply mk_and_fail; eassumption.
      * exact I.
  - induction es as [|x es IHl].
    + constructor.
    + pose proof (IH x h s H) as X. destruct (looks f x h) as [[|]|]; [destruct X as [ts X]; exists ts; apply mk_or1; exact X| |exact I].
      match goal with |- match ?g es with _ => _ end => destruct (g es) as [[|]|] end.
      * destruct IHl as [us Y]. exists us. apply peg_or_next; assumption.
      * apply peg_or_next; assumption.
      * exact I.
  - pose proof (IH e1 h s H) as X. destruct (looks f e1 h) as [[|]|]; cbn; [|exists []; apply mk_not; exact X|exact I].
    destruct X as [ts X]. eapply peg_not_fail. exact X.
  - assert (Y : mx <> Some 0 -> match match looks f e1 h with Some false => Some (mn =? 0) | _ => None end with
      | Some true => exists ts, peg G (Repeat e1 mn mx) s (PMatch ts s) | Some false => peg G (Repeat e1 mn mx) s PFail | None => True end).
    { intro N. pose proof (IH e1 h s H) as X. destruct (looks f e1 h) as [[|]|]; [exact I| |exact I].
      destruct mn as [|mn]; cbn; [exists []; apply peg_rep_done; assumption|apply peg_rep_short; [assumption|lia|assumption]]. }
    destruct mx as [[|m]|]; [exact I|apply Y; discriminate|apply Y; discriminate].
  - destruct (G n) as [e1|] eqn:E; [|exact I]. pose proof (IH e1 h s H) as X. destruct (looks f e1 h) as [[|]|]; [|eapply mk_rule_fail; eassumption|exact I].
    destruct X as [ts X]. exists [Rule n ts]. eapply mk_rule; eassumption.
Qed.

Lemma looks_fail : forall f e h s, head_is h s -> looks f e h = Some false -> peg G e s PFail.
Proof. intros f e h s H L. pose proof (looks_sound f e h s H) as X. rewrite L in X. exact X. Qed.

Lemma looks_empty : forall f e h s, head_is h s -> looks f e h = Some true -> exists ts, peg G e s (PMatch ts s).
Proof. intros f e h s H L. pose proof (looks_sound f e h s H) as X. rewrite L in X. exact X. Qed.

End Tools.
