(** The idioms of the documentation. *)
From Verif Require Import Base ModelAst ModelParser SpecPeg SpecPos SpecApi SpecWf SpecRefactor SpecLang.
From Verif Require Import ProofParser ProofEngine ProofApi ProofWf ProofRefactor PegTools ProofLang.

Section Idioms.
Variable G : str -> option expr.
Notation lang := (lang G).

Lemma and_one_in : forall e s o, lang (And [e]) s o -> lang e s o.
Proof. intros e s o. apply lang_and_one. Qed.
Lemma or_one_in : forall e s o, lang (Or [e]) s o -> lang e s o.
Proof. intros e s o. apply lang_or_one. Qed.

Lemma inline_rule : forall n e, G n = Some e -> same_language G (RuleName n) e.
Proof. intros n e E s o. apply (lang_rule G n e s o E). Qed.

(* ------------------------------------------------------------------------------------------- *)
(** * [r = e r / e] and [e+] *)

Section Plus.
Variables (r : str) (e : expr).
Hypothesis GR : G r = Some (Or [And [e; RuleName r]; e]).

Lemma rec_fail : forall s, peg G e s PFail -> peg G (RuleName r) s PFail.
Proof.
  intros s F. change PFail with (wrap r PFail). eapply peg_rule; [exact GR|]. apply peg_or_next; [apply peg_and_stop; [exact F|exact I]|].
  apply peg_or_next; [exact F|constructor].
Qed.

Lemma nest_cons : forall t u l, nest r (t :: u :: l) = [Rule r (t ++ nest r (u :: l))].
Proof. reflexivity. Qed.

Lemma rec_of_star : forall s1 l rest, star G e s1 l rest -> peg G e rest PFail -> forall s t, peg G e s (PMatch t s1) ->
  peg G (RuleName r) s (PMatch (nest r (t :: l)) rest).
Proof.
  intros s1 l rest K F. induction K as [s1|s1 u s2 l rest D K IH]; intros s t T.
  - change (PMatch (nest r [t]) s1) with (wrap r (PMatch t s1)). eapply peg_rule; [exact GR|]. apply peg_or_next.
    + change PFail with (prepend t PFail). eapply peg_and_cons; [exact T|]. apply peg_and_stop; [apply rec_fail; exact F|exact I].
    + apply peg_or_first; [exact T|discriminate].
  - rewrite nest_cons. change (PMatch [Rule r ?x] rest) with (wrap r (PMatch x rest)). eapply peg_rule; [exact GR|].
    apply peg_or_first; [|discriminate]. change (PMatch (t ++ ?x) rest) with (prepend t (PMatch x rest)). eapply peg_and_cons; [exact T|].
    replace (PMatch (nest r (u :: l)) rest) with (prepend (nest r (u :: l)) (PMatch [] rest)) by (cbn [prepend]; rewrite app_nil_r; reflexivity).
    eapply peg_and_cons; [apply IH; assumption|constructor].
Qed.

Lemma rec_of_rep : forall s ts rest, peg G (Repeat e 1 None) s (PMatch ts rest) ->
  exists l, l <> [] /\ ts = concat l /\ peg G (RuleName r) s (PMatch (nest r l) rest).
Proof.
  intros s ts rest H. apply inv_rep1 in H. destruct H as (t & l & s1 & D & K & -> & F). exists (t :: l).
  split; [discriminate|]. split; [reflexivity|]. eapply rec_of_star; eassumption.
Qed.

(** What a derivation of the recursive rule, of its body or of the first alternative says about the repetition. *)
Definition turn (s : str) (p : presult) : Prop :=
  match p with
  | PMatch ts rest => exists l, l <> [] /\ ts = nest r l /\ peg G (Repeat e 1 None) s (PMatch (concat l) rest)
  | _ => peg G (Repeat e 1 None) s p
  end.

Lemma rep1_fail : forall s, peg G (Repeat e 1 None) s PFail -> peg G e s PFail.
Proof.
  intros s H. inversion H; subst; [|assumption].
  match goal with X : prepend _ ?x = PFail |- _ => destruct x; try discriminate X end. exfalso. eapply rep0_never_fails. eassumption.
Qed.

Lemma rep1_0 : forall s p, peg G (Repeat e 1 None) s p -> p <> PFail -> peg G (Repeat e 0 None) s p.
Proof.
  intros s p H N. inversion H; subst; [|congruence|].
  - eapply peg_rep_more; [discriminate|eassumption|]. assumption.
  - apply peg_rep_abort; [discriminate|assumption].
Qed.

Lemma rep_of_rec_all : forall x s p, peg G x s p ->
  (x = RuleName r -> turn s p) /\
  (x = Or [And [e; RuleName r]; e] -> turn s (wrap r p)) /\
  (x = Or [e] -> peg G e s p) /\
  (x = And [RuleName r] -> turn s p) /\
  (x = And [e; RuleName r] -> match p with
     | PFail => peg G e s PFail \/ exists t s1, peg G e s (PMatch t s1) /\ peg G e s1 PFail
     | _ => turn s (wrap r p)
     end).
Proof.
  intros x s p H. induction H; (split; [|split; [|split; [|split]]]); intro Q; try discriminate Q.
  - (* And [RuleName r], first matches *)
    injection Q as -> ->. destruct IHpeg1 as (IH & _). specialize (IH eq_refl). apply peg_det with (1 := peg_and_nil G s1) in H0. subst r0.
    cbn [prepend]. rewrite app_nil_r. exact IH.
  - (* And [e; RuleName r], e matches *)
    injection Q as -> ->. destruct IHpeg2 as (_ & _ & _ & IH & _). specialize (IH eq_refl).
    destruct r0 as [us rest| |m rest]; cbn [prepend wrap turn] in *.
    + destruct IH as (l & L & -> & D). exists (ts :: l). split; [discriminate|]. split; [destruct l; [congruence|reflexivity]|].
      cbn [concat]. change (PMatch (ts ++ ?y) rest) with (prepend ts (PMatch y rest)). eapply peg_rep_more; [discriminate|exact H|].
      apply rep1_0; [exact D|discriminate].
    + right. exists ts, s1. split; [exact H|]. apply rep1_fail. exact IH.
    + change (PAbort m rest) with (prepend ts (PAbort m rest)). eapply peg_rep_more; [discriminate|exact H|].
      apply rep1_0; [exact IH|discriminate].
  - (* And [RuleName r] stops *)
    injection Q as -> ->. exact (proj1 IHpeg eq_refl).
  - injection Q as -> ->. destruct r0 as [us rest| |m rest]; [contradiction| |].
    + left. exact H.
    + cbn. apply peg_rep_abort; [discriminate|exact H].
  - (* Or, first alternative *)
    injection Q as -> ->. destruct IHpeg as (_ & _ & _ & _ & IH). specialize (IH eq_refl).
    destruct r0 as [us rest| |m rest]; [exact IH|congruence|exact IH].
  - injection Q as -> ->. exact H.
  - (* Or, second alternative *)
    injection Q as -> ->. destruct IHpeg1 as (_ & _ & _ & _ & IH). specialize (IH eq_refl). cbn in IH.
    destruct IHpeg2 as (_ & _ & IH2 & _). specialize (IH2 eq_refl). destruct IH as [F|(t & s1 & D & F)].
    + pose proof (peg_det _ _ _ _ IH2 _ F) as ->. cbn. apply peg_rep_short; [discriminate|lia|exact F].
    + pose proof (peg_det _ _ _ _ IH2 _ D) as ->. cbn. exists [t]. split; [discriminate|]. split; [reflexivity|].
      change (PMatch (concat [t]) s1) with (prepend t (PMatch [] s1)). eapply peg_rep_more; [discriminate|exact D|]. apply peg_rep_done; [discriminate|exact F].
  - injection Q as -> ->. inversion H0; subst. exact H.
  - injection Q as ->. rewrite H in GR. injection GR as ->. destruct IHpeg as (_ & IH & _). exact (IH eq_refl).
  - injection Q as ->. congruence.
Qed.

Lemma rep_of_rec : forall s ts rest, peg G (RuleName r) s (PMatch ts rest) ->
  exists l, l <> [] /\ ts = nest r l /\ peg G (Repeat e 1 None) s (PMatch (concat l) rest).
Proof. intros s ts rest H. exact (proj1 (rep_of_rec_all _ _ _ H) eq_refl). Qed.

Lemma rec_of_rep_abort : forall s m rest, peg G (Repeat e 0 None) s (PAbort m rest) -> peg G (RuleName r) s (PAbort m rest).
Proof.
  intros s m rest H. apply lang_abort in H. apply lang_abort.
  assert (K : forall s o, lang (Repeat e 0 None) s o -> o = PAbort m rest -> lang (RuleName r) s o); [|exact (K _ _ H eq_refl)].
  clear s H. apply (lang_rep0_ind G e (fun s o => o = PAbort m rest -> lang (RuleName r) s o)).
  - intros s s1 o D _ IH ->. specialize (IH eq_refl). apply (lang_rule _ _ _ _ _ GR). apply lang_or_first; [|discriminate].
    eapply lang_and_cons; [exact D|]. apply lang_and_one. exact IH.
  - discriminate.
  - intros s m0 rest0 D E. injection E as -> ->. apply (lang_rule _ _ _ _ _ GR). apply lang_or_first; [|discriminate]. apply lang_and_stop; [exact D|exact I].
Qed.

Lemma rec_is_plus : same_language G (RuleName r) (Repeat e 1 None).
Proof.
  intros s o. split; intros (p & H & <-).
  - pose proof (proj1 (rep_of_rec_all _ _ _ H) eq_refl) as T. destruct p as [ts rest| |m rest]; cbn in T.
    + destruct T as (l & _ & _ & T). eexists. split; [exact T|reflexivity].
    + exists PFail. auto.
    + exists (PAbort m rest). auto.
  - destruct p as [ts rest| |m rest].
    + apply rec_of_rep in H. destruct H as (l & _ & _ & H). eexists. split; [exact H|reflexivity].
    + exists PFail. split; [|reflexivity]. apply rec_fail, rep1_fail. exact H.
    + exists (PAbort m rest). split; [|reflexivity]. apply rec_of_rep_abort, rep1_0; [exact H|discriminate].
Qed.
End Plus.

(* ------------------------------------------------------------------------------------------- *)
(** * [r = e sep r / e] and [e (sep e)*] *)

Section List.
Variables (r : str) (e sep : expr).
Hypothesis GR : G r = Some (Or [And [e; sep; RuleName r]; e]).
Let tail := Repeat (And [sep; e]) 0 None.

Lemma tail_never_fails : forall s, ~ lang tail s PFail.
Proof. intros s H. apply lang_fail in H. exact (rep0_never_fails _ _ _ H). Qed.

Lemma pair_fail : forall s s1, lang sep s (PMatch [] s1) -> lang e s1 PFail -> lang (And [sep; e]) s PFail.
Proof. intros s s1 H1 H2. eapply lang_and_cons; [exact H1|]. apply lang_and_one. exact H2. Qed.

(** From where the first [e] ended, given what the rule does. *)
Lemma list_all : forall x s p, peg G x s p ->
  (x = RuleName r -> lang (And [e; tail]) s (bare p)) /\
  (x = Or [And [e; sep; RuleName r]; e] -> lang (And [e; tail]) s (bare p)) /\
  (x = Or [e] -> peg G e s p) /\
  (x = And [RuleName r] -> lang (And [e; tail]) s (bare p)) /\
  (x = And [sep; RuleName r] -> match bare p with
     | PFail => lang (And [sep; e]) s PFail
     | o => lang tail s o
     end) /\
  (x = And [e; sep; RuleName r] -> match bare p with
     | PFail => lang e s PFail \/ exists s1, lang e s (PMatch [] s1) /\ lang (And [sep; e]) s1 PFail
     | o => lang (And [e; tail]) s o
     end).
Proof.
  intros x s p H. induction H; (split; [|split; [|split; [|split; [|split]]]]); intro Q; try discriminate Q.
  - injection Q as -> ->. destruct IHpeg1 as (IH & _). specialize (IH eq_refl). apply peg_det with (1 := peg_and_nil G s1) in H0. subst r0.
    exact IH.
  - injection Q as -> ->. destruct IHpeg2 as (_ & _ & _ & IH & _). specialize (IH eq_refl). rewrite bare_prepend.
    assert (D : lang sep s (PMatch [] s1)) by (apply lang_match; eauto). apply lang_and_inv in IH. destruct IH as [(s2 & I1 & I2)|[I1 I2]].
    + apply and_one_in in I2. assert (T : lang tail s (bare r0)).
      { eapply lang_rep_more; [discriminate|eapply lang_and_cons; [exact D|]; apply lang_and_one; exact I1|]. exact I2. }
      destruct (bare r0) eqn:B; [exact T| |exact T]. exfalso. eapply tail_never_fails. exact T.
    + destruct (bare r0) eqn:B; [destruct I2| |].
      * eapply pair_fail; eassumption.
      * apply lang_rep_abort; [discriminate|]. eapply lang_and_cons; [exact D|]. apply lang_and_one. exact I1.
  - injection Q as -> ->. destruct IHpeg2 as (_ & _ & _ & _ & IH & _). specialize (IH eq_refl). rewrite bare_prepend.
    assert (D : lang e s (PMatch [] s1)) by (apply lang_match; eauto). destruct (bare r0) eqn:B.
    + eapply lang_and_cons; [exact D|]. apply lang_and_one. exact IH.
    + right. eauto.
    + eapply lang_and_cons; [exact D|]. apply lang_and_one. exact IH.
  - injection Q as -> ->. exact (proj1 IHpeg eq_refl).
  - injection Q as -> ->. rewrite (bare_of_stops _ H0). destruct r0 as [us rest| |m rest]; [destruct H0| |].
    + apply lang_and_stop; [apply lang_fail; exact H|exact I].
    + apply lang_rep_abort; [discriminate|]. apply lang_and_stop; [apply lang_abort; exact H|exact I].
  - injection Q as -> ->. rewrite (bare_of_stops _ H0). destruct r0 as [us rest| |m rest]; [destruct H0| |].
    + left. apply lang_fail. exact H.
    + apply lang_and_stop; [apply lang_abort; exact H|exact I].
  - injection Q as -> ->. destruct IHpeg as (_ & _ & _ & _ & _ & IH). specialize (IH eq_refl).
    destruct r0 as [us rest| |m rest]; [exact IH|congruence|exact IH].
  - injection Q as -> ->. exact H.
  - injection Q as -> ->. destruct IHpeg1 as (_ & _ & _ & _ & _ & IH). specialize (IH eq_refl). cbn in IH.
    destruct IHpeg2 as (_ & _ & IH2 & _). specialize (IH2 eq_refl). apply lang_peg in IH2. destruct IH as [F|(s1 & D & F)].
    + rewrite (lang_det _ _ _ _ _ IH2 F). apply lang_and_stop; [exact F|exact I].
    + rewrite (lang_det _ _ _ _ _ IH2 D). eapply lang_and_cons; [exact D|]. apply lang_and_one. apply lang_rep_done; [discriminate|exact F].
  - injection Q as -> ->. inversion H0; subst. exact H.
  - injection Q as ->. rewrite H in GR. injection GR as ->. destruct IHpeg as (_ & IH & _). rewrite bare_wrap. exact (IH eq_refl).
  - injection Q as ->. congruence.
Qed.

Lemma list_back : forall s1 o, lang tail s1 o -> forall s, lang e s (PMatch [] s1) -> lang (RuleName r) s o.
Proof.
  apply (lang_rep0_ind G (And [sep; e]) (fun s1 o => forall s, lang e s (PMatch [] s1) -> lang (RuleName r) s o)).
  - intros s1 s2 o D T IH s E. apply lang_and_inv in D. destruct D as [(s3 & D1 & D2)|[_ []]]. apply and_one_in in D2.
    pose proof (IH _ D2) as R. apply (lang_rule _ _ _ _ _ GR). apply lang_or_first.
    + eapply lang_and_cons; [exact E|]. eapply lang_and_cons; [exact D1|]. apply lang_and_one. exact R.
    + intros ->. exact (tail_never_fails _ T).
  - intros s1 F s E. apply (lang_rule _ _ _ _ _ GR). apply lang_or_next; [|apply lang_or_one; exact E].
    eapply lang_and_cons; [exact E|]. apply lang_and_inv in F. destruct F as [(s2 & F1 & F2)|[F1 _]].
    + apply and_one_in in F2. eapply lang_and_cons; [exact F1|]. apply lang_and_one. apply (lang_rule _ _ _ _ _ GR).
      apply lang_or_next; [apply lang_and_stop; [exact F2|exact I]|]. apply lang_or_one. exact F2.
    + apply lang_and_stop; [exact F1|exact I].
  - intros s1 m rest A s E. apply (lang_rule _ _ _ _ _ GR). apply lang_or_first; [|discriminate]. eapply lang_and_cons; [exact E|].
    apply lang_and_inv in A. destruct A as [(s2 & A1 & A2)|[A1 _]].
    + apply and_one_in in A2. eapply lang_and_cons; [exact A1|]. apply lang_and_one. apply (lang_rule _ _ _ _ _ GR).
      apply lang_or_first; [|discriminate]. apply lang_and_stop; [exact A2|exact I].
    + apply lang_and_stop; [exact A1|exact I].
Qed.

Lemma rec_is_list : same_language G (RuleName r) (And [e; Repeat (And [sep; e]) 0 None]).
Proof.
  intros s o. fold tail. split; intro H.
  - destruct H as (p & H & <-). exact (proj1 (list_all _ _ _ H) eq_refl).
  - apply lang_and_inv in H. destruct H as [(s1 & H1 & H2)|[H K]].
    + apply and_one_in in H2. eapply list_back; eassumption.
    + apply (lang_rule _ _ _ _ _ GR). destruct o; [destruct K| |].
      * apply lang_or_next; [apply lang_and_stop; [exact H|exact I]|]. apply lang_or_one. exact H.
      * apply lang_or_first; [|discriminate]. apply lang_and_stop; [exact H|exact I].
Qed.
End List.

(* ------------------------------------------------------------------------------------------- *)
(** * Alternatives that are never taken *)

Lemma drop_covered : forall es1 e es2 e' es3, (forall s, peg G e s PFail -> peg G e' s PFail) ->
  equiv G (Or (es1 ++ e :: es2 ++ e' :: es3)) (Or (es1 ++ e :: es2 ++ es3)).
Proof.
  intros es1 e es2 e' es3 C s r.
  assert (F : peg G e' s PFail -> forall l, peg G (Or (l ++ e' :: es3)) s r <-> peg G (Or (l ++ es3)) s r).
  { intros E l. induction l as [|x l IH]; cbn [app].
    - split; intro H; [|apply peg_or_next; assumption].
      inversion H as [| | | | | | | | | | | | |? ? ? ? D NF|? ? ? ? DF D| | | | | | | | |]; subst; [|exact D].
      exfalso. apply NF. exact (peg_det _ _ _ _ D _ E).
    - split; intro H; (inversion H as [| | | | | | | | | | | | |? ? ? ? D NF|? ? ? ? DF D| | | | | | | | |]; subst;
        [apply peg_or_first; assumption|apply peg_or_next; [exact DF|apply IH; exact D]]). }
  induction es1 as [|x es1 IH]; cbn [app].
  - split; intro H; (inversion H as [| | | | | | | | | | | | |? ? ? ? D NF|? ? ? ? DF D| | | | | | | | |]; subst;
      [apply peg_or_first; assumption|apply peg_or_next; [exact DF|apply F; [apply C; exact DF|assumption]]]).
  - split; intro H; (inversion H as [| | | | | | | | | | | | |? ? ? ? D NF|? ? ? ? DF D| | | | | | | | |]; subst;
      [apply peg_or_first; assumption|apply peg_or_next; [exact DF|apply IH; exact D]]).
Qed.

Lemma longer_literal_covered : forall a b s, peg G (lit a) s PFail -> peg G (lit (a ++ b)) s PFail.
Proof.
  intros a b s H. apply peg_lit_fail. intros rest ->. unfold lit in H. inversion H as [|l s0 N| | | | | | | | | | | | | | | | | | | | | | ]; subst.
  apply (N (b ++ rest)). rewrite app_assoc. reflexivity.
Qed.

Lemma longer_sequence_covered : forall a b es s, peg G (lit a) s PFail -> peg G (And (lit (a ++ b) :: es)) s PFail.
Proof. intros a b es s H. apply peg_and_stop; [apply longer_literal_covered; exact H|exact I]. Qed.

(* ------------------------------------------------------------------------------------------- *)
(** * [(!"l" .)* "l"] *)

Lemma starts_dec : forall l s : str, (exists r, s = l ++ r) \/ (forall r, s <> l ++ r).
Proof.
  induction l as [|c l IH]; intros s; [left; exists s; reflexivity|]. destruct s as [|d s]; [right; intros r E; discriminate E|].
  destruct (N.eq_dec c d) as [->|N].
  - destruct (IH s) as [[r ->]|N]; [left; exists r; reflexivity|]. right. intros r E. injection E as E. exact (N r E).
  - right. intros r E. injection E as E _. congruence.
Qed.

Definition not_then_dot (l : str) : expr := And [Not (lit l); dot_].

Lemma turn_here : forall l r, peg G (not_then_dot l) (l ++ r) PFail.
Proof. intros l r. apply peg_and_stop; [|exact I]. eapply peg_not_fail. apply peg_lit_ok. Qed.
Lemma turn_end : forall l, (forall r, [] <> l ++ r) -> peg G (not_then_dot l) [] PFail.
Proof.
  intros l N. change PFail with (prepend [] PFail). eapply peg_and_cons; [eapply peg_not_ok; [apply peg_lit_fail; exact N|exact I]|].
  apply peg_and_stop; [constructor|exact I].
Qed.
Lemma turn_char : forall l c s, (forall r, c :: s <> l ++ r) -> peg G (not_then_dot l) (c :: s) (PMatch [Val [c]] s).
Proof.
  intros l c s N. change [Val [c]] with ([] ++ [Val [c]] ++ []). change (PMatch ([] ++ ?x ++ []) s) with (prepend [] (prepend x (PMatch [] s))).
  eapply peg_and_cons; [eapply peg_not_ok; [apply peg_lit_fail; exact N|exact I]|]. eapply peg_and_cons; [constructor|constructor].
Qed.

Definition chars (w : str) : list node := map (fun c => Val [c]) w.

Lemma scan : forall l s, (exists w r, first_at l s w r /\ peg G (Repeat (not_then_dot l) 0 None) s (PMatch (chars w) (l ++ r))) \/
  ((forall w r, s <> w ++ l ++ r) /\ peg G (Repeat (not_then_dot l) 0 None) s (PMatch (chars s) [])).
Proof.
  intros l s. induction s as [|c s IH].
  - destruct (starts_dec l []) as [[r E]|N].
    + left. exists [], r. split; [split; [exact E|intros; cbn; lia]|]. rewrite <- E. apply peg_rep_done; [discriminate|]. rewrite E. apply turn_here.
    + right. split; [|apply peg_rep_done; [discriminate|apply turn_end; exact N]].
      intros [|d w] r E; [exact (N r E)|discriminate E].
  - destruct (starts_dec l (c :: s)) as [[r E]|N].
    + left. exists [], r. split; [split; [exact E|intros; cbn; lia]|]. rewrite <- E. apply peg_rep_done; [discriminate|]. rewrite E. apply turn_here.
    + pose proof (turn_char l c s N) as T. destruct IH as [(w & r & [E M] & D)|[M D]].
      * left. exists (c :: w), r. split.
        -- split; [cbn; rewrite <- E; reflexivity|]. intros [|d w'] r' E'; [exfalso; exact (N r' E')|]. injection E' as _ E'. cbn. apply le_n_S, (M _ _ E').
        -- cbn [chars map]. change (PMatch (Val [c] :: ?x) ?y) with (prepend [Val [c]] (PMatch x y)). eapply peg_rep_more; [discriminate|exact T|exact D].
      * right. split.
        -- intros [|d w'] r' E'; [exact (N r' E')|]. injection E' as _ E'. exact (M _ _ E').
        -- cbn [chars map]. change (PMatch (Val [c] :: ?x) ?y) with (prepend [Val [c]] (PMatch x y)). eapply peg_rep_more; [discriminate|exact T|exact D].
Qed.

Lemma till_spec : forall l s p, peg G (till l) s p <->
  (exists w r, first_at l s w r /\ p = PMatch (map (fun c => Val [c]) w ++ [Val l]) r) \/ ((forall w r, s <> w ++ l ++ r) /\ p = PFail).
Proof.
  intros l s p.
  assert (L : forall w r, first_at l s w r -> peg G (Repeat (not_then_dot l) 0 None) s (PMatch (chars w) (l ++ r)) ->
    peg G (till l) s (PMatch (chars w ++ [Val l]) r)).
  { intros w r _ D. change (PMatch (chars w ++ [Val l]) r) with (prepend (chars w) (prepend [Val l] (PMatch [] r))).
    eapply peg_and_cons; [exact D|]. eapply peg_and_cons; [apply peg_lit_ok|constructor]. }
  assert (K : (forall w r, s <> w ++ l ++ r) -> peg G (Repeat (not_then_dot l) 0 None) s (PMatch (chars s) []) -> peg G (till l) s PFail).
  { intros M D. change PFail with (prepend (chars s) PFail). eapply peg_and_cons; [exact D|]. apply peg_and_stop; [|exact I].
    apply peg_lit_fail. intros r E. apply (M s r). rewrite <- E. symmetry. apply app_nil_r. }
  destruct (scan l s) as [(w & r & F & D)|[M D]].
  - pose proof (L w r F D) as T. split.
    + intro H. left. exists w, r. split; [exact F|]. exact (peg_det _ _ _ _ H _ T).
    + intros [(w' & r' & F' & ->)|[M ->]].
      * assert (w' = w) as ->. { destruct F as [E1 M1], F' as [E2 M2]. pose proof (M1 _ _ E2). pose proof (M2 _ _ E1).
          rewrite E1 in E2. assert (LL : length w = length w') by lia. clear - E2 LL. revert w' E2 LL.
          induction w as [|c w IH]; intros [|d w'] E2 LL; try discriminate LL; [reflexivity|]. injection E2 as -> E2. f_equal. apply IH; [exact E2|injection LL; auto]. }
        assert (r' = r) as ->. { destruct F as [E1 _], F' as [E2 _]. rewrite E1 in E2. apply app_inv_head, app_inv_head in E2. auto. }
        exact T.
      * exfalso. exact (M _ _ (proj1 F)).
  - pose proof (K M D) as T. split.
    + intro H. right. split; [exact M|]. exact (peg_det _ _ _ _ H _ T).
    + intros [(w' & r' & F' & ->)|[_ ->]]; [exfalso; exact (M _ _ (proj1 F'))|exact T].
Qed.

(* ------------------------------------------------------------------------------------------- *)
(** * Nested brackets: [m = "a" m "b" / "a" "b"] *)

Section Brackets.
Variables (m a b : str).
Hypothesis GM : G m = Some (Or [And [lit a; RuleName m; lit b]; And [lit a; lit b]]).

Lemma lit_lang : forall l s, lang (lit l) (l ++ s) (PMatch [] s).
Proof. intros l s. apply lang_match. eexists. apply peg_lit_ok. Qed.
Lemma lit_lang_fail : forall l s, (forall r, s <> l ++ r) -> lang (lit l) s PFail.
Proof. intros l s H. apply lang_fail. apply peg_lit_fail. exact H. Qed.
Lemma lit_lang_inv : forall l s s', lang (lit l) s (PMatch [] s') -> s = l ++ s'.
Proof. intros l s s' H. apply lang_match in H. destruct H as [ts H]. apply inv_lit in H. apply H. Qed.

Lemma times_snoc : forall n w, times (S n) w = times n w ++ w.
Proof. induction n as [|n IH]; intro w; [cbn; rewrite app_nil_r; reflexivity|]. cbn [times] in *. rewrite <- app_assoc, <- IH. reflexivity. Qed.

(** Every match is a nesting. *)
Lemma brackets_only : forall x s p, peg G x s p -> x = RuleName m -> forall ts rest, p = PMatch ts rest ->
  exists n, 1 <= n /\ s = times n a ++ times n b ++ rest.
Proof.
  assert (K : forall x s p, peg G x s p -> forall ts rest, p = PMatch ts rest ->
    (x = RuleName m -> exists n, 1 <= n /\ s = times n a ++ times n b ++ rest) /\
    (x = And [RuleName m; lit b] -> exists n, 1 <= n /\ s = times n a ++ times n b ++ b ++ rest) /\
    (x = And [lit a; RuleName m; lit b] -> exists n, 2 <= n /\ s = times n a ++ times n b ++ rest) /\
    (x = Or [And [lit a; RuleName m; lit b]; And [lit a; lit b]] -> exists n, 1 <= n /\ s = times n a ++ times n b ++ rest)).
  { intros x s p H. induction H; intros ts0 rest0 P; (split; [|split; [|split]]); intro Q; try discriminate Q.
    - injection Q as -> ->. apply prepend_match in P. destruct P as (vs & -> & ->). destruct (proj1 (IHpeg1 _ _ eq_refl) eq_refl) as (n & L & E).
      apply lang_peg in H0. apply and_one_in, lit_lang_inv in H0. exists n. split; [exact L|]. rewrite E. rewrite H0. reflexivity.
    - injection Q as -> ->. apply prepend_match in P. destruct P as (vs & -> & ->). destruct (proj1 (proj2 (IHpeg2 _ _ eq_refl)) eq_refl) as (n & L & E).
      apply inv_lit in H. destruct H as [_ ->]. exists (S n). split; [lia|]. rewrite (times_snoc n b). rewrite E. cbn [times]. rewrite <- !app_assoc. reflexivity.
    - subst r. destruct H0.
    - subst r. destruct H0.
    - injection Q as -> ->. subst r. destruct (proj1 (proj2 (proj2 (IHpeg _ _ eq_refl))) eq_refl) as (n & L & E). exists n. split; [lia|exact E].
    - injection Q as -> ->. subst r. assert (H1 : lang (Or [And [lit a; lit b]]) s (PMatch [] rest0)) by (apply lang_match; eauto).
      apply or_one_in, lang_and_inv in H1. destruct H1 as [(s1 & H1 & H2)|[_ []]]. apply lit_lang_inv in H1. apply and_one_in, lit_lang_inv in H2. subst.
      exists 1. split; [lia|]. cbn. rewrite !app_nil_r. reflexivity.
    - injection Q as ->. destruct r as [k r1| |m1 r1]; try discriminate P. cbn in P. injection P as <- <-.
      rewrite H in GM. injection GM as ->. destruct (IHpeg _ _ eq_refl) as (_ & _ & _ & IH). exact (IH eq_refl).
    - discriminate P. }
  intros x s p H E ts rest P. exact (proj1 (K _ _ _ H _ _ P) E).
Qed.

(** Every nesting matches, if the brackets cannot be confused. *)
Lemma brackets_all : (forall u v, a ++ u <> b ++ v) -> forall n rest, 1 <= n -> lang (RuleName m) (times n a ++ times n b ++ rest) (PMatch [] rest).
Proof.
  intros AB n. induction n as [|n IH]; intros rest L; [lia|]. apply (lang_rule _ _ _ _ _ GM). destruct n as [|n].
  - cbn [times]. rewrite !app_nil_r. apply lang_or_next.
    + eapply lang_and_cons; [apply lit_lang|]. apply lang_and_stop; [|exact I]. apply (lang_rule _ _ _ _ _ GM).
      assert (F : forall es, lang (And (lit a :: es)) (b ++ rest) PFail).
      { intro es. apply lang_and_stop; [|exact I]. apply lit_lang_fail. intros r E. exact (AB _ _ (eq_sym E)). }
      apply lang_or_next; [apply F|]. apply lang_or_one. apply F.
    + apply lang_or_one. eapply lang_and_cons; [apply lit_lang|]. apply lang_and_one. apply lit_lang.
  - apply lang_or_first; [|discriminate].
    assert (E : times (S (S n)) a ++ times (S (S n)) b ++ rest = a ++ times (S n) a ++ times (S n) b ++ b ++ rest).
    { rewrite (times_snoc (S n) b). cbn [times]. rewrite <- !app_assoc. reflexivity. }
    rewrite E. eapply lang_and_cons; [apply lit_lang|]. eapply lang_and_cons; [apply IH; lia|]. apply lang_and_one. apply lit_lang.
Qed.

Lemma brackets_spec : (forall u v, a ++ u <> b ++ v) -> forall s rest,
  (exists ts, peg G (RuleName m) s (PMatch ts rest)) <-> exists n, 1 <= n /\ s = times n a ++ times n b ++ rest.
Proof.
  intros AB s rest. split.
  - intros [ts H]. exact (brackets_only _ _ _ H eq_refl _ _ eq_refl).
  - intros (n & L & ->). apply lang_match. apply brackets_all; assumption.
Qed.
End Brackets.
End Idioms.
