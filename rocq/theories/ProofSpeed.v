(** The time automata and regular expressions take. *)
From Verif Require Import Base ModelAst ModelParser ModelCost SpecPeg SpecPos SpecApi SpecPower SpecRegex SpecSpeed.
From Verif Require Import PegTools ProofParser ProofEngine ProofApi ProofRun ProofRunDet ProofPower ProofRegex.

(** * Deterministic automata are fast *)

Lemma most_in : forall M a steps, In (a, steps) M -> length steps <= most_steps M.
Proof.
  induction M as [|x M IH]; intros a steps H; [destruct H|]. cbn [most_steps fold_right]. destruct H as [->|H]; [cbn; lia|]. apply IH in H. unfold most_steps in H. lia.
Qed.

Section Fast.
Variable M : automaton.
Hypothesis CL : closed M.
Hypothesis DT : deterministic M.
Let G := grammar_of (automaton_rules M).
Notation run := (costs G).

Lemma r_end_ok : run at_end [] (OM []) 2.
Proof. eapply c_not_ok; [apply c_fail, peg_dot_fail|auto]. Qed.
Lemma r_end_fail : forall c s, run at_end (c :: s) OF 2.
Proof. intros c s. eapply c_not_fail. eapply c_match, peg_dot_ok. Qed.

Definition step_exprs (l : list (char * nat)) : list expr := map (fun p => And [lit [fst p]; ref_rule (st (snd p))]) l.

Lemma r_other : forall p s, (forall s', s <> fst p :: s') -> run (And [lit [fst p]; ref_rule (st (snd p))]) s OF 2.
Proof. intros p s N. apply c_and, ca_fail, c_fail, peg_lit_fail. exact N. Qed.

(** Steps with other chars. *)
Lemma r_skip : forall l tl s o k, (forall p s', In p l -> s <> fst p :: s') -> costs_or G tl s o k -> costs_or G (step_exprs l ++ tl) s o (2 * length l + k).
Proof.
  induction l as [|p l IH]; intros tl s o k N H; [exact H|]. cbn [step_exprs map app length]. replace (2 * S (length l) + k) with (2 + (2 * length l + k)) by lia.
  eapply co_next; [apply r_other; intros s'; apply N; left; reflexivity|]. apply IH; [|exact H]. intros p' s' I. apply N. right. exact I.
Qed.

Lemma state_runs : forall s q, q < length M -> exists o k, run (ref_rule (st q)) s o k /\ (o = OM [] \/ o = OF) /\ k <= (2 * most_steps M + 4) * (length s + 1).
Proof.
  induction s as [|c s IH]; intros q L; (destruct (nth_error M q) as [[a steps]|] eqn:E; [|apply nth_error_None in E; lia]);
    pose proof (G_state M q) as GQ; rewrite E in GQ; cbn [option_map] in GQ; pose proof (most_in M a steps (nth_error_In _ _ E)) as MS;
    (assert (TL : forall s', exists o k, costs_or G (if a then [at_end] else []) s' o k /\ (o = OM [] \/ o = OF) /\ k <= 2);
     [intros [|c' s']; (destruct a; [|exists OF, 0; split; [constructor|split; [auto|lia]]]);
       [exists (OM []), 2; split; [apply co_match, r_end_ok|auto]|exists OF, (2 + 0); split; [eapply co_next; [apply r_end_fail|constructor]|split; [auto|lia]]]|]).
  - destruct (TL []) as (o & k & H & O & K). exists o, (S (S (2 * length steps + k))). split; [|split; [exact O|cbn [length]; lia]].
    eapply c_rule; [exact GQ|]. apply c_or. cbn [fst snd]. apply r_skip; [discriminate|exact H].
  - destruct (TL (c :: s)) as (o & k & H & O & K). destruct (in_dec N.eq_dec c (map fst steps)) as [IN|NI].
    + apply in_map_iff in IN. destruct IN as ([c' q'] & EC & IN). cbn [fst] in EC. subst c'. destruct (in_split _ _ IN) as (l1 & l2 & ES).
      pose proof (DT a steps (nth_error_In _ _ E)) as ND. rewrite ES, map_app in ND. cbn [map fst] in ND. apply NoDup_remove_2 in ND.
      assert (N1 : forall p s', In p l1 -> c :: s <> fst p :: s') by (intros p s' I Q; injection Q as Q _; apply ND, in_or_app; left; rewrite Q; exact (in_map fst _ _ I)).
      assert (N2 : forall p s', In p l2 -> c :: s <> fst p :: s') by (intros p s' I Q; injection Q as Q _; apply ND, in_or_app; right; rewrite Q; exact (in_map fst _ _ I)).
      destruct (IH q' (proj2 CL a steps c q' (nth_error_In _ _ E) IN)) as (o' & k' & R & O' & K').
      assert (LL : length steps = length l1 + S (length l2)) by (rewrite ES, app_length; reflexivity).
      assert (X : exists o1 k1, costs_or G (step_exprs (l1 ++ (c, q') :: l2) ++ if a then [at_end] else []) (c :: s) o1 k1 /\ (o1 = OM [] \/ o1 = OF) /\ k1 <= 2 * length steps + 2 + k').
      { unfold step_exprs. rewrite map_app. cbn [map]. rewrite <- app_assoc. fold (step_exprs l1). fold (step_exprs l2). cbn [app fst snd].
        destruct O' as [-> | ->].
        - exists (OM []), (2 * length l1 + S (1 + (k' + 0))). split; [|split; [auto|lia]]. apply r_skip; [exact N1|]. apply co_match. apply c_and. eapply ca_cons; [eapply c_match; apply (peg_lit_ok G [c] s)|].
          eapply ca_cons; [exact R|constructor].
        - exists o, (2 * length l1 + (S (1 + k') + (2 * length l2 + k))). split; [|split; [exact O|lia]]. apply r_skip; [exact N1|]. eapply co_next.
          + apply c_and. eapply ca_cons; [eapply c_match; apply (peg_lit_ok G [c] s)|]. apply ca_fail. exact R.
          + apply r_skip; [exact N2|exact H]. }
      destruct X as (o1 & k1 & X & O1 & K1). exists o1, (S (S k1)). split; [|split; [exact O1|cbn [length]; lia]].
      eapply c_rule; [exact GQ|]. apply c_or. unfold state_expr. cbn [fst snd]. rewrite ES. exact X.
    + exists o, (S (S (2 * length steps + k))). split; [|split; [exact O|cbn [length]; lia]]. eapply c_rule; [exact GQ|]. apply c_or. cbn [fst snd]. apply r_skip; [|exact H].
      intros p s' I Q. injection Q as Q _. apply NI. rewrite Q. exact (in_map fst _ _ I).
Qed.

Lemma deterministic_fast : forall s d fuel, ascii s -> parse_with_debug fuel s (automaton_rules M) d <> Fuel ->
  parse_calls fuel s (automaton_rules M) d <= (2 * most_steps M + 4) * (length s + 1).
Proof.
  intros s d fuel As NF. destruct (state_runs s 0 (proj1 CL)) as (o & k & R & O & K).
  pose proof (parse_calls_run (automaton_rules M) s fuel d o (S k) (automaton_sane M) As NF) as X.
  assert (S (parse_calls fuel s (automaton_rules M) d) = S k) by (apply X; [eapply c_rule; [reflexivity|exact R]|destruct O as [-> | ->]; discriminate]). lia.
Qed.

End Fast.

(** * Sets of states *)

Lemma position_in : forall {A} (eq_dec : forall x y : A, {x = y} + {x <> y}) x l, In x l -> position eq_dec x l < length l /\ nth_error l (position eq_dec x l) = Some x.
Proof.
  intros A eq_dec x. induction l as [|y l IH]; intro H; [destruct H|]. cbn [position]. destruct (eq_dec x y) as [->|N]; [cbn; split; [lia|reflexivity]|].
  destruct H as [H|H]; [congruence|]. destruct (IH H) as [L E]. cbn. split; [lia|exact E].
Qed.

Section Sets.
Variable M : automaton.
Hypothesis CL : closed M.

Lemma all_sets_in : forall v, In v (all_sets (length v)).
Proof.
  induction v as [|b v IH]; [left; reflexivity|]. cbn [length all_sets]. apply in_or_app. destruct b; [right|left]; apply in_map; exact IH.
Qed.

Lemma sets_length : forall v, In v (sets M) -> length v = length M.
Proof.
  intros v [<-|H]; [unfold start_set, such_that; rewrite map_length, seq_length; reflexivity|]. revert v H. generalize (length M). induction n as [|n IH]; intros v H.
  - destruct H as [<-|[]]. reflexivity.
  - cbn [all_sets] in H. apply in_app_or in H. destruct H as [H|H]; apply in_map_iff in H; destruct H as (w & <- & H); cbn; rewrite (IH w H); reflexivity.
Qed.

Lemma sets_all : forall f, In (such_that M f) (sets M).
Proof. intro f. right. assert (L : length (such_that M f) = length M) by (unfold such_that; rewrite map_length, seq_length; reflexivity). rewrite <- L. apply all_sets_in. Qed.

Lemma has_such : forall f q, has (such_that M f) q = true <-> q < length M /\ f q = true.
Proof.
  intros f q. unfold has, such_that. destruct (Nat.lt_ge_cases q (length M)) as [L|L].
  - rewrite (nth_indep _ false (f 0)) by (rewrite map_length, seq_length; exact L). rewrite map_nth, seq_nth by exact L. tauto.
  - rewrite nth_overflow by (rewrite map_length, seq_length; exact L). split; [discriminate|lia].
Qed.

Lemma has_bound : forall v q, In v (sets M) -> has v q = true -> q < length M.
Proof.
  intros v q H E. rewrite <- (sets_length v H). destruct (Nat.lt_ge_cases q (length v)) as [L|L]; [exact L|]. unfold has in E. rewrite nth_overflow in E by exact L. discriminate.
Qed.

Lemma has_next : forall v c q', In v (sets M) -> has (next_set M v c) q' = true <-> exists q, has v q = true /\ In (c, q') (steps_of M q).
Proof.
  intros v c q' V. unfold next_set. rewrite has_such, existsb_exists. split.
  - intros (_ & q & _ & E). apply andb_true_iff in E. destruct E as [E1 E2]. apply existsb_exists in E2. destruct E2 as ([c' q''] & I & E). cbn [fst snd] in E.
    apply andb_true_iff in E. destruct E as [E3 E4]. apply N.eqb_eq in E3. apply Nat.eqb_eq in E4. subst. exists q. auto.
  - intros (q & E & I). pose proof (has_bound v q V E) as L. split.
    + unfold steps_of in I. destruct (nth_error M q) as [[a steps]|] eqn:X; [|destruct I]. exact (proj2 CL a steps c q' (nth_error_In _ _ X) I).
    + exists q. split; [apply in_seq; lia|]. rewrite E. apply existsb_exists. exists (c, q'). split; [exact I|]. cbn. rewrite N.eqb_refl, Nat.eqb_refl. reflexivity.
Qed.

Lemma set_end_ok : forall v, In v (sets M) -> set_end M v = true <-> exists q, has v q = true /\ ends_at M q = true.
Proof.
  intros v V. unfold set_end. rewrite existsb_exists. split.
  - intros (q & _ & E). apply andb_true_iff in E. exists q. exact E.
  - intros (q & E1 & E2). exists q. split; [apply in_seq; pose proof (has_bound v q V E1); lia|]. rewrite E1, E2. reflexivity.
Qed.

Lemma chars_in : forall q c q', In (c, q') (steps_of M q) -> In c (chars_of M).
Proof.
  intros q c q' H. unfold chars_of. apply nodup_In. unfold steps_of in H. destruct (nth_error M q) as [x|] eqn:E; [|destruct H]. apply in_flat_map. exists x.
  split; [exact (nth_error_In _ _ E)|]. exact (in_map fst _ _ H).
Qed.

Notation pos v := (position states_dec v (sets M)).

Lemma det_state : forall v, In v (sets M) -> nth_error (determinized M) (pos v) = Some (set_end M v, map (fun c => (c, pos (next_set M v c))) (chars_of M)).
Proof. intros v V. unfold determinized. rewrite nth_error_map, (proj2 (position_in states_dec v (sets M) V)). reflexivity. Qed.

Lemma runs_end_iff : forall q, runs M q [] <-> ends_at M q = true.
Proof.
  intro q. unfold ends_at. split.
  - intro R. inversion R as [? steps E|]; subst. rewrite E. reflexivity.
  - destruct (nth_error M q) as [[a steps]|] eqn:E; [|discriminate]. cbn. intros ->. econstructor. exact E.
Qed.

Lemma runs_step_iff : forall q c s, runs M q (c :: s) <-> exists q', In (c, q') (steps_of M q) /\ runs M q' s.
Proof.
  intros q c s. unfold steps_of. split.
  - intro R. inversion R as [|? a steps ? q' ? E I R']; subst. rewrite E. exists q'. auto.
  - intros (q' & I & R). destruct (nth_error M q) as [[a steps]|] eqn:E; [|destruct I]. econstructor; [exact E|exact I|exact R].
Qed.

Lemma det_runs : forall s v, In v (sets M) -> runs (determinized M) (pos v) s <-> exists q, has v q = true /\ runs M q s.
Proof.
  induction s as [|c s IH]; intros v V; pose proof (det_state v V) as D.
  - split.
    + intro R. inversion R as [? steps E|]; subst. rewrite D in E. injection E as E _. apply (set_end_ok v V) in E. destruct E as (q & H & E). exists q. split; [exact H|apply runs_end_iff; exact E].
    + intros (q & H & R). apply runs_end_iff in R. assert (E : set_end M v = true) by (apply (set_end_ok v V); exists q; auto). rewrite E in D. econstructor. exact D.
  - split.
    + intro R. inversion R as [|? a steps ? p' ? E I R']; subst. rewrite D in E. injection E as <- <-. apply in_map_iff in I. destruct I as (c' & E & I). injection E as -> <-.
      apply IH in R'; [|apply sets_all]. destruct R' as (q' & H & R'). apply (has_next v c q' V) in H. destruct H as (q & H & I'). exists q. split; [exact H|]. apply runs_step_iff. eauto.
    + intros (q & H & R). apply runs_step_iff in R. destruct R as (q' & I & R). eapply runs_step; [exact D| |].
      * apply in_map_iff. exists c. split; [reflexivity|exact (chars_in q c q' I)].
      * apply IH; [apply sets_all|]. exists q'. split; [|exact R]. apply (has_next v c q' V). eauto.
Qed.

Lemma pos_start : pos (start_set M) = 0.
Proof. unfold sets. cbn [position]. destruct (states_dec (start_set M) (start_set M)); [reflexivity|contradiction]. Qed.

Lemma det_same : forall s, runs (determinized M) 0 s <-> runs M 0 s.
Proof.
  intro s. rewrite <- pos_start at 1. rewrite det_runs by (left; reflexivity). split.
  - intros (q & H & R). apply has_such in H. destruct H as [_ H]. apply Nat.eqb_eq in H. subst q. exact R.
  - intro R. exists 0. split; [|exact R]. apply has_such. split; [exact (proj1 CL)|reflexivity].
Qed.

Lemma det_closed : closed (determinized M).
Proof.
  split; [unfold determinized; cbn; lia|]. intros a steps c p H I. unfold determinized in *. apply in_map_iff in H. destruct H as (v & E & H). injection E as <- <-.
  apply in_map_iff in I. destruct I as (c' & E & I). injection E as <- <-. rewrite map_length. exact (proj1 (position_in _ _ (sets M) (sets_all _))).
Qed.

Lemma det_deterministic : deterministic (determinized M).
Proof.
  intros a steps H. unfold determinized in H. apply in_map_iff in H. destruct H as (v & E & _). injection E as _ <-. rewrite map_map. cbn [fst]. rewrite map_id. apply NoDup_nodup.
Qed.

Lemma det_steps : most_steps (determinized M) <= length (chars_of M).
Proof.
  unfold most_steps, determinized. generalize (sets M) at 1. intro L. induction (sets M) as [|v l IH]; [cbn; lia|]. cbn [map fold_right snd]. rewrite map_length. apply Nat.max_lub; [apply le_n|exact IH].
Qed.

End Sets.

(** * Regular expressions *)

Lemma cat_inv : forall r1 r2 s, matches (Cat r1 r2) s -> exists u v, s = u ++ v /\ matches r1 u /\ matches r2 v.
Proof. intros r1 r2 s H. inversion H; subst. eauto. Qed.
Lemma alt_inv : forall r1 r2 s, matches (Alt r1 r2) s -> matches r1 s \/ matches r2 s.
Proof. intros r1 r2 s H. inversion H; subst; auto. Qed.

Lemma after_ok : forall c r s, matches r (c :: s) <-> exists x, In x (after c r) /\ matches x s.
Proof.
  intros c. induction r as [| |c'| |r1 IH1 r2 IH2|r1 IH1 r2 IH2|r IH]; intro s; cbn [after].
  - split; [intro H; inversion H|intros (x & [] & _)].
  - split; [intro H; inversion H|intros (x & [] & _)].
  - split.
    + intro H. inversion H; subst. rewrite N.eqb_refl. exists Eps. split; [left; reflexivity|constructor].
    + destruct (N.eqb c' c) eqn:E; [|intros (x & [] & _)]. apply N.eqb_eq in E. subst c'. intros (x & [<-|[]] & H). inversion H; subst. constructor.
  - split; [intro H; inversion H; subst; exists Eps; split; [left; reflexivity|constructor]|]. intros (x & [<-|[]] & H). inversion H; subst. constructor.
  - split.
    + intro H. destruct (cat_inv _ _ _ H) as (u & v & E2 & M1 & M2). destruct u as [|c' u]; cbn [app] in E2.
      * subst v. apply IH2 in M2. destruct M2 as (x & I & M2). exists x. split; [|exact M2]. apply in_or_app. right. apply nullable_ok in M1. rewrite M1. exact I.
      * injection E2 as -> ->. apply IH1 in M1. destruct M1 as (x & I & M1). exists (Cat x r2). split; [apply in_or_app; left; apply in_map_iff; eauto|constructor; assumption].
    + intros (x & I & M). apply in_app_or in I. destruct I as [I|I].
      * apply in_map_iff in I. destruct I as (y & <- & I). destruct (cat_inv _ _ _ M) as (u & v & -> & M1 & M2). change (c :: u ++ v) with ((c :: u) ++ v). constructor; [apply IH1; eauto|exact M2].
      * destruct (nullable r1) eqn:E; [|destruct I]. change (c :: s) with ([] ++ (c :: s)). constructor; [apply nullable_ok; exact E|apply IH2; eauto].
  - split.
    + intro H. destruct (alt_inv _ _ _ H) as [X|X]; [apply IH1 in X|apply IH2 in X]; destruct X as (x & I & X); exists x; (split; [apply in_or_app; auto|exact X]).
    + intros (x & I & M). apply in_app_or in I. destruct I as [I|I]; [apply m_left, IH1|apply m_right, IH2]; eauto.
  - split.
    + intro H. remember (Star r) as e eqn:Ee. remember (c :: s) as w eqn:Ew. revert Ee Ew. induction H as [| | | | | | |r0 u v M1 _ M2 IHs]; intros Ee Ew; try discriminate.
      injection Ee as ->. destruct u as [|c' u]; [exact (IHs eq_refl Ew)|]. cbn [app] in Ew. injection Ew as -> <-. apply IH in M1. destruct M1 as (x & I & M1).
      exists (Cat x (Star r)). split; [apply in_map_iff; eauto|constructor; assumption].
    + intros (x & I & M). apply in_map_iff in I. destruct I as (y & <- & I). destruct (cat_inv _ _ _ M) as (u & v & -> & M1 & M2). change (c :: u ++ v) with ((c :: u) ++ v). constructor; [apply IH; eauto|exact M2].
Qed.

Lemma after_rests : forall c r, incl (after c r) (rests r).
Proof.
  intros c. induction r as [| |c'| |r1 IH1 r2 IH2|r1 IH1 r2 IH2|r IH]; cbn [after rests]; intros x H; try exact H.
  - destruct (N.eqb c' c); [exact H|destruct H].
  - apply in_app_or in H. apply in_or_app. destruct H as [H|H]; [left|right].
    + apply in_map_iff in H. destruct H as (y & <- & H). apply in_map_iff. exists y. auto.
    + destruct (nullable r1); [apply IH2; exact H|destruct H].
  - apply in_app_or in H. apply in_or_app. destruct H as [H|H]; auto.
  - apply in_map_iff in H. destruct H as (y & <- & H). apply in_map_iff. exists y. auto.
Qed.

Lemma rests_after : forall c r x, In x (rests r) -> incl (after c x) (rests r).
Proof.
  intros c. induction r as [| |c'| |r1 IH1 r2 IH2|r1 IH1 r2 IH2|r IH]; cbn [rests]; intros x H; try (destruct H; fail).
  - destruct H as [<-|[]]. intros y [].
  - destruct H as [<-|[]]. intros y [].
  - apply in_app_or in H. intros y Y. apply in_or_app. destruct H as [H|H]; [|right; exact (IH2 x H y Y)].
    apply in_map_iff in H. destruct H as (z & <- & H). cbn [after] in Y. apply in_app_or in Y. destruct Y as [Y|Y].
    + left. apply in_map_iff in Y. destruct Y as (w & <- & Y). apply in_map_iff. exists w. split; [reflexivity|exact (IH1 z H w Y)].
    + right. destruct (nullable z); [exact (after_rests c r2 y Y)|destruct Y].
  - apply in_app_or in H. intros y Y. apply in_or_app. destruct H as [H|H]; [left; exact (IH1 x H y Y)|right; exact (IH2 x H y Y)].
  - apply in_map_iff in H. destruct H as (z & <- & H). intros y Y. cbn [after] in Y. apply in_app_or in Y. apply in_map_iff. destruct Y as [Y|Y].
    + apply in_map_iff in Y. destruct Y as (w & <- & Y). exists w. split; [reflexivity|exact (IH z H w Y)].
    + destruct (nullable z); [|destruct Y]. apply in_map_iff in Y. destruct Y as (w & <- & Y). exists w. split; [reflexivity|exact (after_rests c r w Y)].
Qed.

Lemma some_pair : forall {A B} (a a' : A) (b b' : B), Some (a, b) = Some (a', b') -> a = a' /\ b = b'.
Proof. intros A B a a' b b' H. injection H. auto. Qed.
Lemma pair_pair : forall {A B} (a a' : A) (b b' : B), (a, b) = (a', b') -> a = a' /\ b = b'.
Proof. intros A B a a' b b' H. injection H. auto. Qed.

Section Left.
Variable r : regex.
Let Q := r :: rests r.
Notation pos x := (position regex_dec x Q).

Lemma after_Q : forall c x, In x Q -> incl (after c x) Q.
Proof. intros c x [<-|H] y Y; right; [exact (after_rests c r y Y)|exact (rests_after c r x H y Y)]. Qed.

Lemma left_state : forall x, In x Q -> nth_error (regex_automaton r) (pos x) = Some (nullable x, flat_map (fun c => map (fun y => (c, pos y)) (after c x)) ascii_chars).
Proof. intros x X. unfold regex_automaton. fold Q. rewrite nth_error_map, (proj2 (position_in regex_dec x Q X)). reflexivity. Qed.

Lemma ascii_chars_in : forall c, In c ascii_chars <-> ascii_char c.
Proof.
  intro c. unfold ascii_chars. rewrite in_map_iff. unfold ascii_char. split.
  - intros (n & <- & H). apply in_seq in H. lia.
  - intro H. exists (N.to_nat c). split; [lia|]. apply in_seq. lia.
Qed.

Lemma left_runs : forall s, ascii s -> forall x, In x Q -> runs (regex_automaton r) (pos x) s <-> matches x s.
Proof.
  induction s as [|c s IH]; intros As x X; pose proof (left_state x X) as D.
  - rewrite <- nullable_ok. split.
    + intro R. inversion R as [? steps E|]; subst. rewrite D in E. apply some_pair in E. exact (proj1 E).
    + intro N. rewrite N in D. econstructor. exact D.
  - inversion As as [|? ? Ac As']; subst. rewrite after_ok. split.
    + intro R. inversion R as [|? a steps ? q' ? E I R']; subst. rewrite D in E. apply some_pair in E. destruct E as [<- <-]. apply in_flat_map in I. destruct I as (c' & _ & I). apply in_map_iff in I.
      destruct I as (y & E & I). apply pair_pair in E. destruct E as [-> <-]. exists y. split; [exact I|]. apply (IH As' y (after_Q c x X y I)). exact R'.
    + intros (y & I & My). eapply runs_step; [exact D| |apply (IH As' y (after_Q c x X y I)); exact My].
      apply in_flat_map. exists c. split; [apply ascii_chars_in; exact Ac|]. apply in_map_iff. exists y. auto.
Qed.

Lemma regex_runs : forall s, ascii s -> runs (regex_automaton r) 0 s <-> matches r s.
Proof.
  intros s As. rewrite <- (left_runs s As r (or_introl eq_refl)). unfold Q. cbn [position]. destruct (regex_dec r r); [reflexivity|contradiction].
Qed.

Lemma regex_closed : closed (regex_automaton r).
Proof.
  split; [unfold regex_automaton; cbn; lia|]. intros a steps c q H I. unfold regex_automaton in H. fold Q in H. apply in_map_iff in H. destruct H as (x & E & H). apply pair_pair in E. destruct E as [_ <-].
  apply in_flat_map in I. destruct I as (c' & _ & I). apply in_map_iff in I. destruct I as (y & E & I). apply pair_pair in E. destruct E as [_ <-].
  unfold regex_automaton. fold Q. rewrite map_length. exact (proj1 (position_in regex_dec y Q (after_Q c' x H y I))).
Qed.

Lemma regex_chars : length (chars_of (regex_automaton r)) <= 128.
Proof.
  replace 128 with (length ascii_chars) by (unfold ascii_chars; rewrite map_length, seq_length; reflexivity). apply NoDup_incl_length; [apply NoDup_nodup|].
  intros c H. unfold chars_of in H. apply nodup_In in H. apply in_flat_map in H. destruct H as (x & X & H). unfold regex_automaton in X. apply in_map_iff in X. destruct X as (y & <- & _).
  cbn [snd] in H. apply in_map_iff in H. destruct H as ([c' q] & E & H). cbn [fst] in E. subst c'. apply in_flat_map in H. destruct H as (c' & I & H). apply in_map_iff in H. destruct H as (z & E & _).
  apply pair_pair in E. destruct E as [<- _]. exact I.
Qed.

Lemma fast_regex : forall s d, ascii s -> exists bound, forall fuel, bound <= fuel ->
  ((matches r s /\ exists ast, parse_with_debug fuel s (fast_rules r) d = Ok ast) \/
   (~ matches r s /\ exists er, parse_with_debug fuel s (fast_rules r) d = Err er /\ e_priority er = Normal)) /\
  parse_calls fuel s (fast_rules r) d <= 260 * (length s + 1).
Proof.
  intros s d As. pose proof regex_closed as C. pose proof (det_closed (regex_automaton r)) as CD.
  destruct (automaton_decides _ CD s d As) as [b H]. exists b. intros fuel L. specialize (H fuel L). fold (fast_rules r) in H.
  rewrite (det_same _ C s), (regex_runs s As) in H. split; [exact H|].
  pose proof (deterministic_fast _ CD (det_deterministic _) s d fuel As) as X. fold (fast_rules r) in X.
  pose proof (det_steps (regex_automaton r)) as S1. pose proof regex_chars as S2.
  assert (NF : parse_with_debug fuel s (fast_rules r) d <> Fuel) by (destruct H as [(_ & t & E)|(_ & er & E & _)]; rewrite E; discriminate).
  specialize (X NF). eapply Nat.le_trans; [exact X|]. apply Nat.mul_le_mono_r. lia.
Qed.

End Left.

(** * What takes long *)

Lemma det_same_all : forall M, closed M -> closed (determinized M) /\ deterministic (determinized M) /\ forall s, runs (determinized M) 0 s <-> runs M 0 s.
Proof. intros M C. split; [exact (det_closed M)|]. split; [exact (det_deterministic M)|exact (det_same M C)]. Qed.

Definition twice_auto : automaton := [(true, [(97%N, 0); (97%N, 0)])].

Lemma twice_run : forall n, exists k, costs (grammar_of (automaton_rules twice_auto)) (ref_rule (st 0)) (many_a_then_b n) OF k /\ 2 ^ n < k.
Proof.
  set (G := grammar_of (automaton_rules twice_auto)).
  assert (E : forall c s, costs G at_end (c :: s) OF 2) by (intros c s; eapply c_not_fail; eapply c_match, peg_dot_ok).
  induction n as [|n (k & R & K)].
  - exists (S (S (2 + (2 + (2 + 0))))). split; [|cbn; lia]. eapply c_rule; [reflexivity|]. apply c_or.
    eapply co_next; [apply c_and, ca_fail, c_fail, peg_lit_fail; discriminate|]. eapply co_next; [apply c_and, ca_fail, c_fail, peg_lit_fail; discriminate|]. eapply co_next; [apply E|constructor].
  - exists (S (S (S (1 + k) + (S (1 + k) + (2 + 0))))). split; [|cbn [Nat.pow]; lia]. eapply c_rule; [reflexivity|]. apply c_or.
    assert (A : costs G (And [lit [97%N]; ref_rule (st 0)]) (many_a_then_b (S n)) OF (S (1 + k))).
    { apply c_and. eapply ca_cons; [eapply c_match; apply (peg_lit_ok G [97%N] (many_a_then_b n))|]. apply ca_fail. exact R. }
    eapply co_next; [exact A|]. eapply co_next; [exact A|]. eapply co_next; [apply E|constructor].
Qed.

Lemma many_ascii : forall n, ascii (many_a_then_b n).
Proof. intro n. apply Forall_app. split; [apply Forall_forall; intros x H; apply repeat_spec in H; subst x; reflexivity|repeat constructor]. Qed.

Lemma twice_slow : forall n d fuel, parse_with_debug fuel (many_a_then_b n) (automaton_rules twice_auto) d <> Fuel ->
  2 ^ n <= parse_calls fuel (many_a_then_b n) (automaton_rules twice_auto) d.
Proof.
  intros n d fuel NF. destruct (twice_run n) as (k & R & K).
  pose proof (parse_calls_run (automaton_rules twice_auto) _ fuel d OF (S k) (automaton_sane _) (many_ascii n) NF) as X.
  assert (S (parse_calls fuel (many_a_then_b n) (automaton_rules twice_auto) d) = S k) by (apply X; [eapply c_rule; [reflexivity|exact R]|discriminate]). lia.
Qed.

Lemma twice_regex_run : forall n, exists k, costs (grammar_of (regex_rules twice_a)) (ref_rule (st 0)) (many_a_then_b n) OF k /\ 2 ^ n < k.
Proof.
  set (G := grammar_of (regex_rules twice_a)).
  assert (E : forall c s, costs G at_end (c :: s) OF 2) by (intros c s; eapply c_not_fail; eapply c_match, peg_dot_ok).
  set (step := And [lit [97%N]; ref_rule (st 0)]).
  assert (GS : G (st 0) = Some (Or [Or [step; step]; at_end])) by reflexivity.
  induction n as [|n (k & R & K)].
  - exists (S (S (S (2 + (2 + 0)) + (2 + 0)))). split; [|cbn; lia]. eapply c_rule; [exact GS|]. apply c_or.
    eapply co_next; [|eapply co_next; [apply E|constructor]]. apply c_or.
    eapply co_next; [apply c_and, ca_fail, c_fail, peg_lit_fail; discriminate|]. eapply co_next; [apply c_and, ca_fail, c_fail, peg_lit_fail; discriminate|]. constructor.
  - exists (S (S (S (S (1 + k) + (S (1 + k) + 0)) + (2 + 0)))). split; [|cbn [Nat.pow]; lia]. eapply c_rule; [exact GS|]. apply c_or.
    assert (A : costs G step (many_a_then_b (S n)) OF (S (1 + k))).
    { apply c_and. eapply ca_cons; [eapply c_match; apply (peg_lit_ok G [97%N] (many_a_then_b n))|]. apply ca_fail. exact R. }
    eapply co_next; [|eapply co_next; [apply E|constructor]]. apply c_or. eapply co_next; [exact A|]. eapply co_next; [exact A|constructor].
Qed.

Lemma twice_regex_slow : forall n d fuel, parse_with_debug fuel (many_a_then_b n) (regex_rules twice_a) d <> Fuel ->
  2 ^ n <= parse_calls fuel (many_a_then_b n) (regex_rules twice_a) d.
Proof.
  intros n d fuel NF. destruct (twice_regex_run n) as (k & R & K).
  pose proof (parse_calls_run (regex_rules twice_a) _ fuel d OF (S k) (regex_sane _) (many_ascii n) NF) as X.
  assert (S (parse_calls fuel (many_a_then_b n) (regex_rules twice_a) d) = S k) by (apply X; [eapply c_rule; [reflexivity|exact R]|discriminate]). lia.
Qed.
