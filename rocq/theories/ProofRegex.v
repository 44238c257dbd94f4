(** Regular expressions as rules. *)
From Coq Require Import Permutation.
From Verif Require Import Base ModelAst ModelParser ModelPeg SpecPeg SpecPos SpecApi SpecReport SpecPower SpecSyntax SpecPegApi SpecText SpecDocs SpecRegex.
From Verif Require Import PegTools ProofParser ProofEngine ProofApi ProofReport ProofText ProofDocs ProofEndToEnd ProofPower Examples.

(** * Normal regexes *)

Lemma nullable_ok : forall r, nullable r = true <-> matches r [].
Proof.
  induction r as [| |c| |r1 IH1 r2 IH2|r1 IH1 r2 IH2|r IH]; cbn [nullable]; split; intro H; try discriminate; try (inversion H; fail); try (constructor; fail); try reflexivity.
  - apply andb_true_iff in H. destruct H as [H1 H2]. change (@nil char) with (@nil char ++ []). constructor; [apply IH1, H1|apply IH2, H2].
  - inversion H as [| | |? ? u v M1 M2 E1 E2| | | |]; subst. apply app_eq_nil in E2. destruct E2 as [-> ->]. apply IH1 in M1. apply IH2 in M2. rewrite M1, M2. reflexivity.
  - apply orb_true_iff in H. destruct H as [H|H]; [apply m_left, IH1, H|apply m_right, IH2, H].
  - apply orb_true_iff. inversion H; subst; [left; apply IH1; assumption|right; apply IH2; assumption].
Qed.

(** Every [Star] repeats something that cannot be empty. *)
Fixpoint proper (r : regex) : Prop :=
  match r with
  | Empty | Eps | Chr _ | Any => True
  | Cat r1 r2 | Alt r1 r2 => proper r1 /\ proper r2
  | Star r1 => proper r1 /\ nullable r1 = false
  end.

Lemma star_mono : forall r r', (forall s, s <> [] -> matches r s -> matches r' s) -> forall s, matches (Star r) s -> matches (Star r') s.
Proof.
  intros r r' H s M. remember (Star r) as e eqn:E. revert E. induction M as [| | | | | | |r0 u v M1 _ M2 IH]; intro E; try discriminate; [constructor|].
  injection E as ->. destruct u as [|c u]; [exact (IH eq_refl)|]. constructor; [apply H; [discriminate|exact M1]|exact (IH eq_refl)].
Qed.

Lemma normal_ok : forall r, (forall s, matches (fst (normal r)) s <-> matches r s) /\ (forall s, matches (snd (normal r)) s <-> matches r s /\ s <> []) /\
  proper (fst (normal r)) /\ proper (snd (normal r)).
Proof.
  induction r as [| |c| |r1 (A1 & B1 & P1 & Q1) r2 (A2 & B2 & P2 & Q2)|r1 (A1 & B1 & P1 & Q1) r2 (A2 & B2 & P2 & Q2)|r (A & B & P & Q)]; cbn [normal fst snd proper].
  - split; [reflexivity|]. split; [|auto]. intro s. split; [intro H; inversion H|intros [H _]; exact H].
  - split; [reflexivity|]. split; [|auto]. intro s. split; [intro H; inversion H|intros [H N]; inversion H; subst; contradiction].
  - split; [reflexivity|]. split; [|auto]. intro s. split; [intro H; split; [exact H|inversion H; discriminate]|intros [H _]; exact H].
  - split; [reflexivity|]. split; [|auto]. intro s. split; [intro H; split; [exact H|inversion H; discriminate]|intros [H _]; exact H].
  - assert (C : forall s, matches (Cat (snd (normal r1)) (fst (normal r2))) s <-> exists u v, s = u ++ v /\ u <> [] /\ matches r1 u /\ matches r2 v).
    { intro s. split.
      - intro H. inversion H as [| | |? ? u v M1 M2| | | |]; subst. apply B1 in M1. apply A2 in M2. exists u, v. tauto.
      - intros (u & v & -> & N & M1 & M2). constructor; [apply B1; auto|apply A2; exact M2]. }
    split; [|split; [|split; [auto|destruct (nullable r1); cbn [proper]; auto]]].
    + intro s. split; intro H; inversion H; subst; (constructor; [apply A1; assumption|apply A2; assumption]).
    + intro s. assert (X : matches (if nullable r1 then Alt (Cat (snd (normal r1)) (fst (normal r2))) (snd (normal r2)) else Cat (snd (normal r1)) (fst (normal r2))) s <->
        (exists u v, s = u ++ v /\ u <> [] /\ matches r1 u /\ matches r2 v) \/ (nullable r1 = true /\ matches r2 s /\ s <> [])).
      { destruct (nullable r1).
        - rewrite <- C, <- B2. split; [intro H; inversion H; subst; auto|]. intros [H|[_ H]]; [apply m_left; exact H|apply m_right; exact H].
        - rewrite C. intuition discriminate. }
      rewrite X. split.
      * intros [(u & v & -> & N & M1 & M2)|(N & M & NE)].
        -- split; [constructor; assumption|]. destruct u; [contradiction|discriminate].
        -- split; [|exact NE]. apply nullable_ok in N. change s with ([] ++ s). constructor; assumption.
      * intros [H NE]. inversion H as [| | |? ? u v M1 M2| | | |]; subst. destruct u as [|c u].
        -- right. split; [apply nullable_ok; exact M1|]. auto.
        -- left. exists (c :: u), v. repeat split; try assumption. discriminate.
  - split; [|split; [|auto]].
    + intro s. split; intro H; inversion H; subst; [apply m_left, A1|apply m_right, A2|apply m_left, A1|apply m_right, A2]; assumption.
    + intro s. split.
      * intro H. inversion H; subst; [match goal with X : matches (snd (normal r1)) s |- _ => apply B1 in X; destruct X end|match goal with X : matches (snd (normal r2)) s |- _ => apply B2 in X; destruct X end];
          (split; [|assumption]); [apply m_left|apply m_right]; assumption.
      * intros [H N]. inversion H; subst; [apply m_left, B1|apply m_right, B2]; auto.
  - assert (NN : nullable (snd (normal r)) = false).
    { destruct (nullable (snd (normal r))) eqn:E; [|reflexivity]. apply nullable_ok, B in E. destruct E as [_ E]. contradiction. }
    assert (S1 : forall s, matches (Star (snd (normal r))) s <-> matches (Star r) s).
    { intro s. split; apply star_mono; intros x N M; [apply B in M; tauto|apply B; auto]. }
    split; [exact S1|]. split; [|auto]. intro s. split.
    + intro H. inversion H as [| | |? ? u v M1 M2| | | |]; subst. apply B in M1. destruct M1 as [M1 N]. apply S1 in M2. split; [constructor; assumption|]. destruct u; [contradiction|discriminate].
    + intros [H N]. remember (Star r) as e eqn:E. revert E N. induction H as [| | | | | | |r0 u v M1 _ M2 IH]; intros E N; try discriminate; [contradiction|].
      injection E as ->. destruct u as [|c u]; [exact (IH S1 eq_refl N)|]. constructor; [apply B; split; [exact M1|discriminate]|]. apply S1. exact M2.
Qed.

(** * What is compiled *)

Section Compiled.
Variable G : str -> option expr.

Definition contains (rs : rules) : Prop := forall n e, In (n, e) rs -> G n = Some e.

Definition takes_all (e : expr) (s : str) : Prop := exists ts, peg G e s (PMatch ts []).
Definition decided_at (e : expr) (s : str) : Prop := peg G e s PFail \/ takes_all e s.

Lemma not_both : forall e s, peg G e s PFail -> ~ takes_all e s.
Proof. intros e s F [ts M]. pose proof (peg_det _ _ _ _ F _ M). discriminate. Qed.

Lemma end_decided : forall s, decided_at at_end s /\ (takes_all at_end s <-> s = []).
Proof.
  intros [|c s].
  - assert (T : takes_all at_end []) by (exists []; apply mk_not, peg_dot_fail). split; [right; exact T|tauto].
  - assert (F : peg G at_end (c :: s) PFail) by (eapply peg_not_fail; apply peg_dot_ok). split; [left; exact F|]. split; [intro T; destruct (not_both _ _ F T)|discriminate].
Qed.

Lemma two_decided : forall a b s, decided_at a s -> (peg G a s PFail -> decided_at b s) -> decided_at (Or [a; b]) s /\ (takes_all (Or [a; b]) s <-> takes_all a s \/ peg G a s PFail /\ takes_all b s).
Proof.
  intros a b s [F|T] H.
  - specialize (H F). assert (X : takes_all (Or [a; b]) s <-> takes_all b s).
    { split; intros [ts M].
      - inversion M; subst; [match goal with Y : peg G a s (PMatch _ _) |- _ => pose proof (peg_det _ _ _ _ F _ Y); discriminate end|].
        match goal with Y : peg G (Or [b]) _ _ |- _ => inversion Y; subst end; [eexists; eassumption|]. match goal with Y : peg G (Or []) _ _ |- _ => inversion Y end.
      - exists ts. apply peg_or_next; [exact F|]. apply mk_or1. exact M. }
    split.
    + destruct H as [Fb|Tb]; [left|right; apply X; exact Tb]. apply peg_or_next; [exact F|]. apply peg_or_next; [exact Fb|constructor].
    + rewrite X. split; [auto|]. intros [T|[_ T]]; [destruct (not_both _ _ F T)|exact T].
  - assert (T' : takes_all (Or [a; b]) s) by (destruct T as [ts M]; exists ts; apply mk_or1; exact M). split; [right; exact T'|tauto].
Qed.

Lemma step_decided : forall (e k : expr) s, (exists c v, s = c :: v /\ peg G e s (PMatch [Val [c]] v) /\ decided_at k v) \/ peg G e s PFail ->
  decided_at (And [e; k]) s /\ (takes_all (And [e; k]) s <-> exists c v, s = c :: v /\ peg G e s (PMatch [Val [c]] v) /\ takes_all k v).
Proof.
  intros e k s [(c & v & -> & M & D)|F].
  - assert (X : takes_all (And [e; k]) (c :: v) <-> takes_all k v).
    { split; intros [ts H].
      - apply inv_and_cons in H. destruct H as (t1 & s1 & t2 & _ & H1 & H). pose proof (peg_det _ _ _ _ M _ H1) as E. injection E as <- <-.
        apply inv_and_cons in H. destruct H as (t3 & s2 & t4 & _ & H2 & H). apply inv_and_nil in H. destruct H as [_ <-]. eexists; exact H2.
      - eexists. eapply mk_and; [exact M|]. eapply mk_and; [exact H|apply peg_and_nil]. }
    split.
    + destruct D as [F|T]; [left|right; apply X; exact T]. eapply mk_and_fail; [exact M|]. apply mk_and_fail1. exact F.
    + rewrite X. split; [eauto|]. intros (c' & v' & E & _ & T). injection E as <- <-. exact T.
  - assert (F' : peg G (And [e; k]) s PFail) by (apply mk_and_fail1; exact F). split; [left; exact F'|].
    split; [intro T; destruct (not_both _ _ F' T)|]. intros (c & v & _ & M & _). pose proof (peg_det _ _ _ _ F _ M). discriminate.
Qed.

Lemma compile_ok : forall r k n e rs m, compile r k n = (e, rs, m) -> contains rs -> proper r -> forall s,
  (forall u v, s = u ++ v -> (nullable r = false -> u <> []) -> decided_at k v) ->
  decided_at e s /\ (takes_all e s <-> exists u v, s = u ++ v /\ matches r u /\ takes_all k v).
Proof.
  induction r as [| |c| |r1 IH1 r2 IH2|r1 IH1 r2 IH2|r IH]; intros k n e rs m C CT P s D; cbn [compile nullable proper] in *.
  - injection C as <- <- <-. assert (F : peg G (And [at_end; dot_]) s PFail).
    { destruct s as [|c s]; [eapply mk_and_fail; [apply mk_not, peg_dot_fail|apply mk_and_fail1, peg_dot_fail]|]. apply mk_and_fail1. eapply peg_not_fail. apply peg_dot_ok. }
    split; [left; exact F|]. split; [intro T; destruct (not_both _ _ F T)|intros (u & v & _ & M & _); inversion M].
  - injection C as <- <- <-. split; [apply (D [] s); [reflexivity|discriminate]|]. split; [intro T; exists [], s; split; [reflexivity|split; [constructor|exact T]]|].
    intros (u & v & -> & M & T). inversion M; subst. exact T.
  - injection C as <- <- <-. destruct (step_decided (lit [c]) k s) as [X Y].
    { destruct s as [|x s]; [right; apply peg_lit_fail; intros rest E; discriminate|]. destruct (N.eq_dec c x) as [->|NE].
      - left. exists x, s. split; [reflexivity|]. split; [apply (peg_lit_ok G [x] s)|]. apply (D [x] s); [reflexivity|discriminate].
      - right. apply peg_lit_fail. intros rest E. injection E as E _. congruence. }
    split; [exact X|]. rewrite Y. split.
    + intros (x & v & -> & M & T). apply inv_lit in M. destruct M as [M _]. injection M as ->. exists [c], v. split; [reflexivity|]. split; [constructor|exact T].
    + intros (u & v & -> & M & T). inversion M; subst. exists c, v. split; [reflexivity|]. split; [apply (peg_lit_ok G [c] v)|exact T].
  - injection C as <- <- <-. destruct (step_decided dot_ k s) as [X Y].
    { destruct s as [|x s]; [right; apply peg_dot_fail|]. left. exists x, s. split; [reflexivity|]. split; [apply peg_dot_ok|]. apply (D [x] s); [reflexivity|discriminate]. }
    split; [exact X|]. rewrite Y. split.
    + intros (x & v & -> & M & T). exists [x], v. split; [reflexivity|]. split; [constructor|exact T].
    + intros (u & v & -> & M & T). inversion M; subst. eexists _, v. split; [reflexivity|]. split; [apply peg_dot_ok|exact T].
  - destruct (compile r2 k n) as [[e2 rs2] m2] eqn:C2. destruct (compile r1 e2 m2) as [[e1 rs1] m1] eqn:C1. injection C as <- <- <-. destruct P as [P1 P2].
    assert (CT1 : contains rs1) by (intros x y H; apply CT, in_or_app; auto). assert (CT2 : contains rs2) by (intros x y H; apply CT, in_or_app; auto).
    assert (K : forall u v, s = u ++ v -> (nullable r1 = false -> u <> []) -> decided_at e2 v /\ (takes_all e2 v <-> exists u' v', v = u' ++ v' /\ matches r2 u' /\ takes_all k v')).
    { intros u v E N. apply (IH2 k n e2 rs2 m2 C2 CT2 P2). intros u' v' -> N'. apply (D (u ++ u') v'); [rewrite <- app_assoc; exact E|].
      intros F X. apply app_eq_nil in X. destruct X as [-> ->]. apply andb_false_iff in F. destruct F as [F|F]; [exact (N F eq_refl)|exact (N' F eq_refl)]. }
    destruct (IH1 e2 m2 e1 rs1 m1 C1 CT1 P1 s) as [X Y]; [intros u v E N; exact (proj1 (K u v E N))|]. split; [exact X|]. rewrite Y. split.
    + intros (u & v & -> & M & T). apply (K u v eq_refl) in T; [|intros F ->; apply nullable_ok in M; congruence]. destruct T as (u' & v' & -> & M' & T).
      exists (u ++ u'), v'. split; [apply app_assoc|]. split; [constructor; assumption|exact T].
    + intros (w & v & -> & M & T). inversion M as [| | |? ? u u' M1 M2| | | |]; subst. exists u, (u' ++ v). split; [rewrite app_assoc; reflexivity|]. split; [exact M1|].
      apply (K u (u' ++ v)); [rewrite app_assoc; reflexivity|intros F ->; apply nullable_ok in M1; congruence|]. eauto.
  - destruct (compile r1 k n) as [[e1 rs1] m1] eqn:C1. destruct (compile r2 k m1) as [[e2 rs2] m2] eqn:C2. injection C as <- <- <-. destruct P as [P1 P2].
    assert (CT1 : contains rs1) by (intros x y H; apply CT, in_or_app; auto). assert (CT2 : contains rs2) by (intros x y H; apply CT, in_or_app; auto).
    destruct (IH1 k n e1 rs1 m1 C1 CT1 P1 s) as [X1 Y1]; [intros u v E N; apply (D u v E); intro F; apply orb_false_iff in F; apply N, F|].
    destruct (IH2 k m1 e2 rs2 m2 C2 CT2 P2 s) as [X2 Y2]; [intros u v E N; apply (D u v E); intro F; apply orb_false_iff in F; apply N, F|].
    destruct (two_decided e1 e2 s X1 (fun _ => X2)) as [X Y]. split; [exact X|]. rewrite Y. split.
    + intros [T|[_ T]]; [apply Y1 in T|apply Y2 in T]; destruct T as (u & v & E & M & T); exists u, v; (split; [exact E|]); (split; [|exact T]); [apply m_left|apply m_right]; exact M.
    + intros (u & v & E & M & T). destruct X1 as [F1|T1]; [|left; exact T1]. right. split; [exact F1|]. inversion M; subst.
      * exfalso. apply (not_both _ _ F1), Y1. eauto 6.
      * apply Y2. eauto 6.
  - destruct (compile r (ref_rule (st n)) (S n)) as [[e1 rs1] m1] eqn:C1. injection C as <- <- <-. destruct P as [P NN].
    assert (CT1 : contains rs1) by (intros x y H; apply CT; right; exact H). assert (E0 : G (st n) = Some (Or [e1; k])) by (apply CT; left; reflexivity).
    assert (D' : forall u v, s = u ++ v -> decided_at k v) by (intros u v E; apply (D u v E); discriminate). clear D.
    remember (length s) as l eqn:L. revert s L D'. induction l as [l IHl] using lt_wf_ind. intros s -> D.
    assert (NE : nullable r = false -> forall u v, s = u ++ v -> u <> [] -> length v < length s).
    { intros _ u v -> N. rewrite app_length. destruct u; [contradiction|cbn; lia]. }
    assert (K : forall u v, s = u ++ v -> u <> [] -> decided_at (ref_rule (st n)) v /\ (takes_all (ref_rule (st n)) v <-> exists u' v', v = u' ++ v' /\ matches (Star r) u' /\ takes_all k v')).
    { intros u v E N. apply (IHl (length v) (NE NN u v E N) v eq_refl). intros u' v' E'. apply (D (u ++ u') v'). rewrite <- app_assoc, <- E'. exact E. }
    destruct (IH _ _ _ _ _ C1 CT1 P s) as [X1 Y1]; [intros u v E N; exact (proj1 (K u v E (N NN)))|].
    destruct (two_decided e1 k s X1 (fun _ => D [] s eq_refl)) as [X Y].
    assert (X' : decided_at (ref_rule (st n)) s /\ (takes_all (ref_rule (st n)) s <-> takes_all (Or [e1; k]) s)).
    { split.
      - destruct X as [F|[ts M]]; [left; eapply mk_rule_fail; eassumption|right; eexists; eapply mk_rule; eassumption].
      - split; intros [ts M].
        + apply inv_rule in M. destruct M as (e & t & E & _ & M). rewrite E0 in E. injection E as <-. eexists; exact M.
        + eexists. eapply mk_rule; eassumption. }
    split; [apply X'|]. rewrite (proj2 X'), Y. split.
    + intros [T|[_ T]].
      * apply Y1 in T. destruct T as (u & v & E & M & T). assert (NU : u <> []) by (intros ->; apply nullable_ok in M; congruence).
        apply (K u v E NU) in T. destruct T as (u' & v' & -> & M' & T). exists (u ++ u'), v'. split; [rewrite <- app_assoc; exact E|]. split; [constructor; assumption|exact T].
      * exists [], s. split; [reflexivity|]. split; [constructor|exact T].
    + intros (w & v & E & M & T). destruct X1 as [F1|T1]; [|left; exact T1]. right. split; [exact F1|]. inversion M as [| | | | | | |? u u' M1 M2]; subst; [exact T|].
      exfalso. apply (not_both _ _ F1), Y1. assert (NU : u <> []) by (intros ->; apply nullable_ok in M1; congruence). exists u, (u' ++ v). split; [rewrite app_assoc; reflexivity|].
      split; [exact M1|]. apply (K u (u' ++ v)); [rewrite app_assoc; reflexivity|exact NU|]. eauto.
Qed.

End Compiled.

(** * The rules *)

Lemma compile_names : forall r k n e rs m, compile r k n = (e, rs, m) ->
  n <= m /\ NoDup (map fst rs) /\ (forall x, In x (map fst rs) -> exists j, n <= j < m /\ x = st j) /\
  (sane k -> sane e /\ Forall (fun p => sane (snd p)) rs) /\
  (ascii_regex r -> expressible k -> expressible e /\ Forall (fun p => expressible (snd p)) rs).
Proof.
  assert (J : forall a b lo mid hi, NoDup (map (@fst str expr) a) -> NoDup (map (@fst str expr) b) -> (forall x, In x (map fst a) -> exists j, mid <= j < hi /\ x = st j) ->
    (forall x, In x (map fst b) -> exists j, lo <= j < mid /\ x = st j) -> NoDup (map fst (a ++ b))).
  { intros a b lo mid hi Na Nb Ia Ib. induction a as [|p a IH]; [exact Nb|]. cbn [map app] in *. inversion Na; subst. constructor.
    - rewrite map_app, in_app_iff. intros [H|H]; [contradiction|]. destruct (Ia (fst p) (or_introl eq_refl)) as (j & Lj & Ej). destruct (Ib _ H) as (i & Li & Ei).
      rewrite Ej in Ei. apply st_inj in Ei. lia.
    - apply IH; [assumption|]. intros x H. apply Ia. right. exact H. }
  assert (RN : forall n, rule_name (st n)).
  { intro n. left. apply dt_one. exists 115%N, (repeat 115%N n). split; [reflexivity|]. split; [right; left; split; discriminate|]. apply Forall_forall. intros x H. apply repeat_spec in H. subst x. left. right. left. split; discriminate. }
  induction r as [| |c| |r1 IH1 r2 IH2|r1 IH1 r2 IH2|r IH]; intros k n e rs m C; cbn [compile ascii_regex] in *.
  - injection C as <- <- <-. split; [lia|]. split; [constructor|]. split; [intros x []|]. split; [intros _; cbn; auto|]. intros _ _. cbn. auto with arith.
  - injection C as <- <- <-. split; [lia|]. split; [constructor|]. split; [intros x []|]. split; auto.
  - injection C as <- <- <-. split; [lia|]. split; [constructor|]. split; [intros x []|]. split; [intros K; cbn; auto|].
    intros A K. split; [|constructor]. cbn [expressible length fold_right lit]. split; [lia|]. split; [|auto]. constructor; [unfold ascii_char in A; lia|constructor].
  - injection C as <- <- <-. split; [lia|]. split; [constructor|]. split; [intros x []|]. split; [intros K; cbn; auto|]. intros _ K. cbn. auto with arith.
  - destruct (compile r2 k n) as [[e2 rs2] m2] eqn:C2. destruct (compile r1 e2 m2) as [[e1 rs1] m1] eqn:C1. injection C as <- <- <-.
    destruct (IH2 _ _ _ _ _ C2) as (L2 & N2 & I2 & S2 & X2). destruct (IH1 _ _ _ _ _ C1) as (L1 & N1 & I1 & S1 & X1). split; [lia|]. split; [exact (J _ _ _ _ _ N1 N2 I1 I2)|]. split; [|split].
    + intros x H. rewrite map_app, in_app_iff in H. destruct H as [H|H]; [apply I1 in H|apply I2 in H]; destruct H as (j & Lj & ->); exists j; (split; [lia|reflexivity]).
    + intro K. destruct (S2 K) as [Y2 Z2]. destruct (S1 Y2) as [Y1 Z1]. split; [exact Y1|]. apply Forall_app. auto.
    + intros [A1 A2] K. destruct (X2 A2 K) as [Y2 Z2]. destruct (X1 A1 Y2) as [Y1 Z1]. split; [exact Y1|]. apply Forall_app. auto.
  - destruct (compile r1 k n) as [[e1 rs1] m1] eqn:C1. destruct (compile r2 k m1) as [[e2 rs2] m2] eqn:C2. injection C as <- <- <-.
    destruct (IH2 _ _ _ _ _ C2) as (L2 & N2 & I2 & S2 & X2). destruct (IH1 _ _ _ _ _ C1) as (L1 & N1 & I1 & S1 & X1). split; [lia|]. split; [|split; [|split]].
    + rewrite map_app. apply (Permutation_NoDup (Permutation_app_comm (map fst rs2) (map fst rs1))). rewrite <- map_app. exact (J _ _ _ _ _ N2 N1 I2 I1).
    + intros x H. rewrite map_app, in_app_iff in H. destruct H as [H|H]; [apply I1 in H|apply I2 in H]; destruct H as (j & Lj & ->); exists j; (split; [lia|reflexivity]).
    + intro K. destruct (S2 K) as [Y2 Z2]. destruct (S1 K) as [Y1 Z1]. split; [cbn; auto|]. apply Forall_app. auto.
    + intros [A1 A2] K. destruct (X2 A2 K) as [Y2 Z2]. destruct (X1 A1 K) as [Y1 Z1]. split; [cbn [expressible length fold_right]; auto with arith|]. apply Forall_app. auto.
  - destruct (compile r (ref_rule (st n)) (S n)) as [[e1 rs1] m1] eqn:C1. injection C as <- <- <-. destruct (IH _ _ _ _ _ C1) as (L1 & N1 & I1 & S1 & X1). split; [lia|]. split; [|split; [|split]].
    + cbn [map fst]. constructor; [|exact N1]. intro H. apply I1 in H. destruct H as (j & Lj & E). apply st_inj in E. lia.
    + intros x [<-|H]; [exists n; split; [lia|reflexivity]|]. apply I1 in H. destruct H as (j & Lj & ->). exists j. split; [lia|reflexivity].
    + intro K. destruct (S1 Logic.I) as [Y1 Z1]. split; [exact Logic.I|]. constructor; [cbn; auto|exact Z1].
    + intros A K. destruct (X1 A (RN n)) as [Y1 Z1]. split; [exact (RN n)|]. constructor; [cbn [snd expressible length fold_right]; auto with arith|exact Z1].
Qed.

Lemma normal_ascii : forall r, ascii_regex r -> ascii_regex (fst (normal r)) /\ ascii_regex (snd (normal r)).
Proof.
  induction r as [| |c| |r1 IH1 r2 IH2|r1 IH1 r2 IH2|r IH]; cbn [normal fst snd ascii_regex]; auto.
  - intros [A1 A2]. destruct (IH1 A1), (IH2 A2). destruct (nullable r1); cbn [ascii_regex]; auto.
  - intros [A1 A2]. destruct (IH1 A1), (IH2 A2). auto.
  - intro A. destruct (IH A). auto.
Qed.

Section Rules.
Variable r : regex.
Let G := grammar_of (regex_rules r).

Lemma rules_shape : exists e rs m, compile (fst (normal r)) at_end 0 = (e, rs, m) /\ regex_rules r = (main, e) :: rs.
Proof. unfold regex_rules. destruct (compile (fst (normal r)) at_end 0) as [[e rs] m]. exists e, rs, m. auto. Qed.

Lemma st_main : forall n, st n <> main.
Proof. intros n E. discriminate E. Qed.

Lemma regex_unique : NoDup (map fst (regex_rules r)).
Proof.
  destruct rules_shape as (e & rs & m & C & ->). destruct (compile_names _ _ _ _ _ _ C) as (_ & N & I & _). cbn [map fst]. constructor; [|exact N].
  intro H. apply I in H. destruct H as (j & _ & E). exact (st_main j (eq_sym E)).
Qed.

Lemma get_in : forall (l : rules) n e, NoDup (map fst l) -> In (n, e) l -> rules_get l n = Some e.
Proof.
  induction l as [|[k x] l IH]; intros n e N H; [destruct H|]. inversion N; subst. cbn [rules_get]. destruct H as [[= -> ->]|H].
  - rewrite str_eqb_refl. reflexivity.
  - destruct (str_eqb k n) eqn:E; [|apply IH; assumption]. apply str_eqb_eq in E. subst k. exfalso. match goal with X : ~ In _ _ |- _ => apply X end. exact (in_map fst _ _ H).
Qed.

Lemma regex_contains : contains G (regex_rules r).
Proof. intros n e H. exact (get_in _ _ _ regex_unique H). Qed.

Lemma regex_sane : sane_rules (regex_rules r).
Proof.
  apply sane_rules_all. destruct rules_shape as (e & rs & m & C & ->). destruct (compile_names _ _ _ _ _ _ C) as (_ & _ & _ & S & _). destruct (S Logic.I) as [S1 S2].
  constructor; [exact S1|exact S2].
Qed.

Lemma regex_main : forall s, (matches r s /\ exists ts, peg_main (regex_rules r) s (PMatch [Rule main ts] [])) \/ (~ matches r s /\ peg_main (regex_rules r) s PFail).
Proof.
  intro s. destruct rules_shape as (e & rs & m & C & E). pose proof regex_contains as CT. destruct (normal_ok r) as (A & _ & P & _).
  assert (E0 : G main = Some e) by (apply CT; rewrite E; left; reflexivity).
  destruct (compile_ok G (fst (normal r)) at_end 0 e rs m C) with (s := s) as [D T]; [intros n x H; apply CT; rewrite E; right; exact H|exact P|intros u v _ _; apply end_decided|].
  assert (T' : takes_all G e s <-> matches r s).
  { rewrite T. split.
    - intros (u & v & -> & M & X). apply end_decided in X. subst v. rewrite app_nil_r. apply A. exact M.
    - intro M. exists s, []. split; [rewrite app_nil_r; reflexivity|]. split; [apply A; exact M|apply end_decided; reflexivity]. }
  destruct D as [F|X].
  - right. split; [intro M; apply T' in M; exact (not_both _ _ _ F M)|]. eapply mk_rule_fail; eassumption.
  - left. split; [apply T'; exact X|]. destruct X as [ts X]. exists ts. eapply mk_rule; eassumption.
Qed.

Lemma regex_decides : forall s d, ascii s -> exists bound, forall fuel, bound <= fuel ->
  (matches r s /\ exists ast, parse_with_debug fuel s (regex_rules r) d = Ok ast) \/
  (~ matches r s /\ exists er, parse_with_debug fuel s (regex_rules r) d = Err er /\ e_priority er = Normal).
Proof.
  intros s d A. pose proof (regex_main s) as X.
  assert (exists p, peg_main (regex_rules r) s p) as MD by (destruct X as [(_ & ts & D)|[_ D]]; eexists; exact D).
  destruct (proj2 (parse_terminates_iff s _ d regex_sane A) MD) as [fuel NF]. exists fuel. intros fuel' L.
  assert (E : parse_with_debug fuel' s (regex_rules r) d <> Fuel) by (destruct (parse_with_debug_mono fuel fuel' s (regex_rules r) d L) as [E|E]; [contradiction|congruence]).
  pose proof (parse_sound fuel' s (regex_rules r) d regex_sane) as H.
  destruct (parse_with_debug fuel' s (regex_rules r) d) as [t|er| |] eqn:R; [| |contradiction|contradiction].
  - left. split; [|exists t; reflexivity]. destruct X as [[M _]|[_ D]]; [exact M|]. destruct H as [_ H]. pose proof (peg_det _ _ _ _ D _ H). discriminate.
  - right. destruct X as [(_ & ts & D)|[N D]].
    + exfalso. destruct (proj2 (parse_accepts_iff s (regex_rules r) d regex_sane A (Rule main ts)) D) as [f' H'].
      pose proof (ProofTable.parse_same _ _ _ _ _ _ _ regex_sane A R H' ltac:(discriminate) ltac:(discriminate)). discriminate.
    + split; [exact N|]. exists er. split; [reflexivity|]. destruct H as [_ H]. destruct (e_priority er); [reflexivity|]. destruct H as (rest & H & _).
      pose proof (peg_det _ _ _ _ D _ H). discriminate.
Qed.

Lemma regex_takes : forall s, takes (regex_rules r) s <-> ascii s /\ matches r s.
Proof.
  intro s. split.
  - intros (f & t & H). assert (As : ascii s). { destruct (Forall_dec ascii_char ascii_char_dec s) as [As|As]; [exact As|]. exfalso. exact (parse_non_ascii f s (regex_rules r) false t As H). }
    split; [exact As|]. destruct (regex_main s) as [[M _]|[_ D]]; [exact M|]. pose proof (parse_sound f s (regex_rules r) false regex_sane) as X. unfold parse in H. rewrite H in X.
    destruct X as [_ X]. pose proof (peg_det _ _ _ _ D _ X). discriminate.
  - intros [As M]. destruct (regex_decides s false As) as [b H]. destruct (H b (Nat.le_refl _)) as [[_ [t X]]|[N _]]; [exists b, t; exact X|contradiction].
Qed.

Lemma regex_savable : ascii_regex r -> savable (regex_rules r).
Proof.
  intro A. destruct rules_shape as (e & rs & m & C & ->). destruct (compile_names _ _ _ _ _ _ C) as (_ & _ & I & _ & X). destruct (X (proj1 (normal_ascii r A)) Logic.I) as [X1 X2].
  assert (W : forall w, w <> [] -> Forall (fun c => 97 <= c /\ c <= 122)%N w -> rule_name w).
  { intros w N F. left. apply dt_one. destruct F as [|c v Cc F]; [contradiction|]. exists c, v. split; [reflexivity|]. split; [right; left; exact Cc|].
    eapply Forall_impl; [|exact F]. intros x Y. left. right. left. exact Y. }
  split; [discriminate|]. constructor; [split; [apply W; [discriminate|repeat constructor; discriminate]|exact X1]|]. rewrite Forall_forall in *. intros [n x] H. split; [|exact (X2 _ H)].
  destruct (I n (in_map fst _ _ H)) as (j & _ & E). cbn [fst] in *. rewrite E. apply W; [discriminate|]. apply Forall_forall. intros y Y. apply repeat_spec in Y. subst y. split; discriminate.
Qed.

End Rules.

(** A rule set and its text accept the same. *)
Lemma saved_accepts : forall m, savable m -> NoDup (map fst m) -> sane_rules m -> forall s t, accepts (saved m) s t <-> exists f, parse f s m = Ok t.
Proof.
  intros m [NE F] U SM s t. destruct (save_load m m NE U (Permutation_refl _) F) as (rs & [_ [f0 R]] & _ & E).
  assert (SR : sane_rules rs) by (intros n e H; apply (SM n e); rewrite <- E; exact H).
  rewrite (accepts_peg (saved m) f0 rs (R f0 (Nat.le_refl _)) SR s t). split.
  - intros [As H]. apply (parse_accepts_iff s m false SM As). exact (peg_ext _ _ E _ _ _ H).
  - intros [f H].
    assert (As : ascii s). { destruct (Forall_dec ascii_char ascii_char_dec s) as [As|As]; [exact As|]. exfalso. exact (parse_non_ascii f s m false t As H). }
    split; [exact As|]. apply (peg_ext (grammar_of m) (grammar_of rs) (fun n => eq_sym (E n))). apply (parse_accepts_iff s m false SM As). exists f. exact H.
Qed.

Lemma regex_text : forall r, ascii_regex r -> forall s, (exists t, accepts (saved (regex_rules r)) s t) <-> ascii s /\ matches r s.
Proof.
  intros r A s. rewrite <- regex_takes. pose proof (saved_accepts _ (regex_savable r A) (regex_unique r) (regex_sane r) s) as X. split.
  - intros [t H]. apply X in H. destruct H as [f H]. exists f, t. exact H.
  - intros (f & t & H). exists t. apply X. exists f. exact H.
Qed.

(** * Symbol by symbol *)

Lemma direct_sound : forall G r s ts rest, peg G (direct r) s (PMatch ts rest) -> exists u, s = u ++ rest /\ matches r u.
Proof.
  intros G. induction r as [| |c| |r1 IH1 r2 IH2|r1 IH1 r2 IH2|r IH]; intros s ts rest H; cbn [direct] in H.
  - apply inv_and_cons in H. destruct H as (t1 & s1 & t2 & _ & X1 & X). pose proof (inv_not _ _ _ _ _ X1) as [_ ->]. apply inv_and_cons in X. destruct X as (t3 & s1 & t4 & _ & X & _).
    apply inv_dot in X. destruct X as (c & -> & _). inversion X1; subst. match goal with X : peg _ _ _ ?r, Y : stops ?r |- _ => inversion X; subst; destruct Y end.
  - apply inv_and_nil in H. destruct H as [_ ->]. exists []. split; [reflexivity|constructor].
  - apply inv_lit in H. destruct H as [_ ->]. exists [c]. split; [reflexivity|constructor].
  - apply inv_dot in H. destruct H as (c & -> & _). exists [c]. split; [reflexivity|constructor].
  - apply inv_and_cons in H. destruct H as (t1 & s1 & t2 & _ & X1 & X). apply inv_and_cons in X. destruct X as (t3 & s2 & t4 & _ & X2 & X). apply inv_and_nil in X. destruct X as [_ ->].
    apply IH1 in X1. destruct X1 as (u & -> & M1). apply IH2 in X2. destruct X2 as (v & -> & M2). exists (u ++ v). split; [apply app_assoc|constructor; assumption].
  - inversion H; subst.
    + match goal with X : peg G (direct r1) _ _ |- _ => apply IH1 in X; destruct X as (u & -> & M) end. exists u. split; [reflexivity|apply m_left; exact M].
    + match goal with X : peg G (Or _) _ _ |- _ => inversion X; subst end; [|match goal with X : peg G (Or []) _ _ |- _ => inversion X end].
      match goal with X : peg G (direct r2) _ (PMatch _ _) |- _ => apply IH2 in X; destruct X as (u & -> & M) end. exists u. split; [reflexivity|apply m_right; exact M].
  - unfold rep0 in H. apply inv_rep0 in H. destruct H as (l & SL & _). revert SL. generalize l. intros l0 SL.
    induction SL as [s0|s0 t s1 l1 r0 X Y Z]; [exists []; split; [reflexivity|constructor]|].
    apply IH in X. destruct X as (u & -> & M). destruct Z as (v & -> & M'). exists (u ++ v). split; [apply app_assoc|constructor; assumption].
Qed.

Definition no_abort (p : presult) : Prop := match p with PAbort _ _ => False | _ => True end.

Lemma prepend_no_abort : forall ts p, no_abort (prepend ts p) <-> no_abort p.
Proof. intros ts [us rest| |m rest]; reflexivity. Qed.

Lemma prepend_not_fail : forall ts p, p <> PFail -> prepend ts p <> PFail.
Proof. intros ts [us rest| |m rest] H; try discriminate. contradiction. Qed.

Lemma rep_never : forall G e, (forall s p, peg G e s p -> p <> PFail /\ no_abort p) -> forall s p, ~ peg G (Repeat e 0 None) s p.
Proof.
  intros G e H s p D. remember (Repeat e 0 None) as x eqn:E. revert E. induction D; intro E; try discriminate.
  - injection E as -> -> ->. exact (IHD2 eq_refl).
  - injection E as -> ->. destruct (H _ _ D) as [X _]. contradiction.
  - injection E as -> -> ->. lia.
  - injection E as -> -> ->. destruct (H _ _ D) as [_ []].
Qed.

Lemma rep_calm : forall G e, (forall s p, peg G e s p -> no_abort p) -> forall s p, peg G (Repeat e 0 None) s p -> p <> PFail /\ no_abort p.
Proof.
  intros G e H s p D. remember (Repeat e 0 None) as x eqn:E. revert E. induction D; intro E; try discriminate.
  - injection E as -> -> ->. destruct (IHD2 eq_refl) as [X Y]. split; [apply prepend_not_fail; exact X|apply prepend_no_abort; exact Y].
  - split; [discriminate|exact Logic.I].
  - injection E as -> -> ->. lia.
  - injection E as -> -> ->. destruct (H _ _ D).
Qed.

Lemma direct_calm : forall G r s p, peg G (direct r) s p -> (nullable r = true -> p <> PFail) /\ no_abort p.
Proof.
  intro G. assert (A2 : forall a b s p, peg G (And [a; b]) s p -> (exists ts s1 q, peg G a s (PMatch ts s1) /\ peg G b s1 q /\ (q = PFail -> p = PFail) /\ (p = PFail -> q = PFail) /\ (no_abort q -> no_abort p)) \/ (peg G a s p /\ stops p)).
  { intros a b s p H. inversion H; subst; [left|right; auto].
    match goal with X : peg G a _ (PMatch ?t ?s1), Y : peg G (And [b]) ?s1 ?q |- _ => exists t, s1; inversion Y; subst end.
    - match goal with X : peg G b _ (PMatch ?u ?v), Y : peg G (And []) _ ?q |- _ => inversion Y; subst; exists (PMatch u v) end. split; [assumption|]. split; [assumption|]. cbn. intuition discriminate.
    - eexists. split; [eassumption|]. split; [eassumption|]. match goal with X : stops ?q |- _ => destruct q; cbn in *; intuition discriminate end. }
  induction r as [| |c| |r1 IH1 r2 IH2|r1 IH1 r2 IH2|r IH]; intros s p H; cbn [direct nullable] in *.
  - split; [discriminate|]. apply A2 in H. destruct H as [(ts & s1 & q & _ & H & _ & _ & X)|[H _]].
    + apply X. inversion H; subst; exact Logic.I.
    + inversion H; subst; exact Logic.I.
  - inversion H; subst. split; [discriminate|exact Logic.I].
  - split; [discriminate|]. inversion H; subst; exact Logic.I.
  - split; [discriminate|]. inversion H; subst; exact Logic.I.
  - apply A2 in H. destruct H as [(ts & s1 & q & H1 & H2 & X & X' & Y)|[H1 S1]].
    + apply IH2 in H2. destruct H2 as [N2 B2]. split; [|exact (Y B2)]. intros N E. apply andb_true_iff in N. exact (N2 (proj2 N) (X' E)).
    + apply IH1 in H1. destruct H1 as [N1 B1]. split; [|exact B1]. intros N. apply andb_true_iff in N. exact (N1 (proj1 N)).
  - inversion H; subst.
    + match goal with X : peg G (direct r1) _ _ |- _ => apply IH1 in X; destruct X as [N1 B1] end. split; [intros _; assumption|exact B1].
    + match goal with X : peg G (direct r1) _ PFail |- _ => apply IH1 in X; destruct X as [N1 B1] end.
      match goal with X : peg G (Or _) _ _ |- _ => inversion X; subst end.
      * match goal with X : peg G (direct r2) _ _ |- _ => apply IH2 in X; destruct X as [N2 B2] end. split; [intros _; assumption|exact B2].
      * match goal with X : peg G (direct r2) _ PFail |- _ => apply IH2 in X; destruct X as [N2 B2] end.
        match goal with X : peg G (Or []) _ _ |- _ => inversion X; subst end. split; [|exact Logic.I]. intro N. apply orb_true_iff in N. destruct N as [N|N]; [exact (N1 N)|exact (N2 N)].
  - apply (rep_calm G (direct r)) in H; [split; [intros _; apply H|apply H]|]. intros s0 p0 X. exact (proj2 (IH _ _ X)).
Qed.

Lemma direct_sane : forall r, sane (direct r).
Proof. induction r; cbn; auto. Qed.

Lemma direct_rules_sane : forall r, sane_rules [(main, direct r)].
Proof. intro r. apply sane_rules_all. constructor; [apply direct_sane|constructor]. Qed.

Lemma direct_takes : forall r s, takes [(main, direct r)] s -> matches r s.
Proof.
  intros r s (f & t & H). pose proof (parse_sound f s _ false (direct_rules_sane r)) as X. unfold parse in H. rewrite H in X. destruct X as [_ X].
  apply inv_rule in X. destruct X as (e & k & E & _ & X). injection E as <-. apply direct_sound in X. destruct X as (u & -> & M). rewrite app_nil_r. exact M.
Qed.

Lemma direct_none : forall r, nullable r = true -> forall s p, ~ peg_main [(main, direct (Star r))] s p.
Proof.
  intros r N s p D. unfold peg_main in D. remember (RuleName main) as x eqn:Ex. destruct D; try discriminate Ex; injection Ex as ->; [|discriminate].
  match goal with X : grammar_of _ main = Some _ |- _ => injection X as <- end.
  match goal with X : peg _ _ _ _ |- _ => revert X; apply rep_never end.
  intros s1 p1 Y. destruct (direct_calm _ _ _ _ Y) as [A B]. split; [exact (A N)|exact B].
Qed.

Lemma direct_hangs : forall r, nullable r = true -> forall s d, ascii s -> forall fuel, parse_with_debug fuel s [(main, direct (Star r))] d = Fuel.
Proof.
  intros r N s d As fuel. destruct (parse_with_debug fuel s [(main, direct (Star r))] d) eqn:R; try reflexivity; exfalso;
    (destruct (proj1 (parse_terminates_iff s _ d (direct_rules_sane (Star r)) As)) as [p D]; [exists fuel; rewrite R; discriminate|exact (direct_none r N s p D)]).
Qed.
