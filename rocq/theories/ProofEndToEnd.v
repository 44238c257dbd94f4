(** From a grammar text to the behaviour of the rules read from it. *)
From Verif Require Import Base ModelAst ModelParser ModelPegRules ModelPeg SpecPeg SpecPos SpecReport SpecPanic SpecApi SpecWf SpecSyntax SpecPegApi.
From Verif Require Import ProofParser ProofEngine ProofSim ProofApi ProofReport ProofPanic ProofWf WfCheck ProofConsume ProofPegInv ProofPegBuild ProofPegMono ProofPegMeaning ProofPegApi.

Section Ext.
Variables G G' : str -> option expr.
Hypothesis E : forall n, G n = G' n.

Lemma peg_ext : forall e s r, peg G e s r -> peg G' e s r.
Proof.
  intros e s r H. induction H; try (econstructor; eassumption).
  - eapply peg_rule; [rewrite <- E; eassumption|assumption].
  - apply peg_rule_missing. rewrite <- E. assumption.
Qed.

Lemma pege_ext_both :
  (forall e s r, pege G e s r -> pege G' e s r) /\ (forall es s o r, choice G es s o r -> choice G' es s o r).
Proof.
  apply pege_choice_ind; intros; try (econstructor; eassumption).
  - eapply ee_rule; [rewrite <- E; eassumption|assumption].
  - apply ee_rule_missing. rewrite <- E. assumption.
Qed.

Lemma trips_ext_g : forall b e s, trips G b e s -> trips G' b e s.
Proof.
  destruct pege_ext_both as [X _]. intros b e s H. induction H.
  - eapply tr_atom_fail; eauto.
  - eapply tr_atom_abort; eauto.
  - eapply tr_and_head; eauto.
  - eapply tr_and_tail; eauto.
  - eapply tr_or_none; eauto.
  - eapply tr_or_head; eauto.
  - eapply tr_or_tail; eauto.
  - eapply tr_not_inside; eauto.
  - eapply tr_not; eauto.
  - eapply tr_rep_head; eauto.
  - eapply tr_rep_tail; eauto.
  - eapply tr_rule; [rewrite <- E; eassumption|eauto].
  - eapply tr_missing; [rewrite <- E; eassumption|eauto].
Qed.

Lemma empty_ext : forall e, may_be_empty G e -> may_be_empty G' e.
Proof.
  intros e H. induction H; try (econstructor; eassumption).
  eapply me_rule; [rewrite <- E; eassumption|assumption].
Qed.
End Ext.

Lemma parses_ext : forall G G' s d o, (forall n, G n = G' n) -> parses G s d o -> parses G' s d o.
Proof.
  intros G G' s d o E H. destruct H as [T|r o N D A].
  - apply pa_trip. exact (trips_ext_g G G' E _ _ _ T).
  - eapply pa_answer; [|exact (proj1 (pege_ext_both G G' E) _ _ _ D)|exact A].
    intro T. apply N. apply (trips_ext_g G' G); [intro n; symmetry; apply E|exact T].
Qed.

Lemma calls_ext : forall G G' e n, (forall n, G n = G' n) -> calls_first G e n -> calls_first G' e n.
Proof.
  intros G G' e n E H. induction H; try (econstructor; eassumption).
  eapply cf_and_next; [exact (empty_ext G G' E _ H)|assumption].
Qed.

Lemma wf_ext : forall G G', (forall n, G n = G' n) -> well_formed G -> well_formed G'.
Proof.
  intros G G' E [L N]. assert (E' : forall n, G' n = G n) by (intro n; symmetry; apply E). split.
  - intros n H. apply (L n). revert H. generalize n at 2 4. intros m H. induction H as [x y [H1 (e & H2 & H3)]|x y z H1 IH1 H2 IH2].
    + apply t_step. split; [rewrite E; exact H1|]. exists e. split; [rewrite E; exact H2|exact (calls_ext G' G e y E' H3)].
    + eapply t_trans; eassumption.
  - intros n e x mn mx H O U M. rewrite <- E in H. apply (N n e x mn mx H O U). exact (empty_ext G' G E' _ M).
Qed.

(* ------------------------------------------------------------------------------------------- *)

Lemma read_rules : forall g l f rs, grammar_text g l -> rules_from_peg f g = Ok rs -> rs = built l.
Proof.
  intros g l f rs GT H. destruct (rules_from_peg_ok g f rs H) as (_ & l' & G' & ->). exact (one_meaning g l' l G' GT).
Qed.

Lemma built_sane : forall g l, ascii g -> grammar_text g l -> sane_rules (built l).
Proof.
  intros g l A GT k e E. rewrite (proj2 (built_env l)) in E. apply plain_sane. exact (proj2 (bindings_plain g l GT k e E)).
Qed.

Lemma text_behaviour : forall g l f rs, grammar_text g l -> rules_from_peg f g = Ok rs ->
  forall s d o, o <> Fuel -> ((exists fuel, parse_with_debug fuel s rs d = o) <-> parses (bindings l) s d o).
Proof.
  intros g l f rs GT H s d o N. pose proof (rules_from_peg_ok g f rs H) as (A & _). rewrite (read_rules g l f rs GT H).
  rewrite (parses_iff_sane s (built l) d o (built_sane g l A GT) N).
  split; apply parses_ext; intro n; [|symmetry]; apply (proj2 (built_env l)).
Qed.

Lemma text_language : forall g l s, ascii g -> grammar_text g l -> ascii s ->
  ((exists f rs t, rules_from_peg f g = Ok rs /\ parse f s rs = Ok t) <->
   exists e trees, bindings l main = Some e /\ peg (bindings l) e s (PMatch trees [])).
Proof.
  intros g l s A GT AS. pose proof (built_sane g l A GT) as SR. pose proof (proj2 (built_env l)) as B.
  pose proof (parse_accepts s (built l) SR AS) as P. split.
  - intros (f & rs & t & H & Q). rewrite (read_rules g l f rs GT H) in Q.
    destruct (proj1 P) as (e & ts & E & D); [exists f, t; exact Q|]. exists e, ts. split; [rewrite <- B; exact E|].
    apply (peg_ext (grammar_of (built l)) (bindings l)); [exact B|exact D].
  - intros (e & ts & E & D). destruct (proj2 P) as (f & t & Q).
    { exists e, ts. split; [rewrite B; exact E|]. apply (peg_ext (bindings l) (grammar_of (built l))); [intro n; symmetry; apply B|exact D]. }
    destruct (reads g l A GT) as [_ [f0 F0]]. exists (Nat.max f f0), (built l), t. split; [apply F0; lia|].
    rewrite <- Q. apply parse_mono; [lia|congruence].
Qed.

Lemma text_tree : forall g l f rs s f' t, grammar_text g l -> rules_from_peg f g = Ok rs -> parse f' s rs = Ok t ->
  leaves t = s /\ exists e kids, bindings l main = Some e /\ t = Rule main kids /\ peg (bindings l) e s (PMatch kids []).
Proof.
  intros g l f rs s f' t GT H Q. pose proof (rules_from_peg_ok g f rs H) as (A & _). pose proof (read_rules g l f rs GT H) as ->.
  pose proof (built_sane g l A GT) as SR. pose proof (proj2 (built_env l)) as B. split.
  - apply (parse_leaves f' s (built l) t); [|exact Q]. intros k e E. rewrite B in E. apply plain_no_eof. exact (proj2 (bindings_plain g l GT k e E)).
  - destruct (parse_tree f' s (built l) t SR Q) as (e & kids & E & -> & D & _). exists e, kids. split; [rewrite <- B; exact E|].
    split; [reflexivity|]. apply (peg_ext (grammar_of (built l)) (bindings l)); [exact B|exact D].
Qed.

Lemma text_total : forall g l s, ascii g -> grammar_text g l -> well_formed (bindings l) -> ascii s ->
  exists f rs, rules_from_peg f g = Ok rs /\ ((exists t, parse f s rs = Ok t) \/ exists er, parse f s rs = Err er).
Proof.
  intros g l s A GT W AS. pose proof (proj2 (built_env l)) as B. destruct (reads g l A GT) as [_ [f0 F0]].
  pose (b := depth_factor (built l) * (length s + 1)). exists (Nat.max f0 b), (built l). split; [apply F0; lia|].
  assert (W' : well_formed (grammar_of (built l))) by (apply (wf_ext (bindings l)); [intro n; symmetry; apply B|exact W]).
  assert (NF : parse (Nat.max f0 b) s (built l) <> Fuel) by (apply parse_bound; [exact W'|apply Nat.le_max_r]).
  pose proof (parse_no_panic (Nat.max f0 b) s (built l) false AS) as NP. unfold parse in *.
  destruct (parse_with_debug (Nat.max f0 b) s (built l) false); [left|right| |]; eauto; contradiction.
Qed.
