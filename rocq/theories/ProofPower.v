(** Finite automata, combinations of parsers, and three equal numbers. *)
From Verif Require Import Base ModelAst ModelParser SpecPeg SpecPos SpecApi SpecAst SpecLang SpecWf SpecPower SpecTable.
From Verif Require Import PegTools ProofParser ProofEngine ProofApi ProofRefactor ProofReport ProofWf WfCheck ProofLang ProofIdioms ProofAst ProofTable Examples.

(** * Finite automata *)

Lemma st_inj : forall j k, st j = st k -> j = k.
Proof. intros j k E. apply (f_equal (@length _)) in E. unfold st in E. rewrite !repeat_length in E. lia. Qed.

Lemma neq_eqb : forall a b, a <> b -> str_eqb a b = false.
Proof. intros a b N. destruct (str_eqb a b) eqn:E; [|reflexivity]. apply str_eqb_eq in E. contradiction. Qed.

Lemma state_get : forall M k q, rules_get (state_rules k M) (st (k + q)) = option_map state_expr (nth_error M q).
Proof.
  induction M as [|x M IH]; intros k q; [destruct q; reflexivity|]. cbn [state_rules rules_get]. destruct q as [|q].
  - rewrite Nat.add_0_r, (proj2 (str_eqb_eq _ _) eq_refl). reflexivity.
  - rewrite neq_eqb by (intro E; apply st_inj in E; lia). rewrite Nat.add_succ_r. exact (IH (S k) q).
Qed.

Section Automaton.
Variable M : automaton.
Hypothesis CL : closed M.
Let G := grammar_of (automaton_rules M).

Lemma G_state : forall q, G (st q) = option_map state_expr (nth_error M q).
Proof.
  intro q. unfold G, grammar_of, automaton_rules. cbn [rules_get]. rewrite neq_eqb by (intro E; apply (f_equal (@hd_error _)) in E; discriminate).
  exact (state_get M 0 q).
Qed.

Lemma end_ok : peg G at_end [] (PMatch [] []).
Proof. apply (peg_not_ok G dot_ [] PFail); [apply peg_dot_fail|exact Logic.I]. Qed.

Lemma end_fail : forall c s, peg G at_end (c :: s) PFail.
Proof. intros c s. exact (peg_not_fail G dot_ (c :: s) _ _ (peg_dot_ok G c s)). Qed.

Lemma runs_first : forall q s path, first_run M q s path -> runs M q s.
Proof. intros q s path F. induction F as [|q a before c q' after s path E _ _ IH]; [econstructor; eassumption|]. eapply runs_step; [eassumption| |exact IH]. apply in_or_app. right. left. reflexivity. Qed.

Definition decided (q : nat) (s : str) : Prop :=
  (exists path, first_run M q s path /\ peg G (RuleName (st q)) s (PMatch [run_tree q s path] [])) \/
  (~ runs M q s /\ peg G (RuleName (st q)) s PFail).

Lemma skip : forall l tl s, (forall c q s', s = c :: s' -> In (c, q) l -> peg G (RuleName (st q)) s' PFail) -> forall r,
  peg G (Or tl) s r -> peg G (Or (map (fun p => And [lit [fst p]; ref_rule (st (snd p))]) l ++ tl)) s r.
Proof.
  induction l as [|[c q] l IH]; intros tl s H r D; [exact D|]. cbn [map app fst snd]. apply peg_or_next.
  - destruct (starts_dec [c] s) as [[s' ->]|NS].
    + refine (peg_and_cons G _ _ _ [Val [c]] s' PFail (peg_lit_ok G [c] s') _). apply peg_and_stop; [|exact Logic.I]. apply (H c q s' eq_refl). left. reflexivity.
    + apply peg_and_stop; [apply peg_lit_fail; exact NS|exact Logic.I].
  - apply IH; [|exact D]. intros c' q' s' E IN. apply (H c' q' s' E). right. exact IN.
Qed.

Lemma all_decided : forall s q, q < length M -> decided q s.
Proof.
  induction s as [|c s IH]; intros q L.
  - destruct (nth_error M q) as [[a steps]|] eqn:E; [|apply nth_error_None in E; lia]. pose proof (G_state q) as GQ. rewrite E in GQ. cbn [option_map] in GQ.
    destruct a.
    + left. exists []. split; [econstructor; exact E|]. refine (peg_rule G (st q) _ [] (PMatch [] []) GQ _). apply skip; [discriminate|]. cbn [fst]. apply peg_or_first; [exact end_ok|discriminate].
    + right. split; [intro R; inversion R; congruence|]. refine (peg_rule G (st q) _ [] PFail GQ _). apply skip; [discriminate|]. constructor.
  - destruct (nth_error M q) as [[a steps]|] eqn:E; [|apply nth_error_None in E; lia]. pose proof (G_state q) as GQ. rewrite E in GQ. cbn [option_map] in GQ.
    assert (LT : forall q', In (c, q') steps -> q' < length M) by (intros q' IN; exact (proj2 CL a steps c q' (nth_error_In _ _ E) IN)).
    assert (SPLIT : forall l, (forall q', In (c, q') l -> q' < length M) ->
      (exists before q' after path, l = before ++ (c, q') :: after /\ (forall q'', In (c, q'') before -> ~ runs M q'' s /\ peg G (RuleName (st q'')) s PFail) /\
         first_run M q' s path /\ peg G (RuleName (st q')) s (PMatch [run_tree q' s path] [])) \/
      (forall q', In (c, q') l -> ~ runs M q' s /\ peg G (RuleName (st q')) s PFail)).
    { induction l as [|[d q'] l IHl]; intro B; [right; intros q' []|].
      destruct (IHl (fun q'' IN => B q'' (or_intror IN))) as [(before & q1 & after & path & -> & NB & F & D)|N].
      - destruct (N.eq_dec d c) as [->|X].
        + destruct (IH q' (B q' (or_introl eq_refl))) as [(p' & F' & D')|ND].
          * left. exists [], q', (before ++ (c, q1) :: after), p'. split; [reflexivity|]. split; [intros q'' []|]. split; assumption.
          * left. exists ((c, q') :: before), q1, after, path. split; [reflexivity|]. split; [|split; assumption]. intros q'' [Y|IN]; [injection Y as <-; exact ND|exact (NB q'' IN)].
        + left. exists ((d, q') :: before), q1, after, path. split; [reflexivity|]. split; [|split; assumption]. intros q'' [Y|IN]; [injection Y as Y _; contradiction|exact (NB q'' IN)].
      - destruct (N.eq_dec d c) as [->|X].
        + destruct (IH q' (B q' (or_introl eq_refl))) as [(p' & F' & D')|ND].
          * left. exists [], q', l, p'. split; [reflexivity|]. split; [intros q'' []|]. split; assumption.
          * right. intros q'' [Y|IN]; [injection Y as <-; exact ND|exact (N q'' IN)].
        + right. intros q'' [Y|IN]; [injection Y as Y _; contradiction|exact (N q'' IN)]. }
    destruct (SPLIT steps LT) as [(before & q' & after & path & -> & NB & F & D)|N].
    + left. exists (q' :: path). split; [eapply first_step; [exact E|intros q'' IN; apply NB, IN|exact F]|].
      refine (peg_rule G (st q) _ (c :: s) (PMatch [Val [c]; run_tree q' s path] []) GQ _). unfold state_expr. cbn [fst snd]. rewrite map_app, <- app_assoc. apply skip.
      * intros d q'' s' Y IN. injection Y as <- <-. apply NB, IN.
      * cbn [map app fst snd]. apply peg_or_first; [|discriminate].
        exact (peg_and_cons G _ _ _ [Val [c]] s (PMatch [run_tree q' s path] []) (peg_lit_ok G [c] s) (peg_and_cons G _ [] _ [_] _ (PMatch [] []) D (peg_and_nil G []))).
    + right. split.
      * intro R. inversion R as [|? a' steps' ? q' ? E' IN R']; subst. rewrite E in E'. injection E' as <- <-. exact (proj1 (N q' IN) R').
      * refine (peg_rule G (st q) _ (c :: s) PFail GQ _). unfold state_expr. cbn [fst snd]. apply skip; [intros d q'' s' Y IN; injection Y as <- <-; apply N, IN|].
        destruct a; [apply peg_or_next; [apply end_fail|constructor]|constructor].
Qed.

Lemma state_sane : forall l k n e, rules_get (state_rules k l) n = Some e -> sane e.
Proof.
  induction l as [|[a steps] l IH]; intros k n e; [discriminate|]. cbn [state_rules rules_get]. destruct (str_eqb _ n); [|apply IH].
  intros [= <-]. unfold state_expr. cbn [sane fst snd]. induction steps as [|p steps IHs]; [destruct a; cbn; auto|]. cbn [map app fold_right]. split; [cbn; auto|exact IHs].
Qed.

Lemma automaton_sane : sane_rules (automaton_rules M).
Proof. intros n e. unfold automaton_rules. cbn [rules_get]. destruct (str_eqb main n); [intros [= <-]; exact Logic.I|apply state_sane]. Qed.

Lemma automaton_main : forall s p, peg G (RuleName (st 0)) s p -> peg_main (automaton_rules M) s (wrap main p).
Proof. intros s p D. exact (peg_rule G main (RuleName (st 0)) s p eq_refl D). Qed.

Lemma first_run_det : forall q s p, first_run M q s p -> forall p', first_run M q s p' -> p = p'.
Proof.
  intros q s p F. induction F as [|q a before c q' after s path E NB F IH]; intros p' F'; [inversion F'; reflexivity|].
  inversion F' as [|? a' before' ? q1 after' ? path' E' NB' F1]; subst. rewrite E in E'. injection E' as <- E'.
  assert (q' = q1) as <-.
  { pose proof (runs_first _ _ _ F) as R. pose proof (runs_first _ _ _ F1) as R1. clear - E' NB NB' R R1. revert before' E' NB'. induction before as [|p before IH]; intros [|p' before'] E NB'.
    - injection E as ->. reflexivity.
    - injection E as <- _. exfalso. exact (NB' q' (or_introl eq_refl) R).
    - injection E as -> _. exfalso. exact (NB q1 (or_introl eq_refl) R1).
    - injection E as -> E. apply (IH (fun q'' IN => NB q'' (or_intror IN)) before' E). intros q'' IN. apply NB'. right. exact IN. }
  f_equal. exact (IH _ F1).
Qed.

Lemma automaton_accepts : forall s d, ascii s -> forall ast, (exists fuel, parse_with_debug fuel s (automaton_rules M) d = Ok ast) <->
  exists path, first_run M 0 s path /\ ast = Rule main [run_tree 0 s path].
Proof.
  intros s d A ast. rewrite (parse_accepts_iff s _ d automaton_sane A ast). split.
  - intro D. destruct (all_decided s 0 (proj1 CL)) as [(path & F & D')|[_ D']]; pose proof (peg_det _ _ _ _ D _ (automaton_main s _ D')) as E; [|discriminate].
    cbn [wrap] in E. injection E as ->. exists path. split; [exact F|reflexivity].
  - intros (path & F & ->). destruct (all_decided s 0 (proj1 CL)) as [(path' & F' & D')|[N _]]; [|exfalso; exact (N (runs_first _ _ _ F))].
    rewrite (first_run_det _ _ _ F _ F'). exact (automaton_main s _ D').
Qed.

Lemma automaton_decides : forall s d, ascii s -> exists bound, forall fuel, bound <= fuel ->
  (runs M 0 s /\ exists ast, parse_with_debug fuel s (automaton_rules M) d = Ok ast) \/
  (~ runs M 0 s /\ exists er, parse_with_debug fuel s (automaton_rules M) d = Err er /\ e_priority er = Normal).
Proof.
  intros s d A. pose proof (all_decided s 0 (proj1 CL)) as X.
  assert (exists p, peg G (RuleName (st 0)) s p /\ match p with PAbort _ _ => False | _ => True end) as (p & D & NA).
  { destruct X as [(path & _ & D)|[_ D]]; eexists; (split; [exact D|exact Logic.I]). }
  pose proof (automaton_main s p D) as MD.
  destruct (proj2 (parse_terminates_iff s _ d automaton_sane A) (ex_intro _ _ MD)) as [fuel NF]. exists fuel. intros fuel' L.
  assert (E : parse_with_debug fuel' s (automaton_rules M) d <> Fuel) by (destruct (parse_with_debug_mono fuel fuel' s (automaton_rules M) d L) as [E|E]; [contradiction|congruence]).
  pose proof (parse_sound fuel' s (automaton_rules M) d automaton_sane) as H.
  destruct (parse_with_debug fuel' s (automaton_rules M) d) as [t|er| |] eqn:R; [| |contradiction|contradiction].
  - left. split; [|exists t; reflexivity]. destruct (proj1 (automaton_accepts s d A t) (ex_intro _ _ R)) as (path & F & _). exact (runs_first _ _ _ F).
  - right. destruct X as [(path & F & D')|[N _]].
    + exfalso. destruct (proj2 (automaton_accepts s d A (Rule main [run_tree 0 s path]))) as [f' H']; [exists path; split; [exact F|reflexivity]|].
      pose proof (ProofTable.parse_same _ _ _ _ _ _ _ automaton_sane A R H' ltac:(discriminate) ltac:(discriminate)). discriminate.
    + split; [exact N|]. exists er. split; [reflexivity|]. destruct H as [_ H]. destruct (e_priority er); [reflexivity|]. destruct H as (rest & H & _).
      pose proof (peg_det _ _ _ _ MD _ H) as Q. destruct p; [discriminate|discriminate|contradiction].
Qed.

Lemma runs_have_first : forall q s, q < length M -> (runs M q s <-> exists path, first_run M q s path).
Proof.
  intros q s L. split; [|intros [path F]; exact (runs_first _ _ _ F)]. intro R. destruct (all_decided s q L) as [(path & F & _)|[N _]]; [exists path; exact F|contradiction].
Qed.

End Automaton.

Lemma first_run_length : forall M q s path, first_run M q s path -> length path = length s.
Proof. intros M q s path F. induction F as [|q a before c q' after s path E _ _ IH]; [reflexivity|]. cbn [length]. congruence. Qed.

Lemma run_tree_inj : forall s q path path', length path = length s -> length path' = length s -> run_tree q s path = run_tree q s path' -> path = path'.
Proof.
  induction s as [|c s IH]; intros q [|p path] [|p' path'] L L' E; try discriminate; [reflexivity|]. cbn [run_tree length] in *.
  assert (p = p') as <- by (apply st_inj; destruct s, path, path'; cbn [run_tree] in E; injection E; intros; congruence).
  f_equal. injection E as E. apply (IH p); [congruence|congruence|exact E].
Qed.

(** * Combinations *)

Lemma no_ref_and : forall n e es, ~ has_ref n (And (e :: es)) -> ~ has_ref n e /\ ~ has_ref n (And es).
Proof. intros n e es H. split; intro R; apply H; [exact (hr_and n e _ (in_eq _ _) R)|]. inversion R; subst. eapply hr_and; [right; eassumption|assumption]. Qed.
Lemma no_ref_or : forall n e es, ~ has_ref n (Or (e :: es)) -> ~ has_ref n e /\ ~ has_ref n (Or es).
Proof. intros n e es H. split; intro R; apply H; [exact (hr_or n e _ (in_eq _ _) R)|]. inversion R; subst. eapply hr_or; [right; eassumption|assumption]. Qed.
Lemma no_ref_not : forall n e, ~ has_ref n (Not e) -> ~ has_ref n e.
Proof. intros n e H R. apply H. constructor. exact R. Qed.
Lemma no_ref_rep : forall n e mn mx, ~ has_ref n (Repeat e mn mx) -> ~ has_ref n e.
Proof. intros n e mn mx H R. apply H. constructor. exact R. Qed.

Lemma peg_agree : forall G G' : str -> option expr, (forall n, n <> main -> G n = G' n) -> (forall n e, n <> main -> G n = Some e -> ~ has_ref main e) ->
  forall e s r, peg G e s r -> ~ has_ref main e -> peg G' e s r.
Proof.
  intros G G' AG NR e s r H. induction H; intro NM.
  - apply peg_lit_ok.
  - apply peg_lit_fail. assumption.
  - apply peg_class_ok. assumption.
  - apply peg_class_fail. assumption.
  - apply peg_dot_ok.
  - apply peg_dot_fail.
  - apply peg_eof_ok.
  - apply peg_eof_fail.
  - apply peg_error.
  - apply peg_and_nil.
  - apply no_ref_and in NM. eapply peg_and_cons; [apply IHpeg1, NM|apply IHpeg2, NM].
  - apply no_ref_and in NM. apply peg_and_stop; [apply IHpeg, NM|assumption].
  - apply peg_or_nil.
  - apply no_ref_or in NM. apply peg_or_first; [apply IHpeg, NM|assumption].
  - apply no_ref_or in NM. apply peg_or_next; [apply IHpeg1, NM|apply IHpeg2, NM].
  - eapply peg_not_fail. apply IHpeg, no_ref_not, NM.
  - eapply peg_not_ok; [apply IHpeg, no_ref_not, NM|assumption].
  - apply peg_rep_full.
  - eapply peg_rep_more; [assumption|apply IHpeg1, (no_ref_rep _ _ _ _ NM)|apply IHpeg2; intro R; inversion R; subst; exact (no_ref_rep _ _ _ _ NM ltac:(assumption))].
  - apply peg_rep_done; [assumption|apply IHpeg, (no_ref_rep _ _ _ _ NM)].
  - apply peg_rep_short; [assumption|assumption|apply IHpeg, (no_ref_rep _ _ _ _ NM)].
  - apply peg_rep_abort; [assumption|apply IHpeg, (no_ref_rep _ _ _ _ NM)].
  - assert (X : n <> main) by (intros ->; apply NM; constructor). eapply peg_rule; [rewrite <- AG; eassumption|]. apply IHpeg. exact (NR _ _ X H).
  - assert (X : n <> main) by (intros ->; apply NM; constructor). apply peg_rule_missing. rewrite <- AG; assumption.
Qed.

Section Combine.
Variable rs : rules.
Variable e0 : expr.
Hypothesis SR : sane_rules rs.

Lemma get_main : rules_get (with_main rs e0) main = Some e0.
Proof. apply get_insert_same. Qed.
Lemma get_other : forall n, n <> main -> rules_get (with_main rs e0) n = rules_get rs n.
Proof. intros n N. apply get_insert_other. congruence. Qed.
Lemma with_sane : sane e0 -> sane_rules (with_main rs e0).
Proof.
  intros S0 n e. destruct (list_eq_dec N.eq_dec n main) as [->|X]; [rewrite get_main; intros [= <-]; exact S0|rewrite get_other by exact X; apply SR].
Qed.
End Combine.

Section Boolean.
Variable rs : rules.
Variables a b : expr.
Variable s : str.
Hypothesis SR : sane_rules rs.
Hypothesis SA : sane a.
Hypothesis SB : sane b.
Hypothesis MU : main_unused rs [a; b].
Hypothesis AS : ascii s.

Let GX (x : expr) := grammar_of (with_main rs x).

Lemma move : forall x y e r, ~ has_ref main e -> peg (GX x) e s r -> peg (GX y) e s r.
Proof.
  intros x y e r N D. refine (peg_agree (GX x) (GX y) _ _ e s r D N).
  - intros n X. unfold GX, grammar_of. rewrite !get_other by exact X. reflexivity.
  - intros n e' X. unfold GX, grammar_of. rewrite get_other by exact X. apply (proj1 MU). exact X.
Qed.

(** What parsing with [e] as main gives, in terms of [e] under any other main. *)
Lemma with_ok : forall x e, sane e -> ~ has_ref main e -> forall ast,
  (exists fuel, parse fuel s (with_main rs e) = Ok ast) <-> exists ts, ast = Rule main ts /\ peg (GX x) e s (PMatch ts []).
Proof.
  intros x e SE N ast. rewrite (parse_accepts_iff s _ false (with_sane rs e SR SE) AS ast). split.
  - intro D. destruct (peg_main_shape _ _ _ _ D) as (e' & ts & E & Y & D'). rewrite get_main in E. injection E as <-. injection Y as ->.
    exists ts. split; [reflexivity|]. exact (move e x e _ N D').
  - intros (ts & -> & D). exact (peg_rule (GX e) main e s (PMatch ts []) (get_main rs e) (move x e e _ N D)).
Qed.

Lemma with_accepts : forall x e, sane e -> ~ has_ref main e -> takes (with_main rs e) s <-> exists ts, peg (GX x) e s (PMatch ts []).
Proof.
  intros x e SE N. split.
  - intros (fuel & ast & P). destruct (proj1 (with_ok x e SE N ast) (ex_intro _ _ P)) as (ts & _ & D). exists ts. exact D.
  - intros (ts & D). destruct (proj2 (with_ok x e SE N (Rule main ts))) as [fuel P]; [exists ts; split; [reflexivity|exact D]|]. exists fuel. eexists. exact P.
Qed.

Lemma with_finishes : forall x e, sane e -> ~ has_ref main e -> finishes (with_main rs e) s <-> exists r, peg (GX x) e s r.
Proof.
  intros x e SE N. unfold finishes. rewrite (parse_terminates_iff s _ false (with_sane rs e SR SE) AS). split.
  - intros [p D]. unfold peg_main in D. inversion D as [| | | | | | | | | | | | | | | | | | | | | |n e' s' r E D'|n s' E]; subst; unfold grammar_of in E; rewrite get_main in E.
    + injection E as <-. exists r. exact (move e x e _ N D').
    + discriminate.
  - intros [r D]. eexists. exact (peg_rule (GX e) main e s r (get_main rs e) (move x e e _ N D)).
Qed.

Lemma NA : ~ has_ref main a.
Proof. destruct MU as [_ F]. inversion F; assumption. Qed.
Lemma NB : ~ has_ref main b.
Proof. destruct MU as [_ F]. inversion F as [|? ? _ F']; subst. inversion F'; assumption. Qed.

Lemma whole_ref : forall e, ~ has_ref main e -> ~ has_ref main (whole e).
Proof. intros e N R. inversion R as [|? ? IN R'| | |]; subst. destruct IN as [<-|[<-|[]]]; [contradiction|]. inversion R' as [| | |? R''|]; subst. inversion R''. Qed.

Lemma whole_yes : forall G ts, peg G a s (PMatch ts []) -> peg G (whole a) s (PMatch ts []).
Proof.
  intros G ts D. pose proof (peg_and_cons G a [at_end] s ts [] (PMatch [] []) D) as X. cbn [prepend] in X. rewrite app_nil_r in X. apply X.
  refine (peg_and_cons G at_end [] [] [] [] (PMatch [] []) _ (peg_and_nil G [])). apply (peg_not_ok G dot_ [] PFail); [apply peg_dot_fail|exact Logic.I].
Qed.

Lemma whole_no : forall G r, peg G a s r -> (forall ts, r <> PMatch ts []) -> exists r', peg G (whole a) s r' /\ stops r'.
Proof.
  intros G r D N. destruct r as [ts [|c rest]| |m rest]; [exfalso; exact (N ts eq_refl)| | |].
  - exists PFail. split; [|exact Logic.I]. refine (peg_and_cons G a [at_end] s ts _ PFail D _). apply peg_and_stop; [|exact Logic.I]. exact (peg_not_fail G dot_ _ _ _ (peg_dot_ok G c rest)).
  - exists PFail. split; [apply peg_and_stop; [exact D|exact Logic.I]|exact Logic.I].
  - exists (PAbort m rest). split; [apply peg_and_stop; [exact D|exact Logic.I]|exact Logic.I].
Qed.

Lemma not_whole_yes : forall G ts, peg G a s (PMatch ts []) -> peg G (Not (whole a)) s PFail.
Proof. intros G ts D. exact (peg_not_fail G _ _ _ _ (whole_yes G ts D)). Qed.

Lemma not_whole_no : forall G r, peg G a s r -> (forall ts, r <> PMatch ts []) -> peg G (Not (whole a)) s (PMatch [] s).
Proof. intros G r D N. destruct (whole_no G r D N) as (r' & D' & St). exact (peg_not_ok G _ _ _ D' St). Qed.

Lemma front_yes : forall G e r, peg G e s (PMatch [] s) -> peg G b s r -> peg G (And [e; b]) s r.
Proof.
  intros G e r D D'. assert (X : peg G (And [b]) s r).
  { destruct r as [ts rest| |m rest]; [|apply peg_and_stop; [exact D'|exact Logic.I]|apply peg_and_stop; [exact D'|exact Logic.I]].
    pose proof (peg_and_cons G b [] s ts rest (PMatch [] rest) D' (peg_and_nil G rest)) as X. cbn [prepend] in X. rewrite app_nil_r in X. exact X. }
  pose proof (peg_and_cons G e [b] s [] s r D X) as Y. destruct r; exact Y.
Qed.

Lemma whole_or_not : forall r, (exists ts, r = PMatch ts []) \/ (forall ts, r <> PMatch ts []).
Proof. intros [ts [|c rest]| |m rest]; [left; eauto|right; discriminate|right; discriminate|right; discriminate]. Qed.

Lemma sane_both : sane (both a b).
Proof. cbn. auto. Qed.
Lemma sane_but_not : sane (but_not a b).
Proof. cbn. auto. Qed.
Lemma sane_either : sane (either a b).
Proof. cbn. auto 9. Qed.

Lemma ref_both : forall e, ~ has_ref main e -> ~ has_ref main (both a e).
Proof.
  intros e N R. inversion R as [|? ? IN R'| | |]; subst. destruct IN as [<-|[<-|[]]]; [|contradiction]. inversion R' as [| | |? R''|]; subst. inversion R'' as [| | |? R3|]; subst.
  exact (whole_ref a NA R3).
Qed.
Lemma ref_but_not : ~ has_ref main (but_not a b).
Proof. intro R. inversion R as [|? ? IN R'| | |]; subst. destruct IN as [<-|[<-|[]]]; [|exact (NB R')]. inversion R' as [| | |? R''|]; subst. exact (whole_ref a NA R''). Qed.
Lemma ref_either : ~ has_ref main (either a b).
Proof. intro R. inversion R as [| |? ? IN R'| |]; subst. destruct IN as [<-|[<-|[]]]; [exact (ref_both a NA R')|exact (NB R')]. Qed.

Hypothesis FA : finishes (with_main rs a) s.
Hypothesis FB : finishes (with_main rs b) s.

Let X := a.    (* any main will do *)

Lemma answers_of : exists ra rb, peg (GX X) a s ra /\ peg (GX X) b s rb.
Proof.
  apply (with_finishes X a SA NA) in FA. apply (with_finishes X b SB NB) in FB. destruct FA as [ra DA]. destruct FB as [rb DB]. exists ra, rb. split; assumption.
Qed.

(** Under one grammar: what each combination gives. *)
Lemma both_is : forall ra rb, peg (GX X) a s ra -> peg (GX X) b s rb ->
  peg (GX X) (both a b) s (match ra with PMatch _ [] => rb | _ => PFail end).
Proof.
  intros ra rb DA DB. destruct (whole_or_not ra) as [[ts ->]|N].
  - apply front_yes; [|exact DB]. apply (peg_not_ok _ _ _ PFail); [exact (not_whole_yes _ ts DA)|exact Logic.I].
  - assert (E : match ra with PMatch _ [] => rb | _ => PFail end = PFail) by (destruct ra as [ts [|c r]| |]; [exfalso; exact (N ts eq_refl)|reflexivity|reflexivity|reflexivity]).
    rewrite E. apply peg_and_stop; [|exact Logic.I]. exact (peg_not_fail _ _ _ _ _ (not_whole_no _ ra DA N)).
Qed.

Lemma but_not_is : forall ra rb, peg (GX X) a s ra -> peg (GX X) b s rb ->
  peg (GX X) (but_not a b) s (match ra with PMatch _ [] => PFail | _ => rb end).
Proof.
  intros ra rb DA DB. destruct (whole_or_not ra) as [[ts ->]|N].
  - apply peg_and_stop; [exact (not_whole_yes _ ts DA)|exact Logic.I].
  - assert (E : match ra with PMatch _ [] => PFail | _ => rb end = rb) by (destruct ra as [ts [|c r]| |]; [exfalso; exact (N ts eq_refl)|reflexivity|reflexivity|reflexivity]).
    rewrite E. apply front_yes; [exact (not_whole_no _ ra DA N)|exact DB].
Qed.
End Boolean.

Section Boolean2.
Variable rs : rules.
Variables a b : expr.
Variable s : str.
Hypothesis SR : sane_rules rs.
Hypothesis SA : sane a.
Hypothesis SB : sane b.
Hypothesis MU : main_unused rs [a; b].
Hypothesis AS : ascii s.
Hypothesis FA : finishes (with_main rs a) s.
Hypothesis FB : finishes (with_main rs b) s.

Let G := grammar_of (with_main rs a).
Let ok e := with_ok rs a b s SR MU AS a e.
Let acc e := with_accepts rs a b s SR MU AS a e.
Let fin e := with_finishes rs a b s SR MU AS a e.

Lemma MUaa : main_unused rs [a; a].
Proof. destruct MU as [U F]. inversion F as [|? ? N F']; subst. split; [exact U|repeat constructor; exact N]. Qed.

Lemma either_is : forall ra rb, peg G a s ra -> peg G b s rb -> peg G (either a b) s (match ra with PMatch _ [] => ra | _ => rb end).
Proof.
  intros ra rb DA DB. pose proof (both_is rs a a s ra ra DA DA) as D. destruct ra as [ts [|c r]| |m r].
  - apply peg_or_first; [exact D|discriminate].
  - apply peg_or_next; [exact D|]. destruct (whole_or_not rb) as [[us ->]|N].
    + apply peg_or_first; [exact DB|discriminate].
    + destruct rb as [us r'| |m r']; [apply peg_or_first; [exact DB|discriminate]|apply peg_or_next; [exact DB|constructor]|apply peg_or_first; [exact DB|discriminate]].
  - apply peg_or_next; [exact D|]. destruct rb as [us r'| |m r']; [apply peg_or_first; [exact DB|discriminate]|apply peg_or_next; [exact DB|constructor]|apply peg_or_first; [exact DB|discriminate]].
  - apply peg_or_next; [exact D|]. destruct rb as [us r'| |m' r']; [apply peg_or_first; [exact DB|discriminate]|apply peg_or_next; [exact DB|constructor]|apply peg_or_first; [exact DB|discriminate]].
Qed.

Lemma ex_det : forall e r, peg G e s r -> forall ts, (peg G e s (PMatch ts []) <-> r = PMatch ts []).
Proof. intros e r D ts. split; [intro D'; exact (peg_det _ _ _ _ D _ D')|intros <-; exact D]. Qed.

Lemma combos : forall ast,
  ((exists fuel, parse fuel s (with_main rs (both a b)) = Ok ast) <-> takes (with_main rs a) s /\ exists fuel, parse fuel s (with_main rs b) = Ok ast) /\
  ((exists fuel, parse fuel s (with_main rs (but_not a b)) = Ok ast) <-> ~ takes (with_main rs a) s /\ exists fuel, parse fuel s (with_main rs b) = Ok ast) /\
  ((exists fuel, parse fuel s (with_main rs (either a b)) = Ok ast) <->
     (exists fuel, parse fuel s (with_main rs a) = Ok ast) \/ ~ takes (with_main rs a) s /\ exists fuel, parse fuel s (with_main rs b) = Ok ast).
Proof.
  intro ast. destruct (answers_of rs a b s SR SA SB MU AS FA FB) as (ra & rb & DA & DB).
  pose proof (NA rs a b MU) as Na. pose proof (NB rs a b MU) as Nb.
  rewrite (ok (both a b) (sane_both a b SA SB) (ref_both rs a b MU b Nb)), (ok (but_not a b) (sane_but_not a b SA SB) (ref_but_not rs a b MU)),
    (ok (either a b) (sane_either a b SA SB) (ref_either rs a b MU)), (ok a SA Na), (ok b SB Nb), (acc a SA Na).
  pose proof (ex_det _ _ (both_is rs a b s ra rb DA DB)) as E1. pose proof (ex_det _ _ (but_not_is rs a b s ra rb DA DB)) as E2.
  pose proof (ex_det _ _ (either_is ra rb DA DB)) as E3. pose proof (ex_det _ _ DA) as Ea. pose proof (ex_det _ _ DB) as Eb. fold G.
  assert (Q : forall e r, (forall ts, peg G e s (PMatch ts []) <-> r = PMatch ts []) ->
    ((exists ts, ast = Rule main ts /\ peg G e s (PMatch ts [])) <-> (exists ts, ast = Rule main ts /\ r = PMatch ts []))).
  { intros e r E. split; intros (ts & -> & D); exists ts; (split; [reflexivity|apply E, D]). }
  rewrite (Q _ _ E1), (Q _ _ E2), (Q _ _ E3), (Q _ _ Ea), (Q _ _ Eb).
  assert (QA : (exists ts, peg G a s (PMatch ts [])) <-> exists ts, ra = PMatch ts []) by (split; intros [ts D]; exists ts; apply Ea, D).
  rewrite QA. clear. destruct (whole_or_not ra) as [[ts ->]|N].
  - split; [|split].
    + split; [intro H; split; [eauto|exact H]|intros [_ H]; exact H].
    + split; [intros (us & _ & Z); discriminate|intros [H _]; exfalso; apply H; eauto].
    + split; [intro H; left; exact H|intros [H|[H _]]; [exact H|exfalso; apply H; eauto]].
  - assert (H1 : forall r, match ra with PMatch _ [] => r | _ => PFail end = PFail) by (intro r; destruct ra as [ts [|c r']| |]; [exfalso; exact (N ts eq_refl)|reflexivity|reflexivity|reflexivity]).
    assert (H2 : forall r, match ra with PMatch _ [] => r | _ => rb end = rb) by (intro r; destruct ra as [ts [|c r']| |]; [exfalso; exact (N ts eq_refl)|reflexivity|reflexivity|reflexivity]).
    rewrite H1, !H2. assert (NX : ~ exists ts, ra = PMatch ts []) by (intros [ts E]; exact (N ts E)).
    split; [|split].
    + split; [intros (us & _ & Z); discriminate|intros [H _]; contradiction].
    + split; [intro H; split; [exact NX|exact H]|intros [_ H]; exact H].
    + split; [intro H; right; split; [exact NX|exact H]|intros [(us & _ & Z)|[_ H]]; [exfalso; exact (N us Z)|exact H]].
Qed.

Lemma combos_finish : finishes (with_main rs (both a b)) s /\ finishes (with_main rs (but_not a b)) s /\ finishes (with_main rs (either a b)) s.
Proof.
  destruct (answers_of rs a b s SR SA SB MU AS FA FB) as (ra & rb & DA & DB).
  pose proof (NA rs a b MU) as Na. pose proof (NB rs a b MU) as Nb.
  rewrite (fin (both a b) (sane_both a b SA SB) (ref_both rs a b MU b Nb)), (fin (but_not a b) (sane_but_not a b SA SB) (ref_but_not rs a b MU)),
    (fin (either a b) (sane_either a b SA SB) (ref_either rs a b MU)).
  split; [eexists; exact (both_is rs a b s ra rb DA DB)|]. split; [eexists; exact (but_not_is rs a b s ra rb DA DB)|eexists; exact (either_is ra rb DA DB)].
Qed.
End Boolean2.

Lemma all_chars : forall G s, peg G (rep0 dot_ 0) s (PMatch (by_chars s) []).
Proof.
  intros G. induction s as [|c s IH]; [apply peg_rep_done; [discriminate|apply peg_dot_fail]|].
  exact (peg_rep_more G dot_ 0 None (c :: s) [Val [c]] s (PMatch (by_chars s) []) ltac:(discriminate) (peg_dot_ok G c s) IH).
Qed.

Lemma complement_ok : forall rs a s, sane_rules rs -> sane a -> main_unused rs [a] -> ascii s -> finishes (with_main rs a) s ->
  finishes (with_main rs (complement a)) s /\
  forall ast, (exists fuel, parse fuel s (with_main rs (complement a)) = Ok ast) <-> ~ takes (with_main rs a) s /\ ast = Rule main (by_chars s).
Proof.
  intros rs a s SR SA MU AS FA.
  assert (ND : ~ has_ref main (rep0 dot_ 0)) by (intro R; inversion R as [| | | |? ? ? R']; subst; inversion R').
  assert (MU' : main_unused rs [a; rep0 dot_ 0]) by (destruct MU as [U F]; inversion F as [|? ? N _]; subst; split; [exact U|repeat constructor; assumption]).
  assert (SB : sane (rep0 dot_ 0)) by (cbn; auto).
  assert (FB : finishes (with_main rs (rep0 dot_ 0)) s) by (apply (with_finishes rs a (rep0 dot_ 0) s SR MU' AS a _ SB ND); eexists; apply all_chars).
  split; [apply (combos_finish rs a (rep0 dot_ 0) s SR SA SB MU' AS FA FB)|]. intro ast.
  destruct (combos rs a (rep0 dot_ 0) s SR SA SB MU' AS FA FB ast) as (_ & E & _). unfold complement. rewrite E.
  rewrite (with_ok rs a (rep0 dot_ 0) s SR MU' AS a _ SB ND ast). split; intros [H1 H2]; (split; [exact H1|]).
  - destruct H2 as (ts & -> & D). pose proof (peg_det _ _ _ _ (all_chars _ s) _ D) as Q. injection Q as <-. reflexivity.
  - subst ast. exists (by_chars s). split; [reflexivity|apply all_chars].
Qed.

(** * Three equal numbers *)

Section Three.
Variables x y z : char.
Hypothesis XY : x <> y.
Hypothesis YZ : y <> z.
Let rs := three_rules x y z.
Let G := grammar_of rs.

Lemma three_sane : sane_rules rs.
Proof. apply sane_rules_all. repeat constructor. Qed.
Lemma three_wf : well_formed (grammar_of rs).
Proof. apply wf_check_sound; vm_compute; reflexivity. Qed.

Lemma diff : forall a b : char, a <> b -> forall u v : str, [a] ++ u <> [b] ++ v.
Proof. intros a b N u v E. injection E as E _. contradiction. Qed.

Lemma xs_run : forall n rest, match rest with c :: _ => c <> x | [] => True end -> exists ts, peg G (Repeat (lit [x]) 0 None) (times n [x] ++ rest) (PMatch ts rest).
Proof.
  induction n as [|n IH]; intros rest ST.
  - exists []. apply peg_rep_done; [discriminate|]. apply peg_lit_fail. intros r E. cbn in E. subst rest. apply ST. reflexivity.
  - destruct (IH rest ST) as [ts D]. exists ([Val [x]] ++ ts). exact (peg_rep_more G (lit [x]) 0 None _ [Val [x]] _ (PMatch ts rest) ltac:(discriminate) (peg_lit_ok G [x] _) D).
Qed.

Lemma xs_run1 : forall n rest, 1 <= n -> match rest with c :: _ => c <> x | [] => True end -> exists ts, peg G (Repeat (lit [x]) 1 None) (times n [x] ++ rest) (PMatch ts rest).
Proof.
  intros [|n] rest L ST; [lia|]. destruct (xs_run n rest ST) as [ts D]. exists ([Val [x]] ++ ts).
  exact (peg_rep_more G (lit [x]) 1 None _ [Val [x]] _ (PMatch ts rest) ltac:(discriminate) (peg_lit_ok G [x] _) D).
Qed.

Lemma ys_start : forall n rest, 1 <= n -> match times n [y] ++ rest with c :: _ => c <> x | [] => True end.
Proof. intros [|n] rest L; [lia|]. cbn. congruence. Qed.

Lemma count_ys : forall n m u v, 1 <= m -> times n [y] ++ [z] ++ u = times m [y] ++ times m [z] ++ v -> n = m.
Proof.
  assert (K : forall n m u w, times n [y] ++ [z] ++ u = times m [y] ++ [z] ++ w -> n = m).
  { induction n as [|n IH]; intros [|m] u w E.
    - reflexivity.
    - exfalso. injection E as E _. congruence.
    - exfalso. injection E as E _. congruence.
    - f_equal. cbn [times] in E. rewrite <- !app_assoc in E. injection E as E. exact (IH m u w E). }
  intros n [|m] u v L E; [lia|]. apply (K n (S m) u (times m [z] ++ v)). rewrite E. cbn [times]. rewrite <- !app_assoc. reflexivity.
Qed.

Lemma three_spec : forall s, (exists e ts, rules_get rs main = Some e /\ peg G e s (PMatch ts [])) <->
  exists n, 1 <= n /\ s = times n [x] ++ times n [y] ++ times n [z].
Proof.
  intro s. split.
  - intros (e & ts & E & D). injection E as <-. apply inv_and_cons in D. destruct D as (t1 & s1 & t2 & _ & D1 & D). pose proof (inv_not _ _ _ _ _ D1) as [_ ->].
    apply inv_and_cons in D. destruct D as (t3 & s2 & t4 & _ & D2 & D3). apply inv_and_cons in D3. destruct D3 as (t5 & s3 & t6 & _ & D3 & D4). apply inv_and_nil in D4. destruct D4 as [_ <-].
    assert (Y : exists u, exists n, 1 <= n /\ s = times n [x] ++ times n [y] ++ [z] ++ u).
    { inversion D1 as [| | | | | | | | | | | | | | | |? ? r D5 St| | | | | | |]; subst. inversion D5 as [| | | | | | | | | | | | | | |? ? us rest D6|? ? r' D6 St'| | | | | | |]; subst.
      - apply inv_and_cons in D6. destruct D6 as (t7 & s4 & t8 & _ & D6 & D7). apply inv_and_cons in D7. destruct D7 as (t9 & s5 & t10 & _ & D7 & _). apply inv_lit in D7. destruct D7 as [_ ->].
        exists s5. apply (brackets_spec G nm_xy [x] [y] eq_refl (diff x y XY)). exists t7. exact D6.
      - destruct St. }
    destruct Y as (u & n & L & ->). destruct (xs_run1 n (times n [y] ++ [z] ++ u) L (ys_start n _ L)) as [ts' D5]. pose proof (peg_det _ _ _ _ D2 _ D5) as Q. injection Q as _ ->.
    destruct (proj1 (brackets_spec G nm_yz [y] [z] eq_refl (diff y z YZ) _ _) (ex_intro _ _ D3)) as (m & Lm & E). pose proof (count_ys n m _ _ Lm E) as <-.
    exists n. split; [exact L|]. f_equal. rewrite app_nil_r in E. exact E.
  - intros (n & L & ->). destruct n as [|n]; [lia|].
    assert (Ez : times (S n) [z] = [z] ++ times n [z]) by reflexivity.
    destruct (proj2 (brackets_spec G nm_xy [x] [y] eq_refl (diff x y XY) (times (S n) [x] ++ times (S n) [y] ++ times (S n) [z]) (times (S n) [z]))) as [t1 D1]; [exists (S n); split; [exact L|reflexivity]|].
    destruct (proj2 (brackets_spec G nm_yz [y] [z] eq_refl (diff y z YZ) (times (S n) [y] ++ times (S n) [z]) [])) as [t2 D2]; [exists (S n); split; [exact L|rewrite app_nil_r; reflexivity]|].
    destruct (xs_run1 (S n) (times (S n) [y] ++ times (S n) [z]) L (ys_start (S n) (times (S n) [z]) L)) as [t3 D3].
    exists (And [Not (Not (And [ref_rule nm_xy; lit [z]])); rep0 (lit [x]) 1; ref_rule nm_yz]). exists ([] ++ t3 ++ t2 ++ []). split; [reflexivity|].
    refine (peg_and_cons G _ _ _ [] _ (PMatch (t3 ++ t2 ++ []) []) _ (peg_and_cons G _ _ _ t3 _ (PMatch (t2 ++ []) []) D3 (peg_and_cons G _ [] _ t2 _ (PMatch [] []) D2 (peg_and_nil G [])))).
    eapply peg_not_ok; [|instantiate (1 := PFail); exact Logic.I]. eapply peg_not_fail.
    refine (peg_and_cons G _ _ _ t1 _ (PMatch [Val [z]] (times n [z])) D1 _). rewrite Ez.
    exact (peg_and_cons G _ [] _ [Val [z]] _ (PMatch [] _) (peg_lit_ok G [z] _) (peg_and_nil G _)).
Qed.

Lemma three_accepts : forall s, ascii s -> (exists fuel ast, parse fuel s rs = Ok ast) <-> exists n, 1 <= n /\ s = times n [x] ++ times n [y] ++ times n [z].
Proof. intros s A. rewrite (parse_accepts s rs three_sane A). apply three_spec. Qed.

Lemma three_rejects : forall s, ascii s -> (exists fuel er, parse fuel s rs = Err er) <-> ~ exists n, 1 <= n /\ s = times n [x] ++ times n [y] ++ times n [z].
Proof.
  intros s A. rewrite (parse_rejects s rs three_sane A). pose proof (three_spec s) as SP. fold G. rewrite SP. split; [intros [_ H]; exact H|]. intro H. split; [|exact H].
  apply (parse_terminates_iff s rs false three_sane A). exists (depth_factor rs * (length s + 1)). apply parse_bound; [exact three_wf|reflexivity].
Qed.
End Three.
