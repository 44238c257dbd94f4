(** Left recursion and repetition generate the same. *)
From Verif Require Import Base ModelAst ModelParser SpecPeg SpecPos SpecApi SpecWf SpecBnf SpecCombinators SpecLeft.
From Verif Require Import PegTools ProofParser ProofEngine ProofApi ProofSim ProofCombinators ProofBnf.

Section Left.
Variables (a : str) (steps : list (list expr)) (bases : list expr) (G G' : str -> option expr).
Hypothesis R : rewritten a steps bases G G'.
Hypothesis PB : proper_bases a bases G.
Let fl := ungrouped a.
Let rep := rep0 (Or (map And steps)) 0.

(** The children of an [a] node after ungrouping, from the ungrouped children. *)
Definition joined (l : list node) : list node :=
  match l with Rule m k :: r => if str_eqb m a then k ++ r else l | _ => l end.

Lemma fl_a : forall l, fl (Rule a l) = Rule a (joined (map fl l)).
Proof. intro l. unfold fl, joined. cbn [ungrouped]. rewrite (proj2 (str_eqb_eq a a) eq_refl). reflexivity. Qed.

Lemma fl_other : forall n l, n <> a -> fl (Rule n l) = Rule n (map fl l).
Proof. intros n l N. unfold fl. cbn [ungrouped]. destruct (str_eqb n a) eqn:E; [apply str_eqb_eq in E; contradiction|reflexivity]. Qed.

Lemma fl_name : forall nd k, fl nd = Rule a k -> exists l, nd = Rule a l.
Proof.
  intros [v|n l|] k E; try discriminate. destruct (str_eqb n a) eqn:X; [apply str_eqb_eq in X; subst; eauto|].
  unfold fl in E. cbn [ungrouped] in E. rewrite X in E. injection E as -> _. rewrite (proj2 (str_eqb_eq a a) eq_refl) in X. discriminate.
Qed.

Lemma joined_base : forall b w ts, In b bases -> derives G b w ts -> joined (map fl ts) = map fl ts.
Proof.
  intros b w ts I D. destruct ts as [|t ts]; [reflexivity|]. cbn [map joined]. destruct (fl t) as [v|m k|] eqn:E; try reflexivity.
  destruct (str_eqb m a) eqn:X; [|reflexivity]. apply str_eqb_eq in X. subst m. destruct (fl_name t k E) as [l ->]. exfalso. exact (PB b w l ts I D).
Qed.

Lemma joined_rec : forall k r, joined (Rule a k :: r) = k ++ r.
Proof. intros k r. cbn [joined]. rewrite (proj2 (str_eqb_eq a a) eq_refl). reflexivity. Qed.

(** One more turn at the end. *)
Lemma rep_snoc : forall H v us x w ts, derives H rep v us -> In x steps -> derives H (And x) w ts -> derives H rep (v ++ w) (us ++ ts).
Proof.
  intros H v us x w ts D I X. unfold rep in *. remember (rep0 (Or (map And steps)) 0) as e eqn:E. revert E.
  induction D; intro E; try discriminate.
  - injection E as -> ->. cbn [app]. rewrite <- (app_nil_r w), <- (app_nil_r ts). eapply d_rep_more; [discriminate| |constructor].
    eapply d_or; [apply in_map; exact I|exact X].
  - injection E as -> -> ->. rewrite <- !app_assoc. eapply d_rep_more; [discriminate|exact D1|]. exact (IHD2 eq_refl).
Qed.

Lemma and_two : forall H e1 e2 w ts, derives H (And [e1; e2]) w ts ->
  exists w1 w2 t1 t2, w = w1 ++ w2 /\ ts = t1 ++ t2 /\ derives H e1 w1 t1 /\ derives H e2 w2 t2.
Proof.
  intros H e1 e2 w ts D. inversion D; subst. match goal with X : derives H (And [e2]) _ _ |- _ => inversion X; subst end.
  match goal with X : derives H (And []) _ _ |- _ => inversion X; subst end. rewrite !app_nil_r. eauto 8.
Qed.

Lemma and_more : forall H e es w ts, derives H (And (e :: es)) w ts ->
  exists w1 w2 t1 t2, w = w1 ++ w2 /\ ts = t1 ++ t2 /\ derives H e w1 t1 /\ derives H (And es) w2 t2.
Proof. intros H e es w ts D. inversion D; subst. eauto 8. Qed.

Lemma mk_two : forall H e1 e2 w1 w2 t1 t2, derives H e1 w1 t1 -> derives H e2 w2 t2 -> derives H (And [e1; e2]) (w1 ++ w2) (t1 ++ t2).
Proof. intros. constructor; [assumption|]. rewrite <- (app_nil_r w2), <- (app_nil_r t2). constructor; [assumption|constructor]. Qed.

Lemma forth : forall e w ts, derives G e w ts -> derives G' e w (map fl ts) /\
  (e = left_recursive a steps bases -> derives G' (repeating steps bases) w (joined (map fl ts))).
Proof.
  destruct R as (Ra & Ra' & Ro). intros e w ts D. induction D as [l|cs rs c I|c| | |e es w v ts us D1 IH1 D2 IH2|e es w ts I D IH|e|e mx|e mn mx w v ts us N D1 IH1 D2 IH2|n e w ts E D IH].
  all: try (split; [constructor; assumption|discriminate]).
  - split; [|discriminate]. rewrite map_app. constructor; [apply IH1|apply IH2].
  - split; [eapply d_or; [exact I|apply IH]|]. intro E. injection E as E. subst es. apply in_app_or in I. destruct I as [I|I].
    + apply in_map_iff in I. destruct I as (x & <- & I). destruct IH as [IH _]. apply and_more in IH. destruct IH as (u1 & u2 & k1 & k2 & -> & K & DA & DX).
      inversion DA; subst. match goal with X : G' a = Some ?e, Y : derives G' ?e _ _ |- _ => rewrite Ra' in X; injection X as <-; clear DA; rename Y into DA end.
      rewrite K. cbn [app]. rewrite joined_rec.
      apply and_two in DA. destruct DA as (w1 & w2 & t1 & t2 & -> & -> & B & S1). rewrite <- !app_assoc. apply mk_two; [exact B|]. eapply rep_snoc; eassumption.
    + rewrite (joined_base e w ts I D). rewrite <- (app_nil_r w), <- (app_nil_r (map fl ts)). apply mk_two; [eapply d_or; [exact I|apply IH]|constructor].
  - split; [|discriminate]. rewrite map_app. eapply d_rep_more; [exact N|apply IH1|apply IH2].
  - split; [|discriminate]. cbn [map]. destruct (str_eqb n a) eqn:X.
    + apply str_eqb_eq in X. subst n. rewrite Ra in E. injection E as <-. rewrite fl_a. eapply d_rule; [exact Ra'|]. apply IH. reflexivity.
    + assert (NE : n <> a) by (intros ->; rewrite (proj2 (str_eqb_eq a a) eq_refl) in X; discriminate). rewrite (fl_other n ts NE).
      eapply d_rule; [rewrite (Ro n NE); exact E|apply IH].
Qed.

Lemma grow : forall v us, derives G rep v us -> forall u k, derives G (RuleName a) u [Rule a k] ->
  exists k', derives G (RuleName a) (u ++ v) [Rule a k'] /\ joined (map fl k') = joined (map fl k) ++ map fl us.
Proof.
  destruct R as (Ra & Ra' & Ro). intros v us D. unfold rep in D. remember (rep0 (Or (map And steps)) 0) as e eqn:E. revert E.
  induction D; intro E; try discriminate.
  - injection E as -> ->. intros u k K. exists k. rewrite !app_nil_r. auto.
  - injection E as -> -> ->. intros u k K. inversion D1; subst. match goal with X : In _ (map And steps) |- _ => apply in_map_iff in X; destruct X as (x & <- & I) end.
    destruct (IHD2 eq_refl (u ++ w) (Rule a k :: ts)) as (k' & K1 & K2).
    + eapply d_rule; [exact Ra|]. eapply d_or; [apply in_or_app; left; apply in_map_iff; exists x; split; [reflexivity|exact I]|].
      change (Rule a k :: ts) with ([Rule a k] ++ ts). constructor; assumption.
    + exists k'. rewrite app_assoc. split; [exact K1|]. rewrite K2. cbn [map]. rewrite fl_a, joined_rec, map_app, app_assoc. reflexivity.
Qed.

Lemma back : forall e w ts', derives G' e w ts' -> exists ts, derives G e w ts /\ ts' = map fl ts.
Proof.
  destruct R as (Ra & Ra' & Ro). intros e w ts' D. induction D as [l|cs rs c I|c| | |e es w v ts us D1 IH1 D2 IH2|e es w ts I D IH|e|e mx|e mn mx w v ts us N D1 IH1 D2 IH2|n e w ts E D IH].
  all: try (eexists; split; [constructor; assumption|reflexivity]).
  - destruct IH1 as (t1 & X1 & ->), IH2 as (t2 & X2 & ->). exists (t1 ++ t2). split; [constructor; assumption|rewrite map_app; reflexivity].
  - destruct IH as (t & X & ->). exists t. split; [eapply d_or; eassumption|reflexivity].
  - destruct IH1 as (t1 & X1 & ->), IH2 as (t2 & X2 & ->). exists (t1 ++ t2). split; [eapply d_rep_more; eassumption|rewrite map_app; reflexivity].
  - destruct IH as (t & X & ->). destruct (str_eqb n a) eqn:Q.
    + apply str_eqb_eq in Q. subst n. rewrite Ra' in E. injection E as <-. apply and_two in X. destruct X as (w1 & w2 & t1 & t2 & -> & -> & B & S1).
      inversion B; subst. destruct (grow w2 t2 S1 w1 t1) as (k & K1 & K2).
      { eapply d_rule; [exact Ra|]. eapply d_or; [apply in_or_app; right; eassumption|assumption]. }
      exists [Rule a k]. split; [exact K1|]. cbn [map]. rewrite fl_a, K2, map_app. erewrite joined_base by eassumption. reflexivity.
    + assert (NE : n <> a) by (intros ->; rewrite (proj2 (str_eqb_eq a a) eq_refl) in Q; discriminate).
      exists [Rule n t]. split; [eapply d_rule; [rewrite <- (Ro n NE); exact E|exact X]|]. cbn [map]. rewrite (fl_other n t NE). reflexivity.
Qed.

Lemma same_texts : forall e w ts', derives G' e w ts' <-> exists ts, derives G e w ts /\ ts' = map fl ts.
Proof. intros e w ts'. split; [apply back|]. intros (ts & D & ->). exact (proj1 (forth e w ts D)). Qed.

End Left.

(** * Parsing *)

Section Rules.
Variables (a : str) (steps : list (list expr)) (bases : list expr) (rs rs' : rules).
Hypothesis R : rewritten a steps bases (grammar_of rs) (grammar_of rs').
Hypothesis PB : proper_bases a bases (grammar_of rs).
Hypothesis SR : sane_rules rs'.
Hypothesis W : well_formed (grammar_of rs').
Hypothesis P : predictive_grammar (grammar_of rs').

Lemma rewritten_parse : forall s debug fuel, ascii s -> depth_factor rs' * (length s + 1) <= fuel ->
  (forall t', parse_with_debug fuel s rs' debug = Ok t' <-> exists t, derives (grammar_of rs) (RuleName main) s [t] /\ t' = ungrouped a t) /\
  ((exists er, parse_with_debug fuel s rs' debug = Err er) <-> ~ exists t, derives (grammar_of rs) (RuleName main) s [t]).
Proof.
  intros s debug fuel A F. assert (X : forall t', derives (grammar_of rs') (RuleName main) s [t'] <-> exists t, derives (grammar_of rs) (RuleName main) s [t] /\ t' = ungrouped a t).
  { intro t'. rewrite (same_texts a steps bases _ _ R PB). split.
    - intros ([|t [|u ts]] & D & E); try discriminate. injection E as ->. eauto.
    - intros (t & D & ->). exists [t]. auto. }
  split.
  - intro t'. rewrite (predictive_parse rs' s debug fuel t' SR W P A F). apply X.
  - rewrite (predictive_rejects rs' s debug fuel SR W P A F). split; intros N Y; apply N.
    + destruct Y as [t D]. exists [ungrouped a t]. apply X. eauto.
    + destruct Y as [ts D]. inversion D; subst. apply X in D. destruct D as (t & D & _). eauto.
Qed.

End Rules.

(** The bases first: then nothing is ever repeated. *)
Section BasesFirst.
Variables (a : str) (steps : list (list expr)) (bases : list expr) (G : str -> option expr).
Let rec (x : list expr) := And (ref_rule a :: x).
Hypothesis Ga : G a = Some (Or (bases ++ map rec steps)).
Hypothesis NS : steps <> [].

Definition stuck (e : expr) : Prop :=
  e = RuleName a \/ (exists x, e = And (RuleName a :: x)) \/ exists l, e = Or (l ++ map rec steps) /\ incl l bases.

Lemma none_fit : forall e s r, peg G e s r -> stuck e -> (forall b, In b bases -> peg G b s PFail) -> False.
Proof.
  intros e s r D. induction D; intros ST F; destruct ST as [ST|[[x ST]|(l0 & ST & IN)]]; try discriminate.
  - injection ST as -> ->. apply IHD1; [left; reflexivity|exact F].
  - injection ST as -> ->. apply IHD; [left; reflexivity|exact F].
  - destruct l0; [|discriminate]. destruct steps; [contradiction|discriminate].
  - destruct l0 as [|b l0]; cbn in ST.
    + destruct steps as [|x st]; [contradiction|]. injection ST as -> ->. apply IHD; [right; left; eexists; reflexivity|exact F].
    + injection ST as -> ->. match goal with N : r <> PFail |- _ => apply N end. exact (peg_det _ _ _ _ D _ (F b (IN b (or_introl eq_refl)))).
  - destruct l0 as [|b l0]; cbn in ST.
    + destruct steps as [|x st]; [contradiction|]. injection ST as -> ->. apply IHD1; [right; left; eexists; reflexivity|exact F].
    + injection ST as -> ->. apply IHD2; [right; right; exists l0; split; [reflexivity|intros z Z; apply IN; right; exact Z]|exact F].
  - injection ST as ->. rewrite Ga in H. injection H as <-. apply IHD; [right; right; exists bases; split; [reflexivity|apply incl_refl]|exact F].
  - injection ST as ->. congruence.
Qed.

Lemma or_app : forall l m s r, peg G (Or (l ++ m)) s r -> (peg G (Or l) s r /\ r <> PFail) \/ (Forall (fun b => peg G b s PFail) l /\ peg G (Or m) s r).
Proof.
  induction l as [|b l IH]; intros m s r H; [right; auto|]. cbn [app] in H. inversion H; subst.
  - left. split; [apply peg_or_first; assumption|assumption].
  - match goal with X : peg G (Or (l ++ m)) s r |- _ => destruct (IH m s r X) as [[X1 X2]|[X1 X2]] end.
    + left. split; [apply peg_or_next; assumption|exact X2].
    + right. auto.
Qed.

Lemma bases_only : forall s r, peg G (RuleName a) s r -> exists r0, peg G (Or bases) s r0 /\ r0 <> PFail /\ r = wrap a r0.
Proof.
  intros s r D. inversion D; subst; [|congruence]. match goal with X : G a = Some ?e |- _ => rewrite Ga in X; injection X as <- end.
  match goal with X : peg G (Or _) s ?r0 |- _ => destruct (or_app _ _ _ _ X) as [[X1 X2]|[X1 X2]]; [exists r0; auto|] end.
  exfalso. apply (none_fit _ _ _ D); [left; reflexivity|]. rewrite Forall_forall in X1. exact X1.
Qed.

End BasesFirst.

Lemma left_hangs : forall rs a steps bases, rules_get rs a = Some (left_recursive a steps bases) -> steps <> [] ->
  (a = main \/ exists e, rules_get rs main = Some e /\ starts_with a e) -> forall fuel s debug, parse_with_debug fuel s rs debug = Fuel.
Proof.
  intros rs a steps bases E NS M fuel s debug.
  assert (L : starts_with a (left_recursive a steps bases)).
  { destruct steps as [|x st]; [contradiction|]. unfold left_recursive. cbn [map app]. apply sw_or, sw_and, sw_ref. }
  unfold parse_with_debug, expression_parse, parse_rule_name. change (s_ "main") with main. destruct M as [<-|(e & Em & S1)].
  - rewrite E. destruct debug; rewrite (left_recursion rs a _ E L fuel _ _ L); reflexivity.
  - rewrite Em. destruct debug; rewrite (left_recursion rs a _ E L fuel _ _ S1); reflexivity.
Qed.

Lemma bases_first_parse : forall rs steps bases s debug, rules_get rs main = Some (Or (bases ++ map (fun x => And (ref_rule main :: x)) steps)) -> steps <> [] ->
  sane_rules rs -> ascii s -> forall t, (exists fuel, parse_with_debug fuel s rs debug = Ok t) <-> exists ts, peg (grammar_of rs) (Or bases) s (PMatch ts []) /\ t = Rule main ts.
Proof.
  intros rs steps bases s debug E NS SR A t. rewrite (parse_accepts_iff s rs debug SR A). split.
  - intro D. destruct (bases_only main steps bases _ E NS s _ D) as (r0 & D0 & _ & X). destruct r0 as [k r1| |m r1]; try discriminate. cbn in X. injection X as -> ->. eauto.
  - intros (ts & D & ->). eapply mk_rule; [exact E|]. apply inv_or in D. destruct D as (l1 & x & l2 & -> & D & F). rewrite <- app_assoc. cbn [app]. clear E.
    induction F as [|y l1 Y F IH]; cbn [app]; [apply mk_or1; exact D|]. apply peg_or_next; [exact Y|]. apply IH.
Qed.
