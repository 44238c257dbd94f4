(** What growing rules keep. *)
From Verif Require Import Base ModelAst ModelParser SpecPeg SpecPos SpecApi SpecWf SpecBnf SpecSwap SpecGrow.
From Verif Require Import PegTools ProofParser ProofEngine ProofApi ProofBnf ProofSwap.

Definition suffix (s v : str) : Prop := exists u, s = u ++ v.

Lemma suffix_rest : forall G s e v ts v', suffix s v -> peg G e v (PMatch ts v') -> suffix s v'.
Proof.
  intros G s e v ts v' [u ->] D. destruct (peg_derives _ _ _ _ D _ _ eq_refl) as (w & -> & _). exists (u ++ w). rewrite app_assoc. reflexivity.
Qed.

Lemma absent_fails : forall rs s e, absent rs s e -> forall v, suffix s v -> peg (grammar_of rs) e v PFail.
Proof.
  intros rs s e A. induction A as [l N|cs rgs N|e es A IH| |e es A IH A2 IH2|e mn mx L X A IH|n e E A IH]; intros v V.
  - apply peg_lit_fail. intros rest ->. destruct V as [u V]. exact (N u rest V).
  - apply peg_class_fail. intros c rest ->. apply N. destruct V as [u ->]. apply in_or_app. right. left. reflexivity.
  - apply peg_and_stop; [exact (IH v V)|exact Logic.I].
  - apply peg_or_nil.
  - apply peg_or_next; [exact (IH v V)|exact (IH2 v V)].
  - apply peg_rep_short; [exact X|exact L|exact (IH v V)].
  - change PFail with (wrap n PFail). eapply peg_rule; [exact E|exact (IH v V)].
Qed.

(** * Alternatives that fail *)

Section Grown.
Variables G G' : str -> option expr.
Variable new : expr -> Prop.
Variable scope : str -> Prop.
Variable s : str.
Hypothesis NEW : forall x v, new x -> suffix s v -> peg G' x v PFail.
Hypothesis SC : forall n, scope n -> exists e e', G n = Some e /\ G' n = Some e' /\ grown new e e' /\ forall m, has_ref m e -> scope m.

Definition inside (e : expr) : Prop := forall m, has_ref m e -> scope m.

Lemma in_and : forall e es, inside (And (e :: es)) -> inside e /\ inside (And es).
Proof.
  intros e es H. split; intros m R; apply H; [eapply hr_and; [left; reflexivity|exact R]|]. inversion R; subst. eapply hr_and; [right; eassumption|eassumption].
Qed.
Lemma in_or_ : forall e es, inside (Or (e :: es)) -> inside e /\ inside (Or es).
Proof.
  intros e es H. split; intros m R; apply H; [eapply hr_or; [left; reflexivity|exact R]|]. inversion R; subst. eapply hr_or; [right; eassumption|eassumption].
Qed.
Lemma in_not : forall e, inside (Not e) -> inside e.
Proof. intros e H m R. apply H. constructor. exact R. Qed.
Lemma in_rep : forall e mn mx mn' mx', inside (Repeat e mn mx) -> inside e /\ inside (Repeat e mn' mx').
Proof. intros e mn mx mn' mx' H. split; intros m R; apply H; [constructor; exact R|]. inversion R; subst. constructor. assumption. Qed.

(** New alternatives are passed over. *)
Lemma pass_first : forall es es', grown_choice new es es' -> forall e tl, es = e :: tl -> forall v r, suffix s v ->
  (forall e', grown new e e' -> peg G' e' v r) -> r <> PFail -> peg G' (Or es') v r.
Proof.
  induction 1 as [|e1 e1' es es' GE GC IH|x es es' N GC IH]; intros e tl E v r V H R; [discriminate| |].
  - injection E as <- <-. apply peg_or_first; [exact (H _ GE)|exact R].
  - apply peg_or_next; [exact (NEW x v N V)|exact (IH e tl E v r V H R)].
Qed.
Lemma pass_next : forall es es', grown_choice new es es' -> forall e tl, es = e :: tl -> forall v r, suffix s v ->
  (forall e', grown new e e' -> peg G' e' v PFail) -> (forall x', grown new (Or tl) x' -> peg G' x' v r) -> peg G' (Or es') v r.
Proof.
  induction 1 as [|e1 e1' es es' GE GC IH|x es es' N GC IH]; intros e tl E v r V H R; [discriminate| |].
  - injection E as <- <-. apply peg_or_next; [exact (H _ GE)|]. apply R. constructor. exact GC.
  - apply peg_or_next; [exact (NEW x v N V)|exact (IH e tl E v r V H R)].
Qed.
Lemma pass_nil : forall es es', grown_choice new es es' -> es = [] -> forall v, suffix s v -> peg G' (Or es') v PFail.
Proof.
  induction 1 as [|e1 e1' es es' GE GC IH|x es es' N GC IH]; intros E v V; [apply peg_or_nil|discriminate|].
  apply peg_or_next; [exact (NEW x v N V)|exact (IH E v V)].
Qed.

Lemma grown_forth : forall e v r, peg G e v r -> forall e', grown new e e' -> inside e -> suffix s v -> peg G' e' v r.
Proof.
  intros e v r D. induction D; intros e' GE IN V; inversion GE; subst; try (constructor; assumption; fail); try (econstructor; eassumption; fail).
  - match goal with X : grown_parts _ _ _ |- _ => inversion X; subst end. apply peg_and_nil.
  - match goal with X : grown_parts _ _ _ |- _ => inversion X; subst end. apply in_and in IN. destruct IN as [I1 I2].
    eapply peg_and_cons; [apply IHD1; assumption|]. apply IHD2; [constructor; assumption|exact I2|exact (suffix_rest _ _ _ _ _ _ V D1)].
  - match goal with X : grown_parts _ _ _ |- _ => inversion X; subst end. apply in_and in IN. destruct IN as [I1 I2]. apply peg_and_stop; [apply IHD; assumption|assumption].
  - eapply pass_nil; [eassumption|reflexivity|exact V].
  - apply in_or_ in IN. destruct IN as [I1 I2]. eapply pass_first; [eassumption|reflexivity|exact V|intros x GX; apply IHD; assumption|assumption].
  - apply in_or_ in IN. destruct IN as [I1 I2]. eapply pass_next; [eassumption|reflexivity|exact V|intros x GX; apply IHD1; assumption|intros x GX; apply IHD2; assumption].
  - eapply peg_not_fail. apply IHD; [assumption|exact (in_not _ IN)|exact V].
  - eapply peg_not_ok; [apply IHD; [assumption|exact (in_not _ IN)|exact V]|assumption].
  - destruct (in_rep _ _ _ (pred mn) (option_map pred mx) IN) as [I1 I2]. eapply peg_rep_more; [assumption|apply IHD1; assumption|].
    apply IHD2; [constructor; assumption|exact I2|exact (suffix_rest _ _ _ _ _ _ V D1)].
  - destruct (in_rep _ _ _ 0 mx IN) as [I1 I2]. apply peg_rep_done; [assumption|apply IHD; assumption].
  - destruct (in_rep _ _ _ 0 mx IN) as [I1 I2]. apply peg_rep_short; [assumption|assumption|apply IHD; assumption].
  - destruct (in_rep _ _ _ 0 mx IN) as [I1 I2]. apply peg_rep_abort; [assumption|apply IHD; assumption].
  - destruct (SC n) as (x & x' & E & E' & GX & I); [apply IN; constructor|]. rewrite H in E. injection E as <-. eapply peg_rule; [exact E'|]. apply IHD; [exact GX|exact I|exact V].
  - destruct (SC n) as (x & x' & E & _); [apply IN; constructor|]. congruence.
Qed.

(** .. and back. *)
Lemma back_choice : forall es x es', grown_choice new es (x :: es') -> (new x /\ grown_choice new es es') \/ exists e tl, es = e :: tl /\ grown new e x /\ grown_choice new tl es'.
Proof. intros es x es' H. inversion H; subst; [right; eauto|left; auto]. Qed.

Lemma grown_back : forall e' v r, peg G' e' v r -> forall e, grown new e e' -> inside e -> suffix s v -> peg G e v r.
Proof.
  intros e' v r D. induction D; intros e0 GE IN V; inversion GE; subst; try (constructor; assumption; fail); try (econstructor; eassumption; fail).
  - match goal with X : grown_parts _ _ _ |- _ => inversion X; subst end. apply peg_and_nil.
  - match goal with X : grown_parts _ _ _ |- _ => inversion X; subst end. apply in_and in IN. destruct IN as [I1 I2].
    eapply peg_and_cons; [apply IHD1; assumption|]. apply IHD2; [constructor; assumption|exact I2|exact (suffix_rest _ _ _ _ _ _ V D1)].
  - match goal with X : grown_parts _ _ _ |- _ => inversion X; subst end. apply in_and in IN. destruct IN as [I1 I2]. apply peg_and_stop; [apply IHD; assumption|assumption].
  - match goal with X : grown_choice _ _ _ |- _ => inversion X; subst end. apply peg_or_nil.
  - match goal with X : grown_choice _ _ _ |- _ => apply back_choice in X; destruct X as [[N _]|(y & tl & -> & GY & _)] end.
    + exfalso. apply H. symmetry. exact (peg_det _ _ _ _ (NEW _ _ N V) _ D).
    + apply in_or_ in IN. destruct IN as [I1 I2]. apply peg_or_first; [apply IHD; assumption|assumption].
  - match goal with X : grown_choice _ _ _ |- _ => apply back_choice in X; destruct X as [[_ GC]|(y & tl & -> & GY & GC)] end.
    + apply IHD2; [constructor; exact GC|exact IN|exact V].
    + apply in_or_ in IN. destruct IN as [I1 I2]. apply peg_or_next; [apply IHD1; assumption|]. apply IHD2; [constructor; exact GC|exact I2|exact V].
  - eapply peg_not_fail. apply IHD; [assumption|exact (in_not _ IN)|exact V].
  - eapply peg_not_ok; [apply IHD; [assumption|exact (in_not _ IN)|exact V]|assumption].
  - match goal with X : grown new ?y e |- _ => destruct (in_rep _ _ _ (pred mn) (option_map pred mx) IN) as [I1 I2] end. eapply peg_rep_more; [assumption|apply IHD1; assumption|].
    apply IHD2; [constructor; assumption|exact I2|exact (suffix_rest _ _ _ _ _ _ V D1)].
  - destruct (in_rep _ _ _ 0 mx IN) as [I1 I2]. apply peg_rep_done; [assumption|apply IHD; assumption].
  - destruct (in_rep _ _ _ 0 mx IN) as [I1 I2]. apply peg_rep_short; [assumption|assumption|apply IHD; assumption].
  - destruct (in_rep _ _ _ 0 mx IN) as [I1 I2]. apply peg_rep_abort; [assumption|apply IHD; assumption].
  - destruct (SC n) as (x & x' & E & E' & GX & I); [apply IN; constructor|]. rewrite H in E'. injection E' as <-. eapply peg_rule; [exact E|]. apply IHD; [exact GX|exact I|exact V].
  - destruct (SC n) as (x & x' & _ & E & _); [apply IN; constructor|]. congruence.
Qed.

End Grown.

Lemma answer_of_peg : forall s rs rs', sane_rules rs -> sane_rules rs' -> ascii s -> (forall r, peg_main rs s r <-> peg_main rs' s r) -> same_answer s rs rs'.
Proof.
  intros s rs rs' S S' A H. split; [|split].
  - intro ast. pose proof (parse_accepts_iff s rs false S A ast) as P. pose proof (parse_accepts_iff s rs' false S' A ast) as P'.
    unfold parse. rewrite P, P'. apply H.
  - rewrite (rejects_peg s rs S A), (rejects_peg s rs' S' A). split; intros (r & D & N); exists r; (split; [apply H; exact D|exact N]).
  - intros msg k. unfold aborts. rewrite (parse_abort_iff s rs msg k S A), (parse_abort_iff s rs' msg k S' A).
    split; intros (r & D & N); exists r; (split; [apply H; exact D|exact N]).
Qed.

Lemma old_texts : forall rs rs' s, sane_rules rs -> sane_rules rs' -> complete rs -> ascii s -> grown_rules (absent rs' s) rs rs' -> same_answer s rs rs'.
Proof.
  intros rs rs' s S S' [CM CR] A GR. apply answer_of_peg; [exact S|exact S'|exact A|]. intro r. unfold peg_main.
  assert (SC : forall n, rules_get rs n <> None -> exists e e', grammar_of rs n = Some e /\ grammar_of rs' n = Some e' /\ grown (absent rs' s) e e' /\ forall m, has_ref m e -> rules_get rs m <> None).
  { intros n N. destruct (rules_get rs n) as [e|] eqn:E; [|contradiction]. destruct (GR n e E) as (e' & E' & GE). exists e, e'. repeat (split; [assumption|]). intros m R. exact (CR n e m E R). }
  assert (IN : inside (fun n => rules_get rs n <> None) (RuleName main)) by (intros m R; inversion R; subst; exact CM).
  split; intro D; [eapply grown_forth|eapply grown_back]; try exact D; try exact SC; try exact IN; try (constructor; fail); try (exists []; reflexivity); intros x v N V; exact (absent_fails rs' s x N v V).
Qed.

(** * More alternatives of main *)

Lemma grown_refl : forall new e, grown new e e.
Proof.
  intro new. fix IH 1. intros [a|es|es|e|e mn mx|n]; try (constructor; fail); try (constructor; apply IH; fail).
  - apply gr_and. induction es as [|e es IHes]; constructor; [apply IH|exact IHes].
  - apply gr_or. induction es as [|e es IHes]; constructor; [apply IH|exact IHes].
Qed.

Lemma or_append : forall G es new v r, peg G (Or es) v r -> r <> PFail -> peg G (Or (es ++ new)) v r.
Proof.
  intros G es new v r D. remember (Or es) as x eqn:E. revert es E. induction D; intros es0 E N; try discriminate.
  - contradiction.
  - injection E as <-. apply peg_or_first; assumption.
  - injection E as <-. cbn [app]. apply peg_or_next; [assumption|]. apply IHD2; [reflexivity|exact N].
Qed.

Lemma main_grows : forall rs rs' es new s d t, sane_rules rs -> sane_rules rs' -> complete rs -> ascii s ->
  rules_get rs main = Some (Or es) -> rules_get rs' main = Some (Or (es ++ new)) ->
  (forall n e, n <> main -> rules_get rs n = Some e -> rules_get rs' n = Some e) -> (forall n e, rules_get rs n = Some e -> ~ has_ref main e) ->
  (exists fuel, parse_with_debug fuel s rs d = Ok t) -> exists fuel, parse_with_debug fuel s rs' d = Ok t.
Proof.
  intros rs rs' es new s d t S S' [CM CR] A E E' O U H. apply (parse_accepts_iff s rs d S A) in H. apply (parse_accepts_iff s rs' d S' A). unfold peg_main in *.
  apply inv_rule in H. destruct H as (e & k & E2 & T & D). unfold grammar_of in E2. rewrite E in E2. injection E2 as <-. rewrite T.
  eapply mk_rule; [exact E'|]. apply or_append; [|discriminate].
  assert (SC : forall n, n <> main /\ rules_get rs n <> None -> exists e e', grammar_of rs n = Some e /\ grammar_of rs' n = Some e' /\ grown (fun _ => False) e e' /\ forall m, has_ref m e -> m <> main /\ rules_get rs m <> None).
  { intros n [M N]. destruct (rules_get rs n) as [e|] eqn:En; [|contradiction]. exists e, e. split; [exact En|]. split; [exact (O n e M En)|]. split; [apply grown_refl|].
    intros m R. split; [intros ->; exact (U n e En R)|exact (CR n e m En R)]. }
  refine (grown_forth (grammar_of rs) (grammar_of rs') (fun _ => False) (fun n => n <> main /\ rules_get rs n <> None) s _ SC _ _ _ D _ (grown_refl _ _) _ _).
  - intros x v [].
  - intros m R. split; [intros ->; exact (U _ _ E R)|exact (CR _ _ m E R)].
  - exists []. reflexivity.
Qed.

(** * More is allowed *)

Section Looser.
Variables G G' : str -> option expr.
Hypothesis LG : forall n e, G n = Some e -> exists e', G' n = Some e' /\ looser e e'.

(** All of [e']'s wrappings follow from its core. *)
Lemma derives_alternative : forall e' es' w ts, In e' es' -> derives G' e' w ts -> derives G' (Or es') w ts.
Proof. intros e' es' w ts I D. exact (d_or G' e' es' w ts I D). Qed.
Lemma derives_optional : forall e' mx w ts, mx <> Some 0 -> derives G' e' w ts -> derives G' (Repeat e' 0 mx) w ts.
Proof. intros e' mx w ts X D. rewrite <- (app_nil_r w), <- (app_nil_r ts). eapply d_rep_more; [exact X|exact D|apply d_rep_stop]. Qed.

Lemma more_zero : forall mx mx', more mx mx' -> mx <> Some 0 -> mx' <> Some 0.
Proof. intros [m|] [m'|] H N E; cbn in H; try discriminate; try contradiction. injection E as ->. apply N. f_equal. lia. Qed.
Lemma more_pred : forall mx mx', more mx mx' -> more (option_map pred mx) (option_map pred mx').
Proof. intros [m|] [m'|] H; cbn in *; try exact H; lia. Qed.

Lemma looser_derives : forall e w ts, derives G e w ts -> forall e', looser e e' -> derives G' e' w ts.
Proof.
  induction 1; intros e' L.
  - remember (Simple (Literal l)) as x eqn:E. induction L; try discriminate; try (injection E as ->; constructor; fail); [eapply derives_alternative|eapply derives_optional]; eauto.
  - remember (Simple (Match cs rs)) as x eqn:E. induction L; try discriminate; try (injection E as ->; constructor; assumption; fail); [|eapply derives_alternative|eapply derives_optional]; eauto.
    injection E as -> ->. constructor. auto.
  - remember (Simple Dot) as x eqn:E. induction L; try discriminate; try (injection E as ->; constructor; fail); [eapply derives_alternative|eapply derives_optional]; eauto.
  - remember (Simple AEOF) as x eqn:E. induction L; try discriminate; try (injection E as ->; constructor; fail); [eapply derives_alternative|eapply derives_optional]; eauto.
  - remember (And []) as x eqn:E. induction L; try discriminate; [|eapply derives_alternative|eapply derives_optional]; eauto. injection E as ->.
    remember (@nil expr) as l eqn:El. induction H; try discriminate; [constructor|]. change (@nil char) with (@nil char ++ []). change (@nil node) with (@nil node ++ []). apply d_and_cons; [apply d_rep_stop|exact (IHlooser_parts El)].
  - remember (And (e :: es)) as x eqn:E. induction L; try discriminate; [|eapply derives_alternative|eapply derives_optional]; eauto. injection E as ->.
    remember (e :: es) as l eqn:El. match goal with X : looser_parts l _ |- _ => induction X; try discriminate end.
    + injection El as -> ->. constructor; [apply IHderives1; assumption|]. apply IHderives2. constructor. assumption.
    + change (w ++ v) with (@nil char ++ (w ++ v)). change (ts ++ us) with (@nil node ++ (ts ++ us)). apply d_and_cons; [apply d_rep_stop|exact (IHlooser_parts El)].
  - remember (Or es) as x eqn:E. induction L; try discriminate; [|eapply derives_alternative|eapply derives_optional]; eauto. injection E as ->.
    match goal with X : forall e, In e es -> _ |- _ => destruct (X e H) as (y & I & L) end. eapply d_or; [exact I|]. apply IHderives. exact L.
  - remember (Not e) as x eqn:E. induction L; try discriminate; [eapply derives_alternative|eapply derives_optional]; eauto.
  - remember (Repeat e 0 mx) as x eqn:E. induction L; try discriminate; [|eapply derives_alternative|eapply derives_optional]; eauto. injection E as -> -> ->.
    replace mn' with 0 by lia. apply d_rep_stop.
  - remember (Repeat e mn mx) as x eqn:E. induction L; try discriminate; [|eapply derives_alternative|eapply derives_optional]; eauto. injection E as -> -> ->.
    eapply d_rep_more; [eapply more_zero; eassumption|apply IHderives1; assumption|]. apply IHderives2. constructor; [assumption|lia|apply more_pred; assumption].
  - remember (RuleName n) as x eqn:E. induction L; try discriminate; [|eapply derives_alternative|eapply derives_optional]; eauto. injection E as ->.
    destruct (LG n e H) as (y & E' & L). eapply d_rule; [exact E'|]. apply IHderives. exact L.
Qed.

End Looser.

Lemma looser_predictive : forall rs rs', sane_rules rs -> sane_rules rs' -> well_formed (grammar_of rs') -> predictive_grammar (grammar_of rs') -> looser_rules rs rs' ->
  forall s d fuel t, ascii s -> parse_with_debug fuel s rs d = Ok t -> forall fuel', depth_factor rs' * (length s + 1) <= fuel' -> parse_with_debug fuel' s rs' d = Ok t.
Proof.
  intros rs rs' S S' WF PG L s d fuel t A H fuel' B. apply (predictive_parse rs' s d fuel' t S' WF PG A B).
  apply (looser_derives (grammar_of rs) (grammar_of rs') L (RuleName main)); [exact (accepted_derives rs fuel s d t S H)|constructor].
Qed.
