(** What the list of rules in an error says. *)
From Verif Require Import Base ModelAst ModelParser SpecPeg SpecPos SpecApi SpecReport SpecTrail.
From Verif Require Import PegTools ProofParser ProofEngine ProofApi ProofReport.

Section Trail.
Variable rs : rules.
Let G := grammar_of rs.

(** Finished trees, then rules that are not finished. *)
Definition shape (e : expr) (l : list str) : Prop :=
  exists ts p, l = flat_map rules_of ts ++ entered p /\ Forall (part rs e) ts /\
    (p = [] \/ exists n us q, p = (n, us) :: q /\ has_ref n e /\ unfinished rs p).

Definition good (e : expr) (r : eresult) : Prop :=
  match r with
  | EMatch ts rest p t => t = flat_map rules_of ts /\ Forall (part rs e) ts /\ (forall q, p = Some q -> shape e (r_trail q))
  | EFail q | EAbort q => shape e (r_trail q)
  end.

Definition within_refs (e E : expr) : Prop := forall n, has_ref n e -> has_ref n E.

Lemma part_mono : forall e E nd, within_refs e E -> part rs e nd -> part rs E nd.
Proof. intros e E nd H P. destruct P; constructor; auto. Qed.

Lemma parts_mono : forall e E l, within_refs e E -> Forall (part rs e) l -> Forall (part rs E) l.
Proof. intros e E l H F. eapply Forall_impl; [|exact F]. intros nd P. exact (part_mono e E nd H P). Qed.

Lemma shape_mono : forall e E l, within_refs e E -> shape e l -> shape E l.
Proof.
  intros e E l H (ts & p & -> & F & K). exists ts, p. split; [reflexivity|]. split; [exact (parts_mono e E ts H F)|].
  destruct K as [K|(n & us & q & K1 & K2 & K3)]; [left; exact K|right]. exists n, us, q. auto.
Qed.

Lemma good_mono : forall e E r, within_refs e E -> good e r -> good E r.
Proof.
  intros e E [ts rest p t|q|q] H K; cbn [good] in *; [|exact (shape_mono _ _ _ H K)|exact (shape_mono _ _ _ H K)].
  destruct K as (K1 & K2 & K3). split; [exact K1|]. split; [exact (parts_mono _ _ _ H K2)|]. intros q Q. exact (shape_mono _ _ _ H (K3 q Q)).
Qed.

Lemma shape_nil : forall e, shape e [].
Proof. intro e. exists [], []. auto. Qed.

Lemma shape_shift : forall e ts q, Forall (part rs e) ts -> shape e (r_trail q) -> shape e (r_trail (shift (flat_map rules_of ts) q)).
Proof.
  intros e ts q F (us & p & E & F' & K). exists (ts ++ us), p. cbn [shift r_trail]. rewrite E, flat_map_app, app_assoc. split; [reflexivity|].
  split; [apply Forall_app; auto|exact K].
Qed.

Lemma good_after : forall E ts s1 p t r, good E (EMatch ts s1 p t) -> good E r -> good E (after ts p t r).
Proof.
  intros E ts s1 p t r (-> & F & S1) K. destruct r as [us rest p' t'|q|q]; cbn [after good] in *; [|apply shape_shift; assumption|apply shape_shift; assumption].
  destruct K as (-> & F' & S2). split; [rewrite flat_map_app; reflexivity|]. split; [apply Forall_app; auto|].
  intros q Q. destruct p' as [q'|]; [injection Q as <-; apply shape_shift; auto|exact (S1 q Q)].
Qed.

Lemma entered_cons : forall n ts p, entered ((n, ts) :: p) = n :: flat_map rules_of ts ++ entered p.
Proof. reflexivity. Qed.

Lemma shape_within : forall n e q, rules_get rs n = Some e -> shape e (r_trail q) -> exists ts p, r_trail (shift [n] q) = entered ((n, ts) :: p) /\ unfinished rs ((n, ts) :: p).
Proof.
  intros n e q E (ts & p & L & F & K). cbn [shift r_trail app]. exists ts, p. rewrite L, entered_cons. split; [reflexivity|].
  destruct K as [-> |(m & us & p' & -> & H & U)]; [eapply un_last; eassumption|eapply un_more; eassumption].
Qed.

Lemma shape_name : forall n q ts p, r_trail q = entered ((n, ts) :: p) -> unfinished rs ((n, ts) :: p) -> shape (RuleName n) (r_trail q).
Proof. intros n q ts p E U. exists [], ((n, ts) :: p). split; [exact E|]. split; [constructor|]. right. exists n, ts, p. split; [reflexivity|]. split; [constructor|exact U]. Qed.

Lemma good_within : forall n e r, rules_get rs n = Some e -> good e r -> good (RuleName n) (within n r).
Proof.
  intros n e r E K. assert (S1 : forall q, shape e (r_trail q) -> shape (RuleName n) (r_trail (shift [n] q))).
  { intros q H. destruct (shape_within n e q E H) as (ts & p & L & U). exact (shape_name n _ ts p L U). }
  destruct r as [us rest p t|q|q]; cbn [within good] in *; [|auto|auto]. destruct K as (-> & F & K). split; [cbn; rewrite app_nil_r; reflexivity|]. split.
  - constructor; [|constructor]. apply pa_rule; [constructor|]. eapply fo_rule; eassumption.
  - intros q Q. destruct p as [q'|]; [|discriminate]. injection Q as <-. apply S1, K. reflexivity.
Qed.

Lemma further_shape : forall e o q, (forall x, o = Some x -> shape e (r_trail x)) -> shape e (r_trail q) -> shape e (r_trail (further o q)).
Proof. intros e [p|] q H K; cbn [further]; [|exact K]. destruct (length (r_rest p) <? length (r_rest q)); [apply H; reflexivity|exact K]. Qed.

Lemma all_good : (forall e s r, pege G e s r -> good e r) /\
  (forall es s o r, choice G es s o r -> forall E, Forall (fun x => within_refs x E) es -> (forall x, o = Some x -> shape E (r_trail x)) -> good E r).
Proof.
  apply pege_choice_ind.
  all: try (intros; cbn [good r_trail]; apply shape_nil).
  all: try (intros; split; [reflexivity|split; [repeat constructor|discriminate]]).
  - intros e es s ts s1 p t r _ H1 _ H2. eapply good_after.
    + eapply good_mono; [|exact H1]. intros n X. eapply hr_and; [left; reflexivity|exact X].
    + eapply good_mono; [|exact H2]. intros n X. inversion X; subst. eapply hr_and; [right; eassumption|assumption].
  - intros e es s r _ H _. eapply good_mono; [|exact H]. intros n X. eapply hr_and; [left; reflexivity|exact X].
  - intros es s r _ H. apply H; [|discriminate]. apply Forall_forall. intros x X n Y. eapply hr_or; eassumption.
  - intros e mn mx s ts s1 p t r _ _ H1 _ H2. eapply good_after.
    + eapply good_mono; [|exact H1]. intros n X. constructor. exact X.
    + eapply good_mono; [|exact H2]. intros n X. inversion X; subst. constructor. assumption.
  - intros e mx s q _ _ H. split; [reflexivity|]. split; [constructor|]. intros q' Q. injection Q as <-. eapply shape_mono; [|exact H]. intros n X. constructor. exact X.
  - intros e mn mx s q _ _ _ H. eapply shape_mono; [|exact H]. intros n X. constructor. exact X.
  - intros e mn mx s q _ _ H. eapply shape_mono; [|exact H]. intros n X. constructor. exact X.
  - intros n e s r E _ H. eapply good_within; eassumption.
  - intros n s E. eapply (shape_name n (Report (missing_rule_msg n) s [n]) [] []); [reflexivity|apply un_missing; exact E].
  - intros s q E _ H. apply H. reflexivity.
  - intros e es s o r _ H _ E F _. inversion F; subst. eapply good_mono; eassumption.
  - intros e es s o q r _ H _ IH E F S1. inversion F; subst. apply IH; [assumption|]. intros x X. injection X as <-. apply further_shape; [exact S1|]. eapply shape_mono; eassumption.
Qed.

Lemma main_good : forall s r, pege G (RuleName main) s r ->
  match r with
  | EMatch ts rest p t => t = flat_map rules_of ts /\ Forall (follows rs) ts /\
      (forall q, p = Some q -> exists us l, r_trail q = entered ((main, us) :: l) /\ unfinished rs ((main, us) :: l))
  | EFail q | EAbort q => exists us l, r_trail q = entered ((main, us) :: l) /\ unfinished rs ((main, us) :: l)
  end.
Proof.
  intros s r H. inversion H; subst.
  - match goal with E : G main = Some ?e, X : pege G ?e s ?r0 |- _ => pose proof (proj1 all_good _ _ _ X) as K; destruct r0 as [us rest p t|q|q]; cbn [within good] in * end.
    + destruct K as (-> & F & K). split; [cbn; rewrite app_nil_r; reflexivity|]. split.
      * constructor; [|constructor]. eapply fo_rule; eassumption.
      * intros q Q. destruct p as [q'|]; [|discriminate]. injection Q as <-. eapply shape_within; [eassumption|]. apply K. reflexivity.
    + eapply shape_within; eassumption.
    + eapply shape_within; eassumption.
  - exists [], []. split; [reflexivity|]. apply un_missing. assumption.
Qed.

End Trail.

Lemma trail : forall fuel s rs er, sane_rules rs -> ascii s -> parse_debug fuel s rs = Err er ->
  exists ts p, unfinished rs ((main, ts) :: p) /\ e_parsing_rules er = map shown_rule (entered ((main, ts) :: p)).
Proof.
  intros fuel s rs er SR A H. assert (X : exists f, parse_with_debug f s rs true = Err er) by (exists fuel; exact H).
  apply (parse_report_iff s rs true (Err er) SR A ltac:(discriminate)) in X. destruct X as (r & D & An). pose proof (main_good rs s r D) as K.
  inversion An; subst; cbn [error_at e_parsing_rules r_trail].
  - destruct K as (_ & _ & K). destruct (K _ eq_refl) as (us & l & E & U). exists us, l. rewrite E. auto.
  - destruct K as (-> & F & _). pose proof (pege_plain _ _ _ _ D) as P. cbn [plain] in P. apply inv_rule in P. destruct P as (e & k & Ge & -> & _).
    inversion F as [|? ? F1 _]; subst. inversion F1; subst. exists k, []. split; [eapply un_last; eassumption|]. cbn. rewrite !app_nil_r. reflexivity.
  - destruct K as (us & l & E & U). exists us, l. rewrite E. auto.
  - destruct K as (us & l & E & U). exists us, l. rewrite E. auto.
Qed.

(** Nothing else says that there is text left. *)
Definition leftover_msg : str := s_ "not consumed full input".

Definition other (r : eresult) : Prop :=
  match r with
  | EMatch _ _ p _ => forall q, p = Some q -> r_descr q <> leftover_msg
  | EFail q => r_descr q <> leftover_msg
  | EAbort _ => True
  end.

Lemma other_after : forall ts p t r, (forall q, p = Some q -> r_descr q <> leftover_msg) -> other r -> other (after ts p t r).
Proof.
  intros ts p t r H K. destruct r as [us rest p' t'|q|q]; cbn [after other shift r_descr] in *; [|exact K|exact K].
  intros q Q. destruct p' as [q'|]; [injection Q as <-; cbn; auto|auto].
Qed.

Lemma other_within : forall n r, other r -> other (within n r).
Proof.
  intros n r K. destruct r as [us rest p t|q|q]; cbn [within other shift r_descr] in *; [|exact K|exact K].
  intros q Q. destruct p as [q'|]; [injection Q as <-; cbn; auto|discriminate].
Qed.

Lemma all_other : forall G, (forall e s r, pege G e s r -> other r) /\
  (forall es s o r, choice G es s o r -> (forall x, o = Some x -> r_descr x <> leftover_msg) -> other r).
Proof.
  intro G. apply pege_choice_ind; intros; try (cbn; discriminate); try exact Logic.I; try assumption; try (apply other_after; assumption); try (apply other_within; assumption).
  - match goal with H : _ -> other r |- _ => apply H; discriminate end.
  - cbn. intros x X. injection X as <-. assumption.
  - cbn. match goal with H : forall x, _ |- _ => apply H; reflexivity end.
  - match goal with H : _ -> other r |- _ => apply H end. intros x X. injection X as <-. destruct o as [p|]; cbn [further]; [|assumption].
    destruct (length (r_rest p) <? length (r_rest q)); auto.
Qed.

Lemma leftover_trail : forall fuel s rs er, sane_rules rs -> ascii s -> parse_debug fuel s rs = Err er ->
  e_priority er = Normal -> e_descr er = s_ "not consumed full input" ->
  exists t rest, peg_main rs s (PMatch [t] rest) /\ rest <> [] /\ e_parsing_rules er = map shown_rule (rules_of t).
Proof.
  intros fuel s rs er SR A H N De. assert (X : exists f, parse_with_debug f s rs true = Err er) by (exists fuel; exact H).
  apply (parse_report_iff s rs true (Err er) SR A ltac:(discriminate)) in X. destruct X as (r & D & An).
  pose proof (proj1 (all_other _) _ _ _ D) as O. pose proof (pege_plain _ _ _ _ D) as P. pose proof (main_good rs s r D) as K.
  inversion An; subst; cbn [error_at e_parsing_rules e_descr e_priority r_trail r_descr other plain] in *.
  - exfalso. exact (O _ eq_refl De).
  - destruct K as (-> & _ & _). assert (W : exists t, ts = [t]).
    { apply inv_rule in P. destruct P as (e & k & _ & -> & _). eauto. }
    destruct W as [t ->]. exists t, (c :: rest). split; [exact P|]. split; [discriminate|]. cbn. rewrite app_nil_r. reflexivity.
  - contradiction.
  - discriminate.
Qed.
