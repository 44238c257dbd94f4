(** The engine against the reporting semantics. *)
From Verif Require Import Base ModelAst ModelParser SpecPeg SpecPos SpecApi SpecReport ProofParser ProofEngine ProofApi.

Scheme pege_mind := Minimality for pege Sort Prop
  with choice_mind := Minimality for choice Sort Prop.
Combined Scheme pege_choice_ind from pege_mind, choice_mind.

(* ------------------------------------------------------------------------------------------- *)
(** * Reports forgotten *)

Lemma plain_after : forall ts p t r, plain (after ts p t r) = prepend ts (plain r).
Proof. intros ts p t [us rest p' t'|q|q]; reflexivity. Qed.

Lemma plain_within : forall n r, plain (within n r) = wrap n (plain r).
Proof. intros n [us rest p t|q|q]; reflexivity. Qed.

Lemma plain_stops : forall r, estops r -> stops (plain r).
Proof. intros [ts rest p t|q|q] H; exact H. Qed.

Lemma lit_stops_nomatch : forall l s rest, lit_stops l s rest -> forall x, s <> l ++ x.
Proof.
  intros l s rest H. induction H as [c l|c l d s N|c l s rest H IH]; intros x E; cbn in E.
  - discriminate.
  - injection E as E _. congruence.
  - injection E as E. apply (IH x E).
Qed.

Lemma pege_plain_both : forall G,
  (forall e s r, pege G e s r -> peg G e s (plain r)) /\
  (forall es s o r, choice G es s o r -> peg G (Or es) s (plain r)).
Proof.
  intro G. apply pege_choice_ind; intros; cbn [plain]; rewrite ?plain_after, ?plain_within; try (constructor; fail).
  - apply peg_lit_fail. exact (lit_stops_nomatch _ _ _ H).
  - apply peg_class_ok. assumption.
  - apply peg_class_fail. intros c' r' E. congruence.
  - apply peg_class_fail. intros c' r' E. congruence.
  - eapply peg_and_cons; eassumption.
  - apply peg_and_stop; [assumption|apply plain_stops; assumption].
  - assumption.
  - eapply peg_not_fail. eassumption.
  - eapply peg_not_ok; [eassumption|apply plain_stops; assumption].
  - eapply peg_rep_more; eassumption.
  - apply peg_rep_done; assumption.
  - apply peg_rep_short; assumption.
  - apply peg_rep_abort; assumption.
  - eapply peg_rule; eassumption.
  - apply peg_rule_missing. assumption.
  - apply peg_or_first; [assumption|]. destruct r; cbn in *; try discriminate. tauto.
  - apply peg_or_next; assumption.
Qed.

Lemma pege_plain : forall G e s r, pege G e s r -> peg G e s (plain r).
Proof. intro G. apply pege_plain_both. Qed.

(* ------------------------------------------------------------------------------------------- *)
(** * Determinism *)

Lemma lit_stops_det : forall l s a, lit_stops l s a -> forall b, lit_stops l s b -> a = b.
Proof.
  intros l s a H. induction H; intros b Hb; inversion Hb; subst; try congruence; auto.
Qed.

Ltac det_step :=
  repeat match goal with
  | H : ?l ++ _ = ?l ++ _ |- _ => apply app_inv_head in H; subst
  | H : forall r2, pege ?G ?e ?s r2 -> ?r = r2, H' : pege ?G ?e ?s ?x |- _ => apply H in H'; subst
  | H : forall r2, choice ?G ?e ?s ?o r2 -> ?r = r2, H' : choice ?G ?e ?s ?o ?x |- _ => apply H in H'; subst
  | H : EMatch _ _ _ _ = EMatch _ _ _ _ |- _ => injection H as ? ? ? ?; subst
  | H : EFail _ = EFail _ |- _ => injection H as ?; subst
  | H : estops (EMatch _ _ _ _) |- _ => destruct H
  | H : ~ is_fail (EFail _) |- _ => exfalso; apply H; exact I
  | H : EFail _ = EMatch _ _ _ _ |- _ => discriminate H
  | H : EMatch _ _ _ _ = EFail _ |- _ => discriminate H
  | H : EAbort _ = EMatch _ _ _ _ |- _ => discriminate H
  | H : EMatch _ _ _ _ = EAbort _ |- _ => discriminate H
  | H : EFail _ = EAbort _ |- _ => discriminate H
  | H : EAbort _ = EFail _ |- _ => discriminate H
  end.

Lemma pege_det_both : forall G,
  (forall e s r1, pege G e s r1 -> forall r2, pege G e s r2 -> r1 = r2) /\
  (forall es s o r1, choice G es s o r1 -> forall r2, choice G es s o r2 -> r1 = r2).
Proof.
  intro G. apply pege_choice_ind; intros;
    match goal with H : pege _ _ _ ?r |- _ = ?r => inversion H; subst | H : choice _ _ _ _ ?r |- _ = ?r => inversion H; subst end;
    det_step; try reflexivity; try congruence; try contradiction; try lia.
  - exfalso. eapply lit_stops_nomatch; [eassumption|reflexivity].
  - exfalso. eapply lit_stops_nomatch; [eassumption|reflexivity].
  - do 2 f_equal. eapply lit_stops_det; eassumption.
  - match goal with A : G n = Some ?x, B : G n = Some ?y |- _ => assert (x = y) by congruence; subst end.
    f_equal. auto.
Qed.

Lemma pege_det : forall G e s r1, pege G e s r1 -> forall r2, pege G e s r2 -> r1 = r2.
Proof. intro G. apply pege_det_both. Qed.

(* ------------------------------------------------------------------------------------------- *)
(** * The engine produces the reports of the semantics *)

Definition wk (st : status) (t : list str) : list str :=
  walking_rules st ++ (if trace_rules st then map (fun n => s_ "r:" ++ n) t else []).

Definition err_of (st : status) (p : prio) (q : report) : perror :=
  PError (pos_of (before (text2parse st) (r_rest q))) (r_descr q) (tail_after is_nl (before (text2parse st) (r_rest q)))
         (until_eol (r_rest q)) (wk st (r_trail q)) p.

Lemma wk_nil : forall st, wk st [] = walking_rules st.
Proof. intro st. unfold wk. destruct (trace_rules st); apply app_nil_r. Qed.

Lemma err_of_shift : forall st st' t p q, text2parse st' = text2parse st -> trace_rules st' = trace_rules st ->
  walking_rules st' = wk st t -> err_of st' p q = err_of st p (shift t q).
Proof.
  intros st st' t p q T R W. unfold err_of, shift. cbn [r_rest r_descr r_trail]. rewrite T. f_equal.
  unfold wk. rewrite R, W. unfold wk. destruct (trace_rules st); rewrite ?map_app, <- ?app_assoc; reflexivity.
Qed.

Lemma shift_nil : forall q, shift [] q = q.
Proof. intros [d r t]. reflexivity. Qed.

Lemma before_app : forall pre rest, before (pre ++ rest) rest = pre.
Proof.
  intros pre rest. unfold before. rewrite app_length. replace (length pre + length rest - length rest) with (length pre) by lia.
  rewrite firstn_app, Nat.sub_diag, firstn_all. cbn. apply app_nil_r.
Qed.

Lemma from_status_exact : forall st d p, inv st -> ascii (text2parse st) ->
  from_status st d p = Some (err_of st p (Report d (it_parsing st) [])).
Proof.
  intros st d p I As. destruct (from_status st d p) as [er|] eqn:F; [|exfalso; exact (from_status_ascii st d p I As F)].
  f_equal. destruct (from_status_ok _ _ _ _ I F) as ((pre & post & T & _ & P & LA & LB) & A & B & C & D).
  destruct I as [(pre0 & T0 & P0) _].
  assert (E : pre = pre0 /\ post = it_parsing st).
  { assert (L : length pre = length pre0).
    { rewrite P in C. rewrite P0 in C. apply (f_equal pn) in C. exact C. }
    rewrite T0 in T. symmetry in T.
    destruct (app_eq_app _ _ _ _ T) as (x & [[E1 E2]|[E1 E2]]); subst; rewrite app_length in L;
      (destruct x; [rewrite app_nil_r; auto|cbn in L; lia]). }
  destruct E as [-> ->]. unfold err_of. cbn [r_rest r_descr r_trail]. rewrite wk_nil, T0, before_app. rewrite T0 in LB.
  destruct er as [ep ed elb ela epr epp]. cbn in *. rewrite LB by (rewrite <- T0; exact As). subst. reflexivity.
Qed.

Lemma err_status_exact : forall A st d p, inv st -> ascii (text2parse st) ->
  @err_status A st d p = Err (err_of st p (Report d (it_parsing st) [])).
Proof. intros A st d p I As. unfold err_status. rewrite from_status_exact by assumption. reflexivity. Qed.

Lemma err_of_same : forall st st' p q, text2parse st' = text2parse st -> trace_rules st' = trace_rules st ->
  walking_rules st' = walking_rules st -> err_of st' p q = err_of st p q.
Proof.
  intros st st' p q T R W. rewrite (err_of_shift st st' [] p q T R); [rewrite shift_nil; reflexivity|]. rewrite wk_nil. exact W.
Qed.

Definition esound (G : str -> option expr) (acc : list node) (st : status) (e : expr) (r : result_expr) : Prop :=
  match r with
  | Ok (st', ts) => exists us p t, ts = acc ++ us /\ pege G e (it_parsing st) (EMatch us (it_parsing st') p t) /\
      potential_error st' = (match p with Some q => Some (err_of st Normal q) | None => potential_error st end) /\
      walking_rules st' = wk st t
  | Err er => (exists q, er = err_of st Normal q /\ pege G e (it_parsing st) (EFail q)) \/
              (exists q, er = err_of st Critical q /\ pege G e (it_parsing st) (EAbort q))
  | Panic => False
  | Fuel => True
  end.

Lemma literal_loop_report : forall l chs st, inv st -> ascii (text2parse st) ->
  match parse_literal_loop l st chs with
  | Ok st' => it_parsing st = chs ++ it_parsing st' /\ same_side st st'
  | Err er => exists rest, lit_stops chs (it_parsing st) rest /\ er = err_of st Normal (Report (lit_msg l) rest [])
  | Panic => False
  | Fuel => False
  end.
Proof.
  intros l chs. induction chs as [|ch chs IH]; intros st I As; cbn [parse_literal_loop].
  - split; [reflexivity|split; reflexivity].
  - unfold parse_char. pose proof (get_char_spec st I) as H. destruct (get_char st) as [[st' c]|st'].
    + destruct H as (I' & AD & E & S1 & S2). destruct AD as (T & R & _). destruct (N.eqb ch c) eqn:Q.
      * apply N.eqb_eq in Q. subst c. assert (As' : ascii (text2parse st')) by (rewrite T; exact As).
        specialize (IH st' I' As'). destruct (parse_literal_loop l st' chs) as [st2|er| |]; try contradiction.
        -- destruct IH as [IH1 [IH2 IH3]]. split; [rewrite E, IH1; reflexivity|]. split; congruence.
        -- destruct IH as (rest & IH1 & ->). exists rest. split; [rewrite E; apply ls_same; exact IH1|].
           apply err_of_same; assumption.
      * apply N.eqb_neq in Q. unfold err_normal. rewrite err_status_exact by (try rewrite T; assumption).
        exists (it_parsing st'). split; [rewrite E; apply ls_differ; exact Q|]. apply err_of_same; assumption.
    + destruct H as [-> E]. unfold err_normal. rewrite err_status_exact by assumption. rewrite E. exists [].
      split; [apply ls_end|reflexivity].
Qed.

Lemma debug_char_shown : forall c, debug_char c = shown_char c.
Proof.
  intro c. unfold shown_char, debug_char. change (s_ "'") with [ch_quote]. f_equal. f_equal.
  assert (K : (c <? 174)%N = true \/ (c <? 174)%N = false) by (destruct (c <? 174)%N; auto). destruct K as [K|K].
  - apply N.ltb_lt in K. rewrite <- (N2Nat.id c). assert (L : N.to_nat c < 174) by lia. generalize (N.to_nat c) L. clear.
    intros n L. do 174 (destruct n as [|n]; [vm_compute; reflexivity|]). lia.
  - assert (E : forall k, (k < 174)%N -> N.eqb c k = false) by (intros k Lk; apply N.eqb_neq; apply N.ltb_ge in K; lia).
    unfold escape_plain, short_escapes. cbn [find fst]. rewrite !(N.eqb_sym _ c), !E by reflexivity.
    apply N.ltb_ge in K. rewrite !(proj2 (N.ltb_ge c _)) by lia. rewrite !(proj2 (N.leb_gt c _)) by lia. rewrite !andb_false_r. cbn [orb]. rewrite ?(E 173%N eq_refl). reflexivity.
Qed.

Lemma class_msg_eq : forall cs rs, s_ "match. expected " ++ cs ++ s_ " " ++ debug_ranges rs = class_msg cs rs.
Proof.
  intros cs rs. unfold class_msg. do 2 f_equal. unfold debug_ranges. change (s_ " [") with (s_ " " ++ s_ "[").
  rewrite <- app_assoc. do 3 f_equal.
  induction rs as [|[a b] rs IH]; [reflexivity|]. cbn [debug_ranges_aux map comma_separated].
  destruct rs as [|r rs]; rewrite !debug_char_shown; [reflexivity|]. rewrite IH. unfold show_range. cbn [fst snd map]. rewrite <- !app_assoc. reflexivity.
Qed.

Lemma atom_report : forall G st a, inv st -> ascii (text2parse st) ->
  esound G [] st (Simple a) (let? (st', nd) := parse_atom st a in Ok (st', [nd])).
Proof.
  intros G st a I As. destruct a as [l|cs rs|m| |]; cbn [parse_atom].
  - unfold parse_literal. pose proof (literal_loop_report l l st I As) as H.
    destruct (parse_literal_loop l st l) as [st'|er| |]; cbn [bind]; try contradiction.
    + destruct H as [E [S1 S2]]. exists [Val l], None, []. rewrite wk_nil, E. repeat split; try assumption. apply ee_lit_ok.
    + destruct H as (rest & H & ->). left. eexists. split; [reflexivity|]. apply ee_lit_fail. exact H.
  - unfold parse_match, err_normal. rewrite class_msg_eq. pose proof (get_char_spec st I) as H. destruct (get_char st) as [[st' c]|st'].
    + destruct H as (I' & AD & E & S1 & S2). destruct AD as (T & R & _). destruct (match_char cs rs c) eqn:M; cbn [bind].
      * exists [Val [c]], None, []. rewrite wk_nil, E. repeat split; try assumption. apply ee_class_ok, match_char_iff, M.
      * rewrite err_status_exact by (try rewrite T; assumption). cbn [bind]. left. eexists.
        split; [apply err_of_same; assumption|]. rewrite E. apply ee_class_fail. intro C. apply match_char_iff in C. congruence.
    + destruct H as [-> E]. rewrite err_status_exact by assumption. cbn [bind]. left. eexists. split; [reflexivity|].
      rewrite E. apply ee_class_end.
  - unfold parse_error. rewrite err_status_exact by assumption. cbn [bind]. right. eexists. split; [reflexivity|]. apply ee_error.
  - unfold parse_dot, err_normal. pose proof (get_char_spec st I) as H. destruct (get_char st) as [[st' c]|st']; cbn [bind].
    + destruct H as (I' & AD & E & S1 & S2). exists [Val [c]], None, []. rewrite wk_nil, E. repeat split; try assumption. apply ee_dot_ok.
    + destruct H as [-> E]. rewrite err_status_exact by assumption. cbn [bind]. left. eexists. split; [reflexivity|].
      rewrite E. apply ee_dot_fail.
  - unfold parse_eof, err_normal. pose proof (get_char_spec st I) as H. destruct (get_char st) as [[st' c]|st']; cbn [bind].
    + destruct H as (I' & AD & E & S1 & S2). destruct AD as (T & R & _).
      rewrite err_status_exact by (try rewrite T; assumption). cbn [bind]. left. eexists.
      split; [apply err_of_same; assumption|]. rewrite E. apply ee_eof_fail.
    + destruct H as [-> E]. exists [Val (s_ "EOF")], None, []. rewrite wk_nil, E. repeat split. apply ee_eof_ok.
Qed.

(** Sequencing two steps. *)
Lemma esound_after : forall G acc st st' e1 e2 e ts p t r,
  pege G e1 (it_parsing st) (EMatch ts (it_parsing st') p t) ->
  text2parse st' = text2parse st -> trace_rules st' = trace_rules st ->
  potential_error st' = (match p with Some q => Some (err_of st Normal q) | None => potential_error st end) ->
  walking_rules st' = wk st t ->
  (forall r', pege G e2 (it_parsing st') r' -> pege G e (it_parsing st) (after ts p t r')) ->
  esound G (acc ++ ts) st' e2 r -> esound G acc st e r.
Proof.
  intros G acc st st' e1 e2 e ts p t r D T R PE W K H. destruct r as [[st2 ts2]|er| |]; cbn in *; try assumption.
  - destruct H as (us & p' & t' & -> & D2 & PE2 & W2). exists (ts ++ us).
    exists (match p' with Some q => Some (shift t q) | None => p end), (t ++ t'). rewrite app_assoc.
    split; [reflexivity|]. split; [exact (K _ D2)|]. split.
    + rewrite PE2. destruct p' as [q|]; [rewrite (err_of_shift st st' t) by assumption; reflexivity|exact PE].
    + rewrite W2. unfold wk. rewrite R, W. unfold wk. destruct (trace_rules st); rewrite ?map_app, <- ?app_assoc; reflexivity.
  - destruct H as [(q & -> & D2)|(q & -> & D2)].
    + left. exists (shift t q). split; [apply err_of_shift; assumption|exact (K _ D2)].
    + right. exists (shift t q). split; [apply err_of_shift; assumption|exact (K _ D2)].
Qed.

Section Engine.
Variable rs : rules.
Hypothesis SR : sane_rules rs.
Let G := rules_get rs.

Section Loops.
Variable f : nat.
Let pe := parse_expr rs f.
Hypothesis IHf : forall st e, sane e -> inv st -> ascii (text2parse st) -> esound G [] st e (pe st e).

Lemma step : forall st e, inv st -> ascii (text2parse st) ->
  match pe st e with Ok (st', _) => inv st' /\ adv st st' /\ ascii (text2parse st') | _ => True end.
Proof.
  intros st e I As. pose proof (parse_expr_good rs f st e I) as H. fold pe in H.
  destruct (pe st e) as [[st' ts]|er| |]; try exact Logic.I. destruct H as [H1 H2]. split; [exact H1|]. split; [exact H2|].
  destruct H2 as (T & _). rewrite T. exact As.
Qed.

Lemma and_report : forall es st acc, Forall sane es -> inv st -> ascii (text2parse st) ->
  esound G acc st (And es) (parse_and pe st es acc).
Proof.
  induction es as [|e es IH]; intros st acc S I As; cbn [parse_and].
  - exists [], None, []. rewrite app_nil_r, wk_nil. repeat split. apply ee_and_nil.
  - inversion S as [|? ? S1 S2]; subst. pose proof (IHf st e S1 I As) as H. pose proof (step st e I As) as ST.
    destruct (pe st e) as [[st' ts]|er| |]; try contradiction; try exact Logic.I.
    + destruct ST as (I' & AD & As'). destruct H as (us & p & t & E & D & PE & W). cbn in E. subst us.
      destruct AD as (T & R & _). eapply esound_after; try eassumption; [|apply IH; assumption].
      intros r' D'. eapply ee_and_cons; eassumption.
    + destruct H as [(q & -> & D)|(q & -> & D)]; [left|right]; exists q; (split; [reflexivity|]);
        apply ee_and_stop; try assumption; exact Logic.I.
Qed.

(** The pending best failure of a choice. *)
Definition oerr (st : status) (o : option report) : option perror := option_map (err_of st Normal) o.
Definition osuffix (st : status) (o : option report) : Prop :=
  match o with Some q => exists pre, text2parse st = pre ++ r_rest q | None => True end.

Lemma pn_err_of : forall st p q pre, text2parse st = pre ++ r_rest q ->
  pn (e_pos (err_of st p q)) + length (r_rest q) = length (text2parse st).
Proof. intros st p q pre E. cbn. rewrite E, before_app, app_length. reflexivity. Qed.

Lemma deep_further : forall st o q, osuffix st o -> osuffix st (Some q) ->
  deep_err (oerr st o) (err_of st Normal q) = oerr st (Some (further o q)) /\ osuffix st (Some (further o q)).
Proof.
  intros st [p|] q Ho Hq; cbn [oerr option_map further]; [|split; [reflexivity|exact Hq]].
  destruct Ho as [a Ha]. destruct Hq as [b Hb].
  unfold deep_err. cbn [prio_gt e_priority err_of].
  pose proof (pn_err_of st Normal p a Ha) as L1. pose proof (pn_err_of st Normal q b Hb) as L2.
  change (PError (pos_of (before (text2parse st) (r_rest q))) (r_descr q) (tail_after is_nl (before (text2parse st) (r_rest q))) (until_eol (r_rest q)) (wk st (r_trail q)) Normal) with (err_of st Normal q).
  change (PError (pos_of (before (text2parse st) (r_rest p))) (r_descr p) (tail_after is_nl (before (text2parse st) (r_rest p))) (until_eol (r_rest p)) (wk st (r_trail p)) Normal) with (err_of st Normal p).
  destruct (Nat.ltb_spec (pn (e_pos (err_of st Normal q))) (pn (e_pos (err_of st Normal p)))) as [L|L];
    destruct (Nat.ltb_spec (length (r_rest p)) (length (r_rest q))) as [M|M]; try lia; cbn.
  - split; [reflexivity|]. exists a. exact Ha.
  - split; [reflexivity|]. exists b. exact Hb.
Qed.

Lemma or_report : forall es st o, Forall sane es -> inv st -> ascii (text2parse st) -> osuffix st o ->
  match parse_or pe st es (oerr st o) with
  | Ok (st', ts) => exists p t, choice G es (it_parsing st) o (EMatch ts (it_parsing st') p t) /\
      potential_error st' = (match p with Some q => Some (err_of st Normal q) | None => potential_error st end) /\
      walking_rules st' = wk st t
  | Err er => (exists q, er = err_of st Normal q /\ choice G es (it_parsing st) o (EFail q)) \/
              (exists q, er = err_of st Critical q /\ choice G es (it_parsing st) o (EAbort q))
  | Panic => False
  | Fuel => True
  end.
Proof.
  induction es as [|e es IH]; intros st o S I As O; cbn [parse_or].
  - destruct o as [q|]; cbn [oerr option_map].
    + left. exists q. split; [reflexivity|apply ch_end].
    + unfold err_normal. rewrite err_status_exact by assumption. left. eexists. split; [reflexivity|apply ch_none].
  - inversion S as [|? ? S1 S2]; subst. pose proof (IHf st e S1 I As) as H. pose proof (step st e I As) as ST.
    pose proof (parse_expr_good rs f st e I) as GD. fold pe in GD.
    destruct (pe st e) as [[st' ts]|er| |]; try contradiction; try exact Logic.I.
    + destruct H as (us & p & t & E & D & PE & W). cbn in E. subst us. exists p, t. split; [|split; assumption].
      apply ch_first; [exact D|]. intros [].
    + destruct H as [(q & -> & D)|(q & -> & D)].
      * cbn [is_critical e_priority err_of].
        assert (Hq : osuffix st (Some q)).
        { pose proof (pege_plain G _ _ _ D) as PD.
          clear - GD D I As IHf. (* the report stands in the text *)
          assert (X : forall G,
            (forall e s r, pege G e s r -> match r with EMatch _ rest p _ => (exists c, s = c ++ rest) /\ match p with Some q => exists c, s = c ++ r_rest q | None => True end | EFail q | EAbort q => exists c, s = c ++ r_rest q end) /\
            (forall es s o r, choice G es s o r -> match o with Some q => exists c, s = c ++ r_rest q | None => True end ->
               match r with EMatch _ rest p _ => (exists c, s = c ++ rest) /\ match p with Some q => exists c, s = c ++ r_rest q | None => True end | EFail q | EAbort q => exists c, s = c ++ r_rest q end)).
          { clear. intro G. apply pege_choice_ind; intros; cbn [r_rest];
              try (exists []; reflexivity); try (split; [exists []; reflexivity|exact I]).
            - split; [exists l; reflexivity|exact I].
            - induction H as [c l|c l d s N|c l s rest H [x IH]]; [exists []; reflexivity|exists [d]; reflexivity|].
              exists (c :: x). cbn. rewrite IH. reflexivity.
            - split; [exists [c]; reflexivity|exact I].
            - exists [c]; reflexivity.
            - split; [exists [c]; reflexivity|exact I].
            - exists [c]; reflexivity.
            - destruct H0 as [[a ->] Hp]. destruct r as [us rest p' t'|q|q]; cbn [after shift r_rest].
              + destruct H2 as [[b ->] Hp']. split; [exists (a ++ b); apply app_assoc|].
                destruct p' as [q|]; [|exact Hp]. cbn [shift r_rest]. destruct Hp' as [x ->]. exists (a ++ x). apply app_assoc.
              + destruct H2 as [b ->]. exists (a ++ b). apply app_assoc.
              + destruct H2 as [b ->]. exists (a ++ b). apply app_assoc.
            - exact H0.
            - apply H0. exact I.
            - destruct H1 as [[a ->] Hp]. destruct r as [us rest p' t'|q|q]; cbn [after shift r_rest].
              + destruct H3 as [[b ->] Hp']. split; [exists (a ++ b); apply app_assoc|].
                destruct p' as [q|]; [|exact Hp]. cbn [shift r_rest]. destruct Hp' as [x ->]. exists (a ++ x). apply app_assoc.
              + destruct H3 as [b ->]. exists (a ++ b). apply app_assoc.
              + destruct H3 as [b ->]. exists (a ++ b). apply app_assoc.
            - split; [exists []; reflexivity|exact H1].
            - exact H2.
            - exact H1.
            - destruct r as [us rest p t|q|q]; cbn [within shift r_rest]; [|exact H1|exact H1].
              destruct H1 as [H1 H2]. split; [exact H1|]. destruct p as [q|]; exact H2.
            - exact H.
            - exact H0.
            - apply H2. cbn. unfold further. destruct o as [p|]; [|exact H0]. destruct (_ <? _); assumption. }
          destruct (proj1 (X G) _ _ _ D) as [c E]. destruct I as [(pre & T & _) _]. cbn. rewrite T, E.
          exists (pre ++ c). apply app_assoc. }
        destruct (deep_further st o q O Hq) as [E1 E2].
        change (PError (pos_of (before (text2parse st) (r_rest q))) (r_descr q) (tail_after is_nl (before (text2parse st) (r_rest q))) (until_eol (r_rest q)) (wk st (r_trail q)) Normal) with (err_of st Normal q).
        rewrite E1. specialize (IH st (Some (further o q)) S2 I As E2).
        destruct (parse_or pe st es (oerr st (Some (further o q)))) as [[st2 ts2]|er2| |]; try assumption.
        -- destruct IH as (p & t & C & PE & W). exists p, t. split; [|split; assumption]. eapply ch_next; eassumption.
        -- destruct IH as [(q2 & -> & C)|(q2 & -> & C)]; [left|right]; exists q2; (split; [reflexivity|]); eapply ch_next; eassumption.
      * cbn [is_critical e_priority err_of]. right. exists q. split; [reflexivity|]. apply ch_first; [exact D|]. intros [].
Qed.

Lemma rep_report : forall e mn mx, sane e -> match mx with Some m => mn <= m | None => True end ->
  forall g st c acc, inv st -> ascii (text2parse st) -> match mx with Some m => c < m | None => True end ->
  esound G acc st (Repeat e (mn - c) (rest_max mx c)) (parse_repeat g pe st e mn mx c acc).
Proof.
  intros e mn mx S SN. induction g as [|g IH]; intros st c acc I As L; cbn [parse_repeat]; [exact Logic.I|].
  assert (NZ : rest_max mx c <> Some 0).
  { destruct mx as [m|]; cbn; [|discriminate]. intro E. injection E as E. lia. }
  pose proof (IHf st e S I As) as H. pose proof (step st e I As) as ST.
  destruct (pe st e) as [[st' ts]|er| |]; try contradiction; try exact Logic.I.
  - destruct ST as (I' & AD & As'). destruct H as (us & p & t & E & D & PE & W). cbn in E. subst us.
    destruct AD as (T & R & _). destruct (touch_max_bound mx c) eqn:TM.
    + exists ts, p, t. split; [reflexivity|]. split; [|split; assumption].
      replace (EMatch ts (it_parsing st') p t) with (after ts p t (EMatch [] (it_parsing st') None []))
        by (cbn; rewrite !app_nil_r; reflexivity).
      eapply ee_rep_more; [exact NZ|exact D|]. destruct mx as [m|]; [|discriminate]. cbn in *.
      apply Nat.eqb_eq in TM. replace (pred (mn - c)) with 0 by lia. replace (pred (m - c)) with 0 by lia. apply ee_rep_full.
    + assert (L' : match mx with Some m => c + 1 < m | None => True end).
      { destruct mx as [m|]; [|exact Logic.I]. cbn in TM. apply Nat.eqb_neq in TM. lia. }
      specialize (IH st' (c + 1) (acc ++ ts) I' As' L').
      assert (E1 : mn - (c + 1) = pred (mn - c)) by lia.
      assert (E2 : rest_max mx (c + 1) = option_map pred (rest_max mx c)).
      { destruct mx as [m|]; cbn; [|reflexivity]. f_equal. lia. }
      rewrite E1, E2 in IH. eapply esound_after; try eassumption. intros r' D'. eapply ee_rep_more; eassumption.
  - destruct H as [(q & -> & D)|(q & -> & D)]; unfold big_min_bound; destruct (Nat.leb_spec mn c) as [B|B]; cbn [is_critical e_priority err_of].
    + exists [], (Some q), []. rewrite app_nil_r, wk_nil. cbn [it_parsing potential_error walking_rules set_potential_error].
      split; [reflexivity|]. split; [|split; reflexivity]. replace (mn - c) with 0 by lia. apply ee_rep_done; assumption.
    + left. exists q. split; [reflexivity|]. apply ee_rep_short; [assumption|lia|assumption].
    + right. exists q. split; [reflexivity|]. apply ee_rep_abort; assumption.
    + right. exists q. split; [reflexivity|]. apply ee_rep_abort; assumption.
Qed.

Lemma rule_report : forall st n, inv st -> ascii (text2parse st) ->
  esound G [] st (RuleName n) (let? (st', nd) := parse_rule_name pe rs st n in Ok (st', [nd])).
Proof.
  intros st n I As. unfold parse_rule_name.
  set (st1 := if trace_rules st then push_rule st (s_ "r:" ++ n) else st).
  assert (I1 : inv st1) by (subst st1; destruct (trace_rules st); exact I).
  assert (T1 : it_parsing st1 = it_parsing st /\ text2parse st1 = text2parse st /\ trace_rules st1 = trace_rules st /\
               potential_error st1 = potential_error st)
    by (subst st1; destruct (trace_rules st) eqn:X; repeat split; first [reflexivity | exact X]).
  destruct T1 as (TI & TT & TR & TP).
  assert (W1 : walking_rules st1 = wk st [n]).
  { subst st1. unfold wk. destruct (trace_rules st) eqn:E; cbn; [reflexivity|rewrite app_nil_r; reflexivity]. }
  assert (As1 : ascii (text2parse st1)) by (rewrite TT; exact As).
  destruct (rules_get rs n) as [e|] eqn:E.
  - pose proof (IHf st1 e (SR n e E) I1 As1) as H. destruct (pe st1 e) as [[st' ts]|er| |]; cbn [bind]; try contradiction; try exact Logic.I.
    + destruct H as (us & p & t & E0 & D & PE & W). cbn in E0. subst us. rewrite TI in D.
      exists [Rule n ts], (option_map (shift [n]) p), (n :: t). split; [reflexivity|]. split; [|split].
      * exact (ee_rule G n e _ _ E D).
      * rewrite PE. destruct p as [q|]; cbn [option_map]; [|exact TP]. f_equal. apply err_of_shift; assumption.
      * rewrite W. unfold wk. rewrite TR, W1. unfold wk. destruct (trace_rules st); rewrite <- ?app_assoc; reflexivity.
    + unfold esound in H. rewrite TI in H. destruct H as [(q & -> & D)|(q & -> & D)]; [left|right]; exists (shift [n] q);
        (split; [apply err_of_shift; assumption|]); exact (ee_rule G n e _ _ E D).
  - rewrite err_status_exact by assumption. cbn [bind]. right.
    exists (shift [n] (Report (missing_rule_msg n) (it_parsing st) [])). rewrite TI. split.
    + apply err_of_shift; assumption.
    + apply ee_rule_missing. exact E.
Qed.

End Loops.

Lemma engine_report : forall f st e, sane e -> inv st -> ascii (text2parse st) -> esound G [] st e (parse_expr rs f st e).
Proof.
  induction f as [|f IH]; intros st e S I As; [exact Logic.I|].
  destruct e as [a|es|es|e1|e1 mn mx|n]; cbn [parse_expr].
  - apply atom_report; assumption.
  - cbn in S. apply sane_list in S. apply and_report; assumption.
  - cbn in S. apply sane_list in S. pose proof (or_report f IH es st None S I As Logic.I) as H. cbn [oerr option_map] in H.
    destruct (parse_or (parse_expr rs f) st es None) as [[st' ts]|er| |]; try assumption.
    + destruct H as (p & t & C & PE & W). exists ts, p, t. split; [reflexivity|]. split; [apply ee_or; exact C|split; assumption].
    + destruct H as [(q & -> & C)|(q & -> & C)]; [left|right]; exists q; (split; [reflexivity|apply ee_or; exact C]).
  - cbn in S. unfold parse_not. pose proof (IH st e1 S I As) as H.
    destruct (parse_expr rs f st e1) as [[st' ts]|er| |]; try contradiction; try exact Logic.I.
    + unfold err_normal. rewrite err_status_exact by assumption. destruct H as (us & p & t & _ & D & _).
      left. eexists. split; [reflexivity|]. eapply ee_not_fail. exact D.
    + exists [], None, []. rewrite wk_nil. split; [reflexivity|]. split; [|split; reflexivity].
      destruct H as [(q & _ & D)|(q & _ & D)]; (eapply ee_not_ok; [exact D|exact Logic.I]).
  - cbn in S. destruct S as [S1 S2].
    assert (A : match mx with Some m => mn <= m | None => True end) by (destruct mx; tauto).
    assert (B : match mx with Some m => 0 < m | None => True end) by (destruct mx; [lia|exact Logic.I]).
    pose proof (rep_report f IH e1 mn mx S1 A f st 0 [] I As B) as H. replace (mn - 0) with mn in H by lia.
    assert (E : rest_max mx 0 = mx) by (destruct mx as [m|]; cbn; [f_equal; lia|reflexivity]). rewrite E in H. exact H.
  - apply rule_report; assumption.
Qed.

End Engine.

(* ------------------------------------------------------------------------------------------- *)
(** * parse *)

Lemma err_of_init : forall s d p q, err_of (status_init_debug s d) p q = error_at s d p q.
Proof. intros s d p q. unfold err_of, error_at, wk. cbn. destruct d; reflexivity. Qed.

Lemma parse_report : forall fuel s rs d, sane_rules rs -> ascii s -> parse_with_debug fuel s rs d <> Fuel ->
  exists r, pege (grammar_of rs) (RuleName main) s r /\ answers s d r (parse_with_debug fuel s rs d).
Proof.
  intros fuel s rs d SR As NF. rewrite parse_unfold in *.
  pose proof (engine_report rs SR (S fuel) (status_init_debug s d) (RuleName main) I (inv_init s d) As) as H.
  pose proof (parse_expr_good rs (S fuel) (status_init_debug s d) (RuleName main) (inv_init s d)) as GD.
  rewrite expression_parse_expr in H, GD. cbn [text2parse it_parsing status_init_debug] in *.
  destruct (expression_parse rs fuel (status_init_debug s d)) as [[st nd]|er| |]; cbn [bind] in *; try contradiction.
  - destruct GD as [I' AD]. destruct AD as (T & R & c & E). cbn in T, R, E.
    destruct H as (us & p & t & E0 & D & PE & W). cbn in E0, D, PE. subst us.
    pose proof (final_check_pn s st I' T) as FC. exists (EMatch [nd] (it_parsing st) p t). split; [exact D|].
    destruct (pn (st_pos st) =? byte_len s) eqn:Q.
    + destruct FC as [FC _]. destruct (FC eq_refl) as [E0 _]. rewrite E0. apply an_ok.
    + destruct (it_parsing st) as [|c0 r0] eqn:E0; [destruct FC as [_ FC]; discriminate FC; auto|].
      rewrite PE. destruct p as [q|].
      * rewrite err_of_init. apply an_pending.
      * unfold err_normal. rewrite err_status_exact by (try rewrite T; assumption). rewrite E0.
        assert (X : err_of st Normal (Report (s_ "not consumed full input") (c0 :: r0) []) =
                    error_at s d Normal (Report (s_ "not consumed full input") (c0 :: r0) t)).
        { rewrite <- err_of_init. rewrite (err_of_shift (status_init_debug s d) st t) by assumption.
          unfold shift. cbn [r_descr r_rest r_trail]. rewrite app_nil_r. reflexivity. }
        rewrite X. apply an_leftover.
  - destruct H as [(q & -> & D)|(q & -> & D)]; [exists (EFail q)|exists (EAbort q)]; (split; [exact D|]); rewrite err_of_init;
      [apply an_fail|apply an_abort].
Qed.

Lemma answers_det : forall s d r o1, answers s d r o1 -> forall o2, answers s d r o2 -> o1 = o2.
Proof. intros s d r o1 H o2 H2. inversion H; subst; inversion H2; subst; reflexivity. Qed.

Lemma pege_main_tree : forall rs s ts rest p t, pege (grammar_of rs) (RuleName main) s (EMatch ts rest p t) -> exists ast, ts = [ast].
Proof.
  intros rs s ts rest p t D. apply pege_plain in D. cbn in D. apply peg_main_shape in D.
  destruct D as (e & kids & _ & -> & _). eauto.
Qed.

Lemma answers_exists : forall rs s d r, pege (grammar_of rs) (RuleName main) s r -> exists o, answers s d r o.
Proof.
  intros rs s d r D. destruct r as [ts rest p t|q|q].
  - destruct (pege_main_tree rs s ts rest p t D) as [ast ->]. destruct rest as [|c rest].
    + eexists. apply an_ok.
    + destruct p as [q|]; eexists; [apply an_pending|apply an_leftover].
  - eexists. apply an_fail.
  - eexists. apply an_abort.
Qed.

(** parse returns [o] iff the semantics says so. *)
Lemma parse_report_iff : forall s rs d o, sane_rules rs -> ascii s -> o <> Fuel ->
  ((exists fuel, parse_with_debug fuel s rs d = o) <->
   (exists r, pege (grammar_of rs) (RuleName main) s r /\ answers s d r o)).
Proof.
  intros s rs d o SR As N. split.
  - intros [fuel <-]. apply parse_report; assumption.
  - intros (r & D & A). pose proof (pege_plain _ _ _ _ D) as P.
    destruct (proj2 (parse_terminates_iff s rs d SR As)) as [fuel F]; [eexists; exact P|].
    exists fuel. destruct (parse_report fuel s rs d SR As F) as (r' & D' & A').
    rewrite <- (pege_det _ _ _ _ D _ D') in A'. exact (answers_det s d r _ A' _ A).
Qed.

(** Every plain outcome has a report. *)
Lemma peg_reports : forall rs s r, sane_rules rs -> ascii s -> peg_main rs s r ->
  exists er, pege (grammar_of rs) (RuleName main) s er /\ plain er = r.
Proof.
  intros rs s r SR As D. destruct (proj2 (parse_terminates_iff s rs false SR As)) as [fuel F]; [eexists; exact D|].
  destruct (parse_report fuel s rs false SR As F) as (er & D' & _). exists er. split; [exact D'|].
  exact (peg_det _ _ _ _ (pege_plain _ _ _ _ D') _ D).
Qed.

(** Leftover input. *)
Lemma leftover : forall fuel s rs d ts c rest, sane_rules rs -> ascii s ->
  peg_main rs s (PMatch ts (c :: rest)) -> parse_with_debug fuel s rs d <> Fuel ->
  exists p t er, pege (grammar_of rs) (RuleName main) s (EMatch ts (c :: rest) p t) /\
    parse_with_debug fuel s rs d = Err er /\ e_priority er = Normal /\
    match p with
    | Some q => er = error_at s d Normal q
    | None => er = error_at s d Normal (Report (s_ "not consumed full input") (c :: rest) t)
    end.
Proof.
  intros fuel s rs d ts c rest SR As D F. destruct (parse_report fuel s rs d SR As F) as (er & D' & A).
  pose proof (peg_det _ _ _ _ (pege_plain _ _ _ _ D') _ D) as E.
  destruct er as [ts' rest' p t|q|q]; cbn in E; try discriminate. injection E as -> ->.
  exists p, t. inversion A; subst.
  - exists (error_at s d Normal q). split; [exact D'|]. split; [congruence|]. split; reflexivity.
  - exists (error_at s d Normal (Report (s_ "not consumed full input") (c :: rest) t)). split; [exact D'|]. split; [congruence|]. split; reflexivity.
Qed.
