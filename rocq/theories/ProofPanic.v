(** The engine against the reporting semantics, for every text and all bounds (C44). *)
From Verif Require Import Base ModelAst ModelParser SpecPeg SpecPos SpecApi SpecReport SpecPanic ProofParser ProofEngine ProofApi ProofReport.

(* ------------------------------------------------------------------------------------------- *)
(** * Byte slices *)

Lemma drop_bytes_iff : forall s n r, drop_bytes n s = Some r <-> exists a, s = a ++ r /\ byte_len a = n.
Proof.
  induction s as [|c s IH]; intros n r.
  - destruct n as [|n]; cbn; split.
    + intro H. injection H as <-. exists []. split; reflexivity.
    + intros ([|x a] & E & L); [cbn in E; subst; reflexivity|discriminate].
    + discriminate.
    + intros ([|x a] & E & L); [discriminate L|discriminate].
  - destruct n as [|n]; cbn [drop_bytes]; split.
    + intro H. injection H as <-. exists []. split; reflexivity.
    + intros ([|x a] & E & L); [cbn in E; congruence|]. cbn in L. pose proof (utf8_len_pos x). lia.
    + destruct (Nat.leb_spec (utf8_len c) (S n)) as [B|B]; [|discriminate]. intro H. apply IH in H. destruct H as (a & -> & L).
      exists (c :: a). split; [reflexivity|]. cbn [byte_len]. lia.
    + intros ([|x a] & E & L); [discriminate L|]. cbn [app] in E. injection E as -> E. cbn [byte_len] in L.
      destruct (Nat.leb_spec (utf8_len x) (S n)) as [B|B]; [|lia]. apply IH. exists a. split; [exact E|lia].
Qed.

Lemma take_bytes_iff : forall s n t, take_bytes n s = Some t <-> exists c, s = t ++ c /\ byte_len t = n.
Proof.
  induction s as [|x s IH]; intros n t.
  - destruct n as [|n]; cbn; split.
    + intro H. injection H as <-. exists []. split; reflexivity.
    + intros (c & E & L). destruct t; [reflexivity|discriminate].
    + discriminate.
    + intros (c & E & L). destruct t; [discriminate L|discriminate].
  - destruct n as [|n]; cbn [take_bytes]; split.
    + intro H. injection H as <-. exists (x :: s). split; reflexivity.
    + intros (c & E & L). destruct t as [|y t]; [reflexivity|]. cbn in L. pose proof (utf8_len_pos y). lia.
    + destruct (Nat.leb_spec (utf8_len x) (S n)) as [B|B]; [|discriminate].
      destruct (take_bytes (S n - utf8_len x) s) as [t'|] eqn:E; [|discriminate]. intro H. injection H as <-.
      apply IH in E. destruct E as (c & -> & L). exists c. split; [reflexivity|]. cbn [byte_len]. lia.
    + intros (c & E & L). destruct t as [|y t]; [discriminate L|]. cbn [app] in E. injection E as -> E. cbn [byte_len] in L.
      destruct (Nat.leb_spec (utf8_len y) (S n)) as [B|B]; [|lia].
      assert (X : take_bytes (S n - utf8_len y) s = Some t) by (apply IH; exists c; split; [exact E|lia]). rewrite X. reflexivity.
Qed.

Lemma bytes_len : forall s, length (bytes s) = byte_len s.
Proof.
  induction s as [|c s IH]; [reflexivity|]. unfold bytes in *. cbn [flat_map byte_len]. rewrite app_length, IH. f_equal. unfold utf8, utf8_len.
  destruct (c <? 128)%N; [reflexivity|]. destruct (c <? 2048)%N; [reflexivity|]. destruct (c <? 65536)%N; reflexivity.
Qed.

Lemma slice_iff : forall s i j t, slice s i j = Some t <-> excerpt s i j t.
Proof.
  intros s i j t. unfold slice, excerpt. setoid_rewrite bytes_len. destruct (Nat.leb_spec i j) as [L|L]; [|split; [discriminate|lia]]. split.
  - destruct (drop_bytes i s) as [r|] eqn:D; [|discriminate]. intro H. apply drop_bytes_iff in D. destruct D as (a & -> & La).
    apply take_bytes_iff in H. destruct H as (c & -> & Lt). split; [exact L|]. exists a, c. split; [reflexivity|split; assumption].
  - intros (_ & a & c & -> & La & Lt). rewrite (proj2 (drop_bytes_iff _ _ (t ++ c))) by (exists a; split; [reflexivity|exact La]).
    apply take_bytes_iff. exists c. split; [reflexivity|exact Lt].
Qed.

(* ------------------------------------------------------------------------------------------- *)
(** * Error records *)

Definition cut (T rest : str) : option str := slice T (pstart_line (place T rest)) (pn (place T rest)).

Lemma cut_none : forall T rest, cut T rest = None <-> uncuttable T rest.
Proof.
  intros T rest. unfold uncuttable, cut. split.
  - intros H t E. apply slice_iff in E. congruence.
  - intro H. destruct (slice T _ _) as [t|] eqn:E; [|reflexivity]. apply slice_iff in E. destruct (H t E).
Qed.

Definition xerr (st : status) (p : prio) (q : report) : perror :=
  PError (place (text2parse st) (r_rest q)) (r_descr q) (match cut (text2parse st) (r_rest q) with Some t => t | None => [] end)
         (until_eol (r_rest q)) (wk st (r_trail q)) p.

Definition fine (st : status) (q : report) : Prop := cut (text2parse st) (r_rest q) <> None.
Definition bad (st : status) (s : str) : Prop := cut (text2parse st) s = None.

Lemma xerr_shift : forall st st' t p q, text2parse st' = text2parse st -> trace_rules st' = trace_rules st ->
  walking_rules st' = wk st t -> xerr st' p q = xerr st p (shift t q).
Proof.
  intros st st' t p q T R W. unfold xerr, shift. cbn [r_rest r_descr r_trail]. rewrite T. f_equal.
  unfold wk. rewrite R, W. unfold wk. destruct (trace_rules st); rewrite ?map_app, <- ?app_assoc; reflexivity.
Qed.

Lemma xerr_same : forall st st' p q, text2parse st' = text2parse st -> trace_rules st' = trace_rules st ->
  walking_rules st' = walking_rules st -> xerr st' p q = xerr st p q.
Proof.
  intros st st' p q T R W. rewrite (xerr_shift st st' [] p q T R); [rewrite shift_nil; reflexivity|]. rewrite wk_nil. exact W.
Qed.

Lemma err_cases : forall A st d p, inv st ->
  (bad st (it_parsing st) /\ @err_status A st d p = Panic) \/
  (cut (text2parse st) (it_parsing st) <> None /\ @err_status A st d p = Err (xerr st p (Report d (it_parsing st) []))).
Proof.
  intros A st d p [(pre & T & P) _].
  assert (E : place (text2parse st) (it_parsing st) = st_pos st) by (unfold place; rewrite T, before_app, P; reflexivity).
  unfold bad, err_status, from_status, xerr. cbn [r_rest r_descr r_trail]. unfold cut. rewrite E.
  destruct (slice (text2parse st) (pstart_line (st_pos st)) (pn (st_pos st))) as [lb|]; [right|left; split; reflexivity].
  split; [discriminate|]. do 2 f_equal; [|rewrite wk_nil; reflexivity].
  apply take_until_eol.
Qed.

(* ------------------------------------------------------------------------------------------- *)
(** * Soundness *)

Definition xsound (G : str -> option expr) (acc : list node) (st : status) (e : expr) (r : result_expr) : Prop :=
  match r with
  | Ok (st', ts) => exists us p t, ts = acc ++ us /\ pege G e (it_parsing st) (EMatch us (it_parsing st') p t) /\
      match p with Some q => potential_error st' = Some (xerr st Normal q) /\ fine st q | None => potential_error st' = potential_error st end /\
      walking_rules st' = wk st t
  | Err er => (exists q, er = xerr st Normal q /\ fine st q /\ pege G e (it_parsing st) (EFail q)) \/
              (exists q, er = xerr st Critical q /\ fine st q /\ pege G e (it_parsing st) (EAbort q))
  | Panic => trips G (bad st) e (it_parsing st)
  | Fuel => True
  end.

Lemma literal_loop_x : forall l chs st, inv st ->
  match parse_literal_loop l st chs with
  | Ok st' => it_parsing st = chs ++ it_parsing st' /\ same_side st st'
  | Err er => exists rest, lit_stops chs (it_parsing st) rest /\ er = xerr st Normal (Report (lit_msg l) rest []) /\ fine st (Report (lit_msg l) rest [])
  | Panic => exists rest, lit_stops chs (it_parsing st) rest /\ bad st rest
  | Fuel => False
  end.
Proof.
  intros l chs. induction chs as [|ch chs IH]; intros st I; cbn [parse_literal_loop].
  - split; [reflexivity|split; reflexivity].
  - unfold parse_char. pose proof (get_char_spec st I) as H. destruct (get_char st) as [[st' c]|st'].
    + destruct H as (I' & AD & E & S1 & S2). destruct AD as (T & R & _). destruct (N.eqb ch c) eqn:Q.
      * apply N.eqb_eq in Q. subst c.
        specialize (IH st' I'). destruct (parse_literal_loop l st' chs) as [st2|er| |]; try contradiction.
        -- destruct IH as [IH1 [IH2 IH3]]. split; [rewrite E, IH1; reflexivity|]. split; congruence.
        -- destruct IH as (rest & IH1 & -> & F). exists rest. split; [rewrite E; apply ls_same; exact IH1|].
           split; [apply xerr_same; assumption|]. unfold fine in *. rewrite <- T. exact F.
        -- destruct IH as (rest & IH1 & B). exists rest. split; [rewrite E; apply ls_same; exact IH1|]. unfold bad in *. rewrite <- T. exact B.
      * apply N.eqb_neq in Q. unfold err_normal.
        destruct (err_cases status st' (s_ "expected literal: <" ++ l ++ s_ ">") Normal I') as [[B ->]|[B ->]];
          exists (it_parsing st'); (split; [rewrite E; apply ls_differ; exact Q|]).
        -- unfold bad in *. rewrite <- T. exact B.
        -- split; [apply xerr_same; assumption|]. unfold fine. rewrite <- T. exact B.
    + destruct H as [-> E]. unfold err_normal.
      destruct (err_cases status st (s_ "expected literal: <" ++ l ++ s_ ">") Normal I) as [[B ->]|[B ->]]; rewrite E in *; exists [];
        (split; [apply ls_end|]); [exact B|]. split; [reflexivity|exact B].
Qed.

(** An error raised at [st'], somewhere after [st]. *)
Lemma raised_fail : forall G st st' a d r, inv st' -> text2parse st' = text2parse st -> trace_rules st' = trace_rules st ->
  walking_rules st' = walking_rules st -> r = err_normal st' d ->
  pege G (Simple a) (it_parsing st) (EFail (Report d (it_parsing st') [])) -> xsound G [] st (Simple a) r.
Proof.
  intros G st st' a d r I T R W -> D. unfold err_normal. destruct (err_cases (status * list node) st' d Normal I) as [[B ->]|[B ->]]; cbn [xsound].
  - eapply tr_atom_fail; [exact D|]. unfold bad in *. cbn [r_rest]. rewrite <- T. exact B.
  - left. eexists. split; [apply xerr_same; assumption|]. split; [|exact D]. unfold fine. cbn [r_rest]. rewrite <- T. exact B.
Qed.

Lemma bind_err_status : forall A B st d p (k : A -> outcome perror B), bind (@err_status A st d p) k = @err_status B st d p.
Proof. intros A B st d p k. unfold err_status. destruct (from_status st d p); reflexivity. Qed.

Lemma atom_x : forall G st a, inv st -> xsound G [] st (Simple a) (let? (st', nd) := parse_atom st a in Ok (st', [nd])).
Proof.
  intros G st a I. destruct a as [l|cs rs|m| |]; cbn [parse_atom].
  - unfold parse_literal. pose proof (literal_loop_x l l st I) as H.
    destruct (parse_literal_loop l st l) as [st'|er| |]; cbn [bind]; try contradiction.
    + destruct H as [E [S1 S2]]. exists [Val l], None, []. rewrite wk_nil, E. repeat split; try assumption. apply ee_lit_ok.
    + destruct H as (rest & H & -> & F). left. eexists. split; [reflexivity|]. split; [exact F|]. apply ee_lit_fail. exact H.
    + destruct H as (rest & H & B). eapply tr_atom_fail; [apply ee_lit_fail; exact H|exact B].
  - unfold parse_match. rewrite class_msg_eq. pose proof (get_char_spec st I) as H. destruct (get_char st) as [[st' c]|st'].
    + destruct H as (I' & AD & E & S1 & S2). destruct AD as (T & R & _). destruct (match_char cs rs c) eqn:M; cbn [bind].
      * exists [Val [c]], None, []. rewrite wk_nil, E. repeat split; try assumption. apply ee_class_ok, match_char_iff, M.
      * eapply (raised_fail G st st'); try assumption; [unfold err_normal; apply bind_err_status|].
        rewrite E. apply ee_class_fail. intro C. apply match_char_iff in C. congruence.
    + destruct H as [-> E]. eapply (raised_fail G st st); try assumption; try reflexivity; [unfold err_normal; apply bind_err_status|].
      rewrite E. apply ee_class_end.
  - unfold parse_error. rewrite bind_err_status. destruct (err_cases (status * list node) st m Critical I) as [[B ->]|[B ->]].
    + eapply tr_atom_abort; [apply ee_error|exact B].
    + right. eexists. split; [reflexivity|]. split; [exact B|]. apply ee_error.
  - unfold parse_dot. pose proof (get_char_spec st I) as H. destruct (get_char st) as [[st' c]|st']; cbn [bind].
    + destruct H as (I' & AD & E & S1 & S2). exists [Val [c]], None, []. rewrite wk_nil, E. repeat split; try assumption. apply ee_dot_ok.
    + destruct H as [-> E]. eapply (raised_fail G st st); try assumption; try reflexivity; [unfold err_normal; apply bind_err_status|].
      rewrite E. apply ee_dot_fail.
  - unfold parse_eof. pose proof (get_char_spec st I) as H. destruct (get_char st) as [[st' c]|st']; cbn [bind].
    + destruct H as (I' & AD & E & S1 & S2). destruct AD as (T & R & _).
      eapply (raised_fail G st st'); try assumption; [unfold err_normal; apply bind_err_status|]. rewrite E. apply ee_eof_fail.
    + destruct H as [-> E]. exists [Val (s_ "EOF")], None, []. rewrite wk_nil, E. repeat split. apply ee_eof_ok.
Qed.

Lemma bad_same : forall st st', text2parse st' = text2parse st -> bad st' = bad st.
Proof. intros st st' T. unfold bad. rewrite T. reflexivity. Qed.

Lemma xsound_after : forall G acc st st' e1 e2 e ts p t r,
  pege G e1 (it_parsing st) (EMatch ts (it_parsing st') p t) ->
  text2parse st' = text2parse st -> trace_rules st' = trace_rules st ->
  match p with Some q => potential_error st' = Some (xerr st Normal q) /\ fine st q | None => potential_error st' = potential_error st end ->
  walking_rules st' = wk st t ->
  (forall r', pege G e2 (it_parsing st') r' -> pege G e (it_parsing st) (after ts p t r')) ->
  (trips G (bad st) e2 (it_parsing st') -> trips G (bad st) e (it_parsing st)) ->
  xsound G (acc ++ ts) st' e2 r -> xsound G acc st e r.
Proof.
  intros G acc st st' e1 e2 e ts p t r D T R PE W K KT H. destruct r as [[st2 ts2]|er| |]; cbn in *; try assumption.
  - destruct H as (us & p' & t' & -> & D2 & PE2 & W2). exists (ts ++ us).
    exists (match p' with Some q => Some (shift t q) | None => p end), (t ++ t'). rewrite app_assoc.
    split; [reflexivity|]. split; [exact (K _ D2)|]. split.
    + destruct p' as [q|].
      * destruct PE2 as [PE2 F2]. split; [rewrite PE2, (xerr_shift st st' t) by assumption; reflexivity|].
        unfold fine in *. cbn [shift r_rest]. rewrite <- T. exact F2.
      * destruct p as [q|]; [rewrite PE2; exact PE|congruence].
    + rewrite W2. unfold wk. rewrite R, W. unfold wk. destruct (trace_rules st); rewrite ?map_app, <- ?app_assoc; reflexivity.
  - destruct H as [(q & -> & F & D2)|(q & -> & F & D2)]; [left|right]; exists (shift t q);
      (split; [apply xerr_shift; assumption|]); (split; [unfold fine in *; cbn [shift r_rest]; rewrite <- T; exact F|exact (K _ D2)]).
  - apply KT. rewrite <- (bad_same _ _ T). exact H.
Qed.

(** Reports stand in the text. *)
Definition placed (s : str) (q : report) : Prop := exists c, s = c ++ r_rest q.
Definition rplaced (s : str) (r : eresult) : Prop :=
  match r with
  | EMatch _ rest p _ => (exists c, s = c ++ rest) /\ match p with Some q => placed s q | None => True end
  | EFail q | EAbort q => placed s q
  end.

Lemma rplaced_after : forall a s1 ts p t r, match p with Some q => placed (a ++ s1) q | None => True end ->
  rplaced s1 r -> rplaced (a ++ s1) (after ts p t r).
Proof.
  intros a s1 ts p t r Hp H. destruct r as [us rest p' t'|q|q]; cbn [after rplaced] in *; unfold placed in *; cbn [shift r_rest].
  - destruct H as [[b ->] Hp']. split; [exists (a ++ b); apply app_assoc|].
    destruct p' as [q|]; [|exact Hp]. destruct Hp' as [x ->]. exists (a ++ x). apply app_assoc.
  - destruct H as [b ->]. exists (a ++ b). apply app_assoc.
  - destruct H as [b ->]. exists (a ++ b). apply app_assoc.
Qed.

Lemma pege_placed_both : forall G,
  (forall e s r, pege G e s r -> rplaced s r) /\
  (forall es s o r, choice G es s o r -> match o with Some q => placed s q | None => True end -> rplaced s r).
Proof.
  intro G. apply pege_choice_ind; intros; cbn [rplaced]; unfold placed; cbn [r_rest];
    try (exists []; reflexivity); try (split; [exists []; reflexivity|exact I]).
  - split; [exists l; reflexivity|exact I].
  - induction H as [c l|c l d s N|c l s rest H [x IH]]; [exists []; reflexivity|exists [d]; reflexivity|].
    exists (c :: x). cbn. rewrite IH. reflexivity.
  - split; [exists [c]; reflexivity|exact I].
  - exists [c]; reflexivity.
  - split; [exists [c]; reflexivity|exact I].
  - exists [c]; reflexivity.
  - destruct H0 as [[a ->] Hp]. apply rplaced_after; assumption.
  - exact H0.
  - apply H0. exact I.
  - destruct H1 as [[a ->] Hp]. apply rplaced_after; assumption.
  - split; [exists []; reflexivity|exact H1].
  - exact H2.
  - exact H1.
  - destruct r as [us rest p t|q|q]; cbn [within rplaced] in *; unfold placed in *; cbn [shift r_rest]; [|exact H1|exact H1].
    destruct H1 as [H1 H2]. split; [exact H1|]. destruct p as [q|]; exact H2.
  - exact H.
  - exact H0.
  - apply H2. unfold further. destruct o as [p|]; [|exact H0]. destruct (_ <? _); assumption.
Qed.

Lemma pege_placed : forall G e s r, pege G e s r -> rplaced s r.
Proof. intro G. apply pege_placed_both. Qed.

Section Engine.
Variable rs : rules.
Hypothesis SR : sane_rules rs.
Let G := rules_get rs.

Section Loops.
Variable f : nat.
Let pe := parse_expr rs f.
Hypothesis IHf : forall st e, sane e -> inv st -> xsound G [] st e (pe st e).

Lemma xstep : forall st e, inv st -> match pe st e with Ok (st', _) => inv st' /\ adv st st' | _ => True end.
Proof.
  intros st e I. pose proof (parse_expr_good rs f st e I) as H. fold pe in H.
  destruct (pe st e) as [[st' ts]|er| |]; try exact Logic.I. exact H.
Qed.

Lemma and_x : forall es st acc, Forall sane es -> inv st -> xsound G acc st (And es) (parse_and pe st es acc).
Proof.
  induction es as [|e es IH]; intros st acc S I; cbn [parse_and].
  - exists [], None, []. rewrite app_nil_r, wk_nil. repeat split. apply ee_and_nil.
  - inversion S as [|? ? S1 S2]; subst. pose proof (IHf st e S1 I) as H. pose proof (xstep st e I) as ST.
    destruct (pe st e) as [[st' ts]|er| |]; try exact Logic.I.
    + destruct ST as (I' & AD). destruct H as (us & p & t & E & D & PE & W). cbn in E. subst us.
      destruct AD as (T & R & _). eapply xsound_after; try eassumption; [| |apply IH; assumption].
      * intros r' D'. eapply ee_and_cons; eassumption.
      * intro TR. eapply tr_and_tail; eassumption.
    + destruct H as [(q & -> & F & D)|(q & -> & F & D)]; [left|right]; exists q; (split; [reflexivity|]); (split; [exact F|]);
        apply ee_and_stop; try assumption; exact Logic.I.
    + apply tr_and_head. exact H.
Qed.

Definition xoerr (st : status) (o : option report) : option perror := option_map (xerr st Normal) o.
Definition xosuffix (st : status) (o : option report) : Prop :=
  match o with Some q => fine st q /\ placed (text2parse st) q | None => True end.

Lemma pn_xerr : forall st p q, placed (text2parse st) q ->
  pn (e_pos (xerr st p q)) + length (r_rest q) = length (text2parse st).
Proof. intros st p q [pre E]. cbn. rewrite E at 2. rewrite app_length. f_equal. rewrite E, before_app. reflexivity. Qed.

Lemma deep_further_x : forall st o q, xosuffix st o -> xosuffix st (Some q) ->
  deep_err (xoerr st o) (xerr st Normal q) = xoerr st (Some (further o q)) /\ xosuffix st (Some (further o q)).
Proof.
  intros st [p|] q Ho Hq; cbn [xoerr option_map further]; [|split; [reflexivity|exact Hq]].
  pose proof (pn_xerr st Normal p (proj2 Ho)) as L1. pose proof (pn_xerr st Normal q (proj2 Hq)) as L2.
  unfold deep_err. change (prio_gt (e_priority (xerr st Normal p)) (e_priority (xerr st Normal q))) with false. cbv iota beta.
  destruct (Nat.ltb_spec (pn (e_pos (xerr st Normal q))) (pn (e_pos (xerr st Normal p)))) as [L|L];
    destruct (Nat.ltb_spec (length (r_rest p)) (length (r_rest q))) as [M|M]; try lia; (split; [reflexivity|assumption]).
Qed.

Lemma or_x : forall es st o, Forall sane es -> inv st -> xosuffix st o ->
  match parse_or pe st es (xoerr st o) with
  | Ok (st', ts) => exists p t, choice G es (it_parsing st) o (EMatch ts (it_parsing st') p t) /\
      match p with Some q => potential_error st' = Some (xerr st Normal q) /\ fine st q | None => potential_error st' = potential_error st end /\
      walking_rules st' = wk st t
  | Err er => (exists q, er = xerr st Normal q /\ fine st q /\ choice G es (it_parsing st) o (EFail q)) \/
              (exists q, er = xerr st Critical q /\ fine st q /\ choice G es (it_parsing st) o (EAbort q))
  | Panic => (es <> [] \/ o = None) /\ trips G (bad st) (Or es) (it_parsing st)
  | Fuel => True
  end.
Proof.
  induction es as [|e es IH]; intros st o S I O; cbn [parse_or].
  - destruct o as [q|]; cbn [xoerr option_map].
    + left. exists q. split; [reflexivity|]. split; [exact (proj1 O)|apply ch_end].
    + unfold err_normal. destruct (err_cases (status * list node) st msg_logic_error Normal I) as [[B ->]|[B ->]].
      * split; [right; reflexivity|]. apply tr_or_none. exact B.
      * left. eexists. split; [reflexivity|]. split; [exact B|apply ch_none].
  - inversion S as [|? ? S1 S2]; subst. pose proof (IHf st e S1 I) as H. pose proof (xstep st e I) as ST.
    destruct (pe st e) as [[st' ts]|er| |]; try exact Logic.I.
    + destruct H as (us & p & t & E & D & PE & W). cbn in E. subst us. exists p, t. split; [|split; assumption].
      apply ch_first; [exact D|]. intros [].
    + destruct H as [(q & -> & F & D)|(q & -> & F & D)].
      * change (is_critical (e_priority (xerr st Normal q))) with false. cbv iota.
        assert (Hq : xosuffix st (Some q)).
        { split; [exact F|]. destruct (pege_placed G _ _ _ D) as [c E]. destruct I as [(pre & T & _) _].
          exists (pre ++ c). rewrite T, E at 1. apply app_assoc. }
        destruct (deep_further_x st o q O Hq) as [E1 E2].
        rewrite E1. specialize (IH st (Some (further o q)) S2 I E2).
        destruct (parse_or pe st es (xoerr st (Some (further o q)))) as [[st2 ts2]|er2| |]; try assumption.
        -- destruct IH as (p & t & C & PE & W). exists p, t. split; [|split; assumption]. eapply ch_next; eassumption.
        -- destruct IH as [(q2 & -> & F2 & C)|(q2 & -> & F2 & C)]; [left|right]; exists q2; (split; [reflexivity|]); (split; [exact F2|]);
             eapply ch_next; eassumption.
        -- destruct IH as [[NE|NE] TR]; [|discriminate]. split; [left; discriminate|].
           destruct es as [|e2 es]; [contradiction|]. eapply tr_or_tail; eassumption.
      * change (is_critical (e_priority (xerr st Critical q))) with true. cbv iota. right. exists q.
        split; [reflexivity|]. split; [exact F|]. apply ch_first; [exact D|]. intros [].
    + split; [left; discriminate|]. apply tr_or_head. exact H.
Qed.

Lemma rep_x : forall e mn mx, sane e -> match mx with Some m => mn <= m | None => True end ->
  forall g st c acc, inv st -> match mx with Some m => c < m | None => True end ->
  xsound G acc st (Repeat e (mn - c) (rest_max mx c)) (parse_repeat g pe st e mn mx c acc).
Proof.
  intros e mn mx S SN. induction g as [|g IH]; intros st c acc I L; cbn [parse_repeat]; [exact Logic.I|].
  assert (NZ : rest_max mx c <> Some 0).
  { destruct mx as [m|]; cbn; [|discriminate]. intro E. injection E as E. lia. }
  pose proof (IHf st e S I) as H. pose proof (xstep st e I) as ST.
  destruct (pe st e) as [[st' ts]|er| |]; try exact Logic.I.
  - destruct ST as (I' & AD). destruct H as (us & p & t & E & D & PE & W). cbn in E. subst us.
    destruct AD as (T & R & _). destruct (touch_max_bound mx c) eqn:TM.
    + exists ts, p, t. split; [reflexivity|]. split; [|split; assumption].
      replace (EMatch ts (it_parsing st') p t) with (after ts p t (EMatch [] (it_parsing st') None []))
        by (cbn; rewrite !app_nil_r; reflexivity).
      eapply ee_rep_more; [exact NZ|exact D|]. destruct mx as [m|]; [|discriminate]. cbn in *.
      apply Nat.eqb_eq in TM. replace (pred (mn - c)) with 0 by lia. replace (pred (m - c)) with 0 by lia. apply ee_rep_full.
    + assert (L' : match mx with Some m => c + 1 < m | None => True end).
      { destruct mx as [m|]; [|exact Logic.I]. cbn in TM. apply Nat.eqb_neq in TM. lia. }
      specialize (IH st' (c + 1) (acc ++ ts) I' L').
      assert (E1 : mn - (c + 1) = pred (mn - c)) by lia.
      assert (E2 : rest_max mx (c + 1) = option_map pred (rest_max mx c)).
      { destruct mx as [m|]; cbn; [|reflexivity]. f_equal. lia. }
      rewrite E1, E2 in IH. eapply xsound_after; try eassumption.
      * intros r' D'. eapply ee_rep_more; eassumption.
      * intro TR. eapply tr_rep_tail; eassumption.
  - destruct H as [(q & -> & F & D)|(q & -> & F & D)]; unfold big_min_bound; destruct (Nat.leb_spec mn c) as [B|B].
    + change (is_critical (e_priority (xerr st Normal q))) with false. cbv iota.
      exists [], (Some q), []. rewrite app_nil_r, wk_nil. cbn [it_parsing potential_error walking_rules set_potential_error].
      split; [reflexivity|]. split; [|split; [split; [reflexivity|exact F]|reflexivity]]. replace (mn - c) with 0 by lia. apply ee_rep_done; assumption.
    + left. exists q. split; [reflexivity|]. split; [exact F|]. apply ee_rep_short; [assumption|lia|assumption].
    + change (is_critical (e_priority (xerr st Critical q))) with true. cbv iota.
      right. exists q. split; [reflexivity|]. split; [exact F|]. apply ee_rep_abort; assumption.
    + right. exists q. split; [reflexivity|]. split; [exact F|]. apply ee_rep_abort; assumption.
  - apply tr_rep_head; assumption.
Qed.

Lemma rule_x : forall st n, inv st ->
  xsound G [] st (RuleName n) (let? (st', nd) := parse_rule_name pe rs st n in Ok (st', [nd])).
Proof.
  intros st n I. unfold parse_rule_name.
  set (st1 := if trace_rules st then push_rule st (s_ "r:" ++ n) else st).
  assert (I1 : inv st1) by (subst st1; destruct (trace_rules st); exact I).
  assert (T1 : it_parsing st1 = it_parsing st /\ text2parse st1 = text2parse st /\ trace_rules st1 = trace_rules st /\
               potential_error st1 = potential_error st)
    by (subst st1; destruct (trace_rules st) eqn:X; repeat split; first [reflexivity | exact X]).
  destruct T1 as (TI & TT & TR & TP).
  assert (W1 : walking_rules st1 = wk st [n]).
  { subst st1. unfold wk. destruct (trace_rules st) eqn:E; cbn; [reflexivity|rewrite app_nil_r; reflexivity]. }
  destruct (rules_get rs n) as [e|] eqn:E.
  - pose proof (IHf st1 e (SR n e E) I1) as H. destruct (pe st1 e) as [[st' ts]|er| |]; cbn [bind]; try exact Logic.I.
    + destruct H as (us & p & t & E0 & D & PE & W). cbn in E0. subst us. rewrite TI in D.
      exists [Rule n ts], (option_map (shift [n]) p), (n :: t). split; [reflexivity|]. split; [|split].
      * exact (ee_rule G n e _ _ E D).
      * destruct p as [q|]; cbn [option_map]; [|congruence]. destruct PE as [PE F]. split; [rewrite PE; f_equal; apply xerr_shift; assumption|].
        unfold fine in *. cbn [shift r_rest]. rewrite <- TT. exact F.
      * rewrite W. unfold wk. rewrite TR, W1. unfold wk. destruct (trace_rules st); rewrite <- ?app_assoc; reflexivity.
    + unfold xsound in H. rewrite TI in H. destruct H as [(q & -> & F & D)|(q & -> & F & D)]; [left|right]; exists (shift [n] q);
        (split; [apply xerr_shift; assumption|]); (split; [unfold fine in *; cbn [shift r_rest]; rewrite <- TT; exact F|]);
        exact (ee_rule G n e _ _ E D).
    + cbn [xsound] in *. rewrite TI, (bad_same _ _ TT) in H. eapply tr_rule; eassumption.
  - rewrite bind_err_status. destruct (err_cases (status * list node) st1 (s_ "Missing rule: " ++ n) Critical I1) as [[B ->]|[B ->]]; cbn [xsound].
    + apply tr_missing; [exact E|]. rewrite (bad_same _ _ TT), TI in B. exact B.
    + right. exists (shift [n] (Report (missing_rule_msg n) (it_parsing st) [])). rewrite TI. split.
      * apply xerr_shift; assumption.
      * split; [unfold fine; cbn [shift r_rest]; rewrite <- TT, <- TI; exact B|]. apply ee_rule_missing. exact E.
Qed.

End Loops.

Lemma engine_x : forall f st e, sane e -> inv st -> xsound G [] st e (parse_expr rs f st e).
Proof.
  induction f as [|f IH]; intros st e S I; [exact Logic.I|].
  destruct e as [a|es|es|e1|e1 mn mx|n]; cbn [parse_expr].
  - apply atom_x; assumption.
  - cbn in S. apply sane_list in S. apply and_x; assumption.
  - cbn in S. apply sane_list in S. pose proof (or_x f IH es st None S I Logic.I) as H. cbn [xoerr option_map] in H.
    destruct (parse_or (parse_expr rs f) st es None) as [[st' ts]|er| |]; try assumption.
    + destruct H as (p & t & C & PE & W). exists ts, p, t. split; [reflexivity|]. split; [apply ee_or; exact C|split; assumption].
    + destruct H as [(q & -> & F & C)|(q & -> & F & C)]; [left|right]; exists q; (split; [reflexivity|split; [exact F|apply ee_or; exact C]]).
    + exact (proj2 H).
  - cbn in S. unfold parse_not. pose proof (IH st e1 S I) as H.
    destruct (parse_expr rs f st e1) as [[st' ts]|er| |]; try exact Logic.I.
    + destruct H as (us & p & t & _ & D & _). unfold err_normal.
      destruct (err_cases (status * list node) st (s_ "not") Normal I) as [[B ->]|[B ->]].
      * eapply tr_not; eassumption.
      * left. eexists. split; [reflexivity|]. split; [exact B|]. eapply ee_not_fail. exact D.
    + exists [], None, []. rewrite wk_nil. split; [reflexivity|]. split; [|split; reflexivity].
      destruct H as [(q & _ & _ & D)|(q & _ & _ & D)]; (eapply ee_not_ok; [exact D|exact Logic.I]).
    + apply tr_not_inside. exact H.
  - cbn in S. destruct S as [S1 S2].
    assert (A : match mx with Some m => mn <= m | None => True end) by (destruct mx; tauto).
    assert (B : match mx with Some m => 0 < m | None => True end) by (destruct mx; [lia|exact Logic.I]).
    pose proof (rep_x f IH e1 mn mx S1 A f st 0 [] I B) as H. replace (mn - 0) with mn in H by lia.
    assert (E : rest_max mx 0 = mx) by (destruct mx as [m|]; cbn; [f_equal; lia|reflexivity]). rewrite E in H. exact H.
  - apply rule_x; assumption.
Qed.

End Engine.

(* ------------------------------------------------------------------------------------------- *)
(** * Completeness: where the semantics trips, the engine panics *)

Lemma trips_rep_max : forall G b e mn mx s, trips G b (Repeat e mn mx) s -> mx <> Some 0.
Proof. intros G b e mn mx s H. inversion H; assumption. Qed.

Section Complete.
Variable rs : rules.
Hypothesis SR : sane_rules rs.
Variable T : str.
Let G := rules_get rs.

Definition stands (st : status) (s : str) : Prop := inv st /\ text2parse st = T /\ it_parsing st = s.

Definition loops_panic (e : expr) (s : str) : Prop :=
  match e with
  | And es => forall st acc, Forall sane es -> stands st s -> exists f, parse_and (parse_expr rs f) st es acc = Panic
  | Or es => forall st o, Forall sane es -> stands st s -> es <> [] \/ o = None -> exists f, parse_or (parse_expr rs f) st es o = Panic
  | Repeat e1 mn' mx' => forall st mn mx c acc, sane e1 -> stands st s -> mn' = mn - c -> mx' = rest_max mx c ->
      match mx with Some m => c < m | None => True end -> exists f, parse_repeat f (parse_expr rs f) st e1 mn mx c acc = Panic
  | _ => True
  end.

Lemma panic_mono : forall f f' st e, f <= f' -> parse_expr rs f st e = Panic -> parse_expr rs f' st e = Panic.
Proof. intros f f' st e L H. destruct (parse_expr_mono rs f f' st e L) as [X|X]; congruence. Qed.

Lemma matched : forall e s ts s1 p t st, sane e -> stands st s -> pege G e s (EMatch ts s1 p t) ->
  exists f, parse_expr rs f st e = Panic \/ exists st', parse_expr rs f st e = Ok (st', ts) /\ stands st' s1.
Proof.
  intros e s ts s1 p t st S (I & TT & E) D. apply pege_plain in D. cbn in D. rewrite <- E in D.
  destruct (engine_complete rs st e _ SR S I D) as (f & F & O). exists f. destruct (parse_expr rs f st e) as [[st' ts']|er| |].
  - right. destruct O as (O & I' & AD). injection O as -> O. exists st'. split; [reflexivity|]. destruct AD as (T' & _).
    split; [exact I'|]. split; congruence.
  - destruct (e_priority er); [discriminate|]. destruct O as (r & O & _). discriminate.
  - left. reflexivity.
  - contradiction.
Qed.

Lemma failed : forall e s q st, sane e -> stands st s -> pege G e s (EFail q) ->
  exists f, parse_expr rs f st e = Panic \/ exists er, parse_expr rs f st e = Err er /\ e_priority er = Normal.
Proof.
  intros e s q st S (I & TT & E) D. apply pege_plain in D. cbn in D. rewrite <- E in D.
  destruct (engine_complete rs st e _ SR S I D) as (f & F & O). exists f. destruct (parse_expr rs f st e) as [[st' ts']|er| |].
  - destruct O as (O & _). discriminate.
  - right. exists er. split; [reflexivity|]. destruct (e_priority er); [reflexivity|]. destruct O as (r & O & _). discriminate.
  - left. reflexivity.
  - contradiction.
Qed.

Lemma stands_same : forall st s, stands st s -> bad st = (fun r => cut T r = None).
Proof. intros st s (_ & E & _). unfold bad. rewrite E. reflexivity. Qed.

Lemma atom_panics : forall a s q st, stands st s -> pege G (Simple a) s (EFail q) \/ pege G (Simple a) s (EAbort q) -> cut T (r_rest q) = None ->
  parse_expr rs 1 st (Simple a) = Panic.
Proof.
  intros a s q st (I & TT & E) D B. pose proof (engine_x rs SR 1 st (Simple a) Logic.I I) as X. rewrite E in X || idtac.
  assert (NF : parse_expr rs 1 st (Simple a) <> Fuel).
  { cbn [parse_expr]. destruct a as [l|cs rgs|m| |]; cbn [parse_atom].
    - unfold parse_literal. pose proof (literal_loop_x l l st I) as H. destruct (parse_literal_loop l st l); cbn [bind]; try discriminate. contradiction.
    - unfold parse_match, err_normal. destruct (get_char st) as [[st' c]|st']; [destruct (match_char cs rgs c)|]; rewrite ?bind_err_status; try discriminate;
        apply err_status_nofuel.
    - unfold parse_error. rewrite bind_err_status. apply err_status_nofuel.
    - unfold parse_dot, err_normal. destruct (get_char st) as [[st' c]|st']; rewrite ?bind_err_status; [discriminate|apply err_status_nofuel].
    - unfold parse_eof, err_normal. destruct (get_char st) as [[st' c]|st']; rewrite ?bind_err_status; [apply err_status_nofuel|discriminate]. }
  destruct (parse_expr rs 1 st (Simple a)) as [[st' ts]|er| |]; [| |reflexivity|contradiction]; cbn [xsound] in X; rewrite E in X.
  - exfalso. destruct X as (us & p & t & _ & D' & _). destruct D as [D|D]; pose proof (pege_det _ _ _ _ D _ D'); discriminate.
  - exfalso. destruct X as [(q' & _ & F & D')|(q' & _ & F & D')]; unfold fine in F; rewrite TT in F;
      destruct D as [D|D]; pose proof (pege_det _ _ _ _ D _ D') as Q; try discriminate; injection Q as <-; contradiction.
Qed.

Lemma trips_panics : forall e s, trips G (fun r => cut T r = None) e s ->
  (forall st, sane e -> stands st s -> exists f, parse_expr rs f st e = Panic) /\ loops_panic e s.
Proof.
  assert (WA : forall es s, loops_panic (And es) s -> forall st, sane (And es) -> stands st s -> exists f, parse_expr rs f st (And es) = Panic).
  { intros es s L st S ST. cbn in S. apply sane_list in S. destruct (L st [] S ST) as [f F]. exists (Datatypes.S f). exact F. }
  assert (WO : forall es s, loops_panic (Or es) s -> forall st, sane (Or es) -> stands st s -> exists f, parse_expr rs f st (Or es) = Panic).
  { intros es s L st S ST. cbn in S. apply sane_list in S. destruct (L st None S ST (or_intror eq_refl)) as [f F]. exists (Datatypes.S f). exact F. }
  assert (WR : forall e mn mx s, loops_panic (Repeat e mn mx) s -> forall st, sane (Repeat e mn mx) -> stands st s -> exists f, parse_expr rs f st (Repeat e mn mx) = Panic).
  { intros e mn mx s L st S ST. cbn in S. destruct S as [S1 S2].
    destruct (L st mn mx 0 [] S1 ST) as [f F]; [lia|destruct mx as [m|]; cbn; [f_equal; lia|reflexivity]|destruct mx as [m|]; [lia|exact I]|].
    exists (Datatypes.S f). exact F. }
  intros e s H. induction H as
    [a s q D B|a s q D B|e es s H [IH _]|e es s ts s1 p t D H [_ IH]|s B|e es s H [IH _]|e e2 es s q D H [_ IH]|e s H [IH _]|e s ts rest p t D B
    |e mn mx s NZ H [IH _]|e mn mx s ts s1 p t NZ D H [_ IH]|n e s E H [IH _]|n s E B].
  - split; [|exact I]. intros st _ ST. exists 1. eapply atom_panics; [exact ST|left; exact D|exact B].
  - split; [|exact I]. intros st _ ST. exists 1. eapply atom_panics; [exact ST|right; exact D|exact B].
  - assert (L : loops_panic (And (e :: es)) s).
    { intros st acc S ST. inversion S as [|? ? S1 S2]; subst. destruct (IH st S1 ST) as [f F]. exists f. cbn [parse_and]. rewrite F. reflexivity. }
    split; [exact (WA _ _ L)|exact L].
  - assert (L : loops_panic (And (e :: es)) s).
    { intros st acc S ST. inversion S as [|? ? S1 S2]; subst. destruct (matched _ _ _ _ _ _ st S1 ST D) as (f & [F|(st' & F & ST')]).
      - exists f. cbn [parse_and]. rewrite F. reflexivity.
      - destruct (IH st' (acc ++ ts) S2 ST') as [f2 F2]. exists (Nat.max f f2). cbn [parse_and].
        rewrite (le_out_eq _ _ _ _ (parse_expr_mono rs f (Nat.max f f2) st e ltac:(lia))) by congruence. rewrite F.
        assert (M : le_out (parse_and (parse_expr rs f2) st' es (acc ++ ts)) (parse_and (parse_expr rs (Nat.max f f2)) st' es (acc ++ ts)))
          by (apply parse_and_mono; intros; apply parse_expr_mono; lia).
        destruct M as [M|M]; congruence. }
    split; [exact (WA _ _ L)|exact L].
  - assert (L : loops_panic (Or []) s).
    { intros st o _ ST [N| ->]; [contradiction|]. exists 0. cbn [parse_or]. unfold err_normal. destruct ST as (I0 & TT & E).
      destruct (err_cases (status * list node) st msg_logic_error Normal I0) as [[_ X]|[X _]]; [exact X|]. rewrite TT, E in X. contradiction. }
    split; [exact (WO _ _ L)|exact L].
  - assert (L : loops_panic (Or (e :: es)) s).
    { intros st o S ST _. inversion S as [|? ? S1 S2]; subst. destruct (IH st S1 ST) as [f F]. exists f. cbn [parse_or]. rewrite F. reflexivity. }
    split; [exact (WO _ _ L)|exact L].
  - assert (L : loops_panic (Or (e :: e2 :: es)) s).
    { intros st o S ST _. inversion S as [|? ? S1 S2]; subst. destruct (failed _ _ _ st S1 ST D) as (f & [F|(er & F & P)]).
      - exists f. cbn [parse_or]. rewrite F. reflexivity.
      - destruct (IH st (deep_err o er) S2 ST) as [f2 F2]; [left; discriminate|]. exists (Nat.max f f2). remember (e2 :: es) as es2. cbn [parse_or].
        rewrite (le_out_eq _ _ _ _ (parse_expr_mono rs f (Nat.max f f2) st e ltac:(lia))) by congruence. rewrite F, P. cbn [is_critical].
        assert (M : le_out (parse_or (parse_expr rs f2) st es2 (deep_err o er)) (parse_or (parse_expr rs (Nat.max f f2)) st es2 (deep_err o er)))
          by (apply parse_or_mono; intros; apply parse_expr_mono; lia).
        destruct M as [M|M]; congruence. }
    split; [exact (WO _ _ L)|exact L].
  - split; [|exact I]. intros st S ST. cbn in S. destruct (IH st S ST) as [f F]. exists (Datatypes.S f). cbn [parse_expr]. unfold parse_not. rewrite F. reflexivity.
  - split; [|exact I]. intros st S ST. cbn in S. destruct (matched _ _ _ _ _ _ st S ST D) as (f & [F|(st' & F & ST')]); exists (Datatypes.S f); cbn [parse_expr]; unfold parse_not; rewrite F; [reflexivity|].
    unfold err_normal. destruct ST as (I0 & TT & E). destruct (err_cases (status * list node) st (s_ "not") Normal I0) as [[_ X]|[X _]]; [exact X|].
    rewrite TT, E in X. contradiction.
  - assert (L : loops_panic (Repeat e mn mx) s).
    { intros st mn0 mx0 c acc S ST E1 E2 B. destruct (IH st S ST) as [f F]. exists (Datatypes.S f). cbn [parse_repeat].
      rewrite (panic_mono f (Datatypes.S f) st e ltac:(lia) F). reflexivity. }
    split; [exact (WR _ _ _ _ L)|exact L].
  - assert (L : loops_panic (Repeat e mn mx) s).
    { intros st mn0 mx0 c acc S ST E1 E2 B. apply trips_rep_max in H. destruct (matched _ _ _ _ _ _ st S ST D) as (f & [F|(st' & F & ST')]).
      - exists (Datatypes.S f). cbn [parse_repeat]. rewrite (panic_mono f (Datatypes.S f) st e ltac:(lia) F). reflexivity.
      - assert (TM : touch_max_bound mx0 c = false).
        { destruct mx0 as [m|]; [|reflexivity]. cbn [touch_max_bound]. apply Nat.eqb_neq. intro Q. apply H. rewrite E2. cbn. f_equal. lia. }
        destruct (IH st' mn0 mx0 (c + 1) (acc ++ ts) S ST') as [f2 F2].
        + lia.
        + rewrite E2. destruct mx0 as [m|]; cbn; [f_equal; lia|reflexivity].
        + destruct mx0 as [m|]; [|exact I]. cbn in TM. apply Nat.eqb_neq in TM. lia.
        + exists (Datatypes.S (Nat.max f f2)). cbn [parse_repeat].
          rewrite (le_out_eq _ _ _ _ (parse_expr_mono rs f (Datatypes.S (Nat.max f f2)) st e ltac:(lia))) by congruence. rewrite F, TM.
          assert (M : le_out (parse_repeat f2 (parse_expr rs f2) st' e mn0 mx0 (c + 1) (acc ++ ts))
                             (parse_repeat (Nat.max f f2) (parse_expr rs (Datatypes.S (Nat.max f f2))) st' e mn0 mx0 (c + 1) (acc ++ ts)))
            by (apply parse_repeat_mono; [intros; apply parse_expr_mono; lia|lia]).
          destruct M as [M|M]; congruence. }
    split; [exact (WR _ _ _ _ L)|exact L].
  - split; [|exact I]. intros st _ ST.
    assert (ST1 : stands (if trace_rules st then push_rule st (s_ "r:" ++ n) else st) s) by (destruct (trace_rules st); exact ST).
    destruct (IH _ (SR n e E) ST1) as [f F]. exists (Datatypes.S f). cbn [parse_expr]. unfold parse_rule_name. unfold G in E. rewrite E, F. reflexivity.
  - split; [|exact I]. intros st _ ST. exists 1. cbn [parse_expr]. unfold parse_rule_name. unfold G in E. rewrite E, bind_err_status.
    assert (ST1 : stands (if trace_rules st then push_rule st (s_ "r:" ++ n) else st) s) by (destruct (trace_rules st); exact ST).
    destruct ST1 as (I0 & TT & E0). match goal with |- err_status ?x ?d _ = _ => destruct (err_cases (status * list node) x d Critical I0) as [[_ X]|[X _]] end; [exact X|].
    rewrite TT, E0 in X. contradiction.
Qed.

End Complete.

(* ------------------------------------------------------------------------------------------- *)
(** * parse *)

Lemma trips_ext : forall G (b b' : str -> Prop) e s, (forall x, b x -> b' x) -> trips G b e s -> trips G b' e s.
Proof.
  intros G b b' e s M H. induction H.
  - eapply tr_atom_fail; eauto.
  - eapply tr_atom_abort; eauto.
  - eapply tr_and_head; eauto.
  - eapply tr_and_tail; eauto.
  - eapply tr_or_none; eauto.
  - eapply tr_or_head; eauto.
  - eapply tr_or_tail; eauto.
  - eapply tr_not_inside; eauto.
  - eapply tr_not; eauto.
  - eapply tr_rep_head; eauto.
  - eapply tr_rep_tail; eauto.
  - eapply tr_rule; eauto.
  - eapply tr_missing; eauto.
Qed.

Lemma xerr_error_on : forall s d p q, fine (status_init_debug s d) q -> error_on s d p q (xerr (status_init_debug s d) p q).
Proof.
  intros s d p q F. unfold fine in F. cbn [text2parse status_init_debug] in F. unfold xerr. cbn [text2parse status_init_debug].
  destruct (cut s (r_rest q)) as [lb|] eqn:C; [|contradiction]. unfold wk. cbn [walking_rules trace_rules status_init_debug].
  constructor. apply slice_iff. exact C.
Qed.

Lemma error_on_det : forall s d p q e1 e2, error_on s d p q e1 -> error_on s d p q e2 -> e1 = e2.
Proof.
  intros s d p q e1 e2 [lb1 H1] [lb2 H2]. apply slice_iff in H1. apply slice_iff in H2. f_equal. congruence.
Qed.

Lemma error_on_cut : forall s d p q e, error_on s d p q e -> ~ uncuttable s (r_rest q).
Proof. intros s d p q e [lb H] U. exact (U lb H). Qed.

Lemma answers_on_det : forall s d r o1 o2, answers_on s d r o1 -> answers_on s d r o2 -> o1 = o2.
Proof.
  intros s d r o1 o2 H1 H2. inversion H1; subst; inversion H2; subst; try reflexivity; try contradiction;
    try (f_equal; eapply error_on_det; eassumption).
  - exfalso. eapply error_on_cut; eassumption.
  - exfalso. eapply error_on_cut; eassumption.
Qed.

(** A run that ends, described. *)
Lemma parse_x : forall fuel s rs d, sane_rules rs -> parse_with_debug fuel s rs d <> Fuel ->
  (parse_with_debug fuel s rs d = Panic /\ trips (rules_get rs) (uncuttable s) (RuleName main) s) \/
  exists r, pege (rules_get rs) (RuleName main) s r /\ answers_on s d r (parse_with_debug fuel s rs d).
Proof.
  intros fuel s rs d SR NF. rewrite parse_unfold in *. set (st0 := status_init_debug s d) in *.
  pose proof (engine_x rs SR (S fuel) st0 (RuleName main) I (inv_init s d)) as H.
  pose proof (parse_expr_good rs (S fuel) st0 (RuleName main) (inv_init s d)) as GD.
  rewrite expression_parse_expr in H, GD.
  destruct (expression_parse rs fuel st0) as [[st nd]|er| |]; cbn [bind] in *.
  - destruct GD as [I' AD]. destruct AD as (T & R & c & E). right.
    destruct H as (us & p & t & E0 & D & PE & W). cbn in E0. subst us.
    pose proof (final_check_pn s st I' T) as FC. exists (EMatch [nd] (it_parsing st) p t). split; [exact D|].
    destruct (pn (st_pos st) =? byte_len s) eqn:Q.
    + apply ao_ok. apply FC. reflexivity.
    + assert (NL : ~ looks_complete s (it_parsing st)) by (intro L; apply FC in L; discriminate).
      destruct p as [q|].
      * destruct PE as [PE F]. rewrite PE. apply ao_pending; [exact NL|]. apply xerr_error_on. exact F.
      * rewrite PE. cbn [potential_error st0 status_init_debug]. unfold err_normal.
        destruct (err_cases node st (s_ "not consumed full input") Normal I') as [[B ->]|[B ->]].
        -- apply ao_leftover_panic; [exact NL|]. apply cut_none. unfold bad in B. rewrite T in B. exact B.
        -- apply ao_leftover; [exact NL|].
           assert (X : xerr st Normal (Report (s_ "not consumed full input") (it_parsing st) []) =
                       xerr st0 Normal (Report (s_ "not consumed full input") (it_parsing st) t)).
           { rewrite (xerr_shift st0 st t) by assumption. unfold shift. cbn [r_descr r_rest r_trail]. rewrite app_nil_r. reflexivity. }
           rewrite X. apply xerr_error_on. unfold fine. cbn [r_rest]. rewrite T in B. exact B.
  - right. destruct H as [(q & -> & F & D)|(q & -> & F & D)]; [exists (EFail q)|exists (EAbort q)]; (split; [exact D|]);
      [apply ao_fail|apply ao_abort]; apply xerr_error_on; exact F.
  - left. split; [reflexivity|]. eapply trips_ext; [|exact H]. intros x B. apply cut_none. exact B.
  - contradiction.
Qed.

Lemma trips_parse_panics : forall s rs d, sane_rules rs -> trips (rules_get rs) (uncuttable s) (RuleName main) s ->
  exists fuel, parse_with_debug fuel s rs d = Panic.
Proof.
  intros s rs d SR H. assert (H' : trips (rules_get rs) (fun r => cut s r = None) (RuleName main) s).
  { eapply trips_ext; [|exact H]. intros x B. apply cut_none. exact B. }
  destruct (trips_panics rs SR s _ _ H') as [K _].
  destruct (K (status_init_debug s d) I) as [f F]; [split; [apply inv_init|split; reflexivity]|].
  exists f. assert (F2 : parse_expr rs (Datatypes.S f) (status_init_debug s d) (RuleName main) = Panic) by (eapply panic_mono; [|exact F]; lia).
  rewrite expression_parse_expr in F2. rewrite parse_unfold.
  destruct (expression_parse rs f (status_init_debug s d)) as [[st nd]|er| |]; cbn [bind] in *; congruence.
Qed.

Lemma parses_iff_sane : forall s rs d o, sane_rules rs -> o <> Fuel ->
  ((exists fuel, parse_with_debug fuel s rs d = o) <-> parses (rules_get rs) s d o).
Proof.
  intros s rs d o SR N. split.
  - intros [fuel <-]. destruct (parse_x fuel s rs d SR N) as [[-> TR]|(r & D & A)]; [apply pa_trip; exact TR|].
    assert (Q : parse_with_debug fuel s rs d = Panic \/ parse_with_debug fuel s rs d <> Panic)
      by (destruct (parse_with_debug fuel s rs d); auto; right; discriminate).
    destruct Q as [Q|Q].
    + (* the leftover report panics: does the evaluation itself trip? *)
      destruct (parse_expr rs (S fuel) (status_init_debug s d) (RuleName main)) as [[st ts]|er| |] eqn:E.
      * eapply pa_answer; [|exact D|exact A]. intro TR. apply (trips_ext _ _ (fun r => cut s r = None)) in TR; [|intros x B; apply cut_none; exact B].
        destruct (trips_panics rs SR s _ _ TR) as [K _].
        destruct (K (status_init_debug s d) I) as [f F]; [split; [apply inv_init|split; reflexivity]|].
        pose proof (parse_expr_mono rs (S fuel) (Nat.max f (S fuel)) (status_init_debug s d) (RuleName main) ltac:(lia)) as [M|M]; [change (s_ "main") with main in *; congruence|].
        pose proof (panic_mono rs f (Nat.max f (S fuel)) _ _ ltac:(lia) F) as M2. change (s_ "main") with main in *. congruence.
      * exfalso. rewrite expression_parse_expr in E. rewrite parse_unfold in Q.
        destruct (expression_parse rs fuel (status_init_debug s d)) as [[st nd]|er'| |]; cbn [bind] in *; discriminate.
      * rewrite Q. apply pa_trip. eapply trips_ext; [|pose proof (engine_x rs SR (S fuel) (status_init_debug s d) (RuleName main) I (inv_init s d)) as X; rewrite E in X; exact X].
        intros x B. apply cut_none. exact B.
      * exfalso. rewrite expression_parse_expr in E. rewrite parse_unfold in N.
        destruct (expression_parse rs fuel (status_init_debug s d)) as [[st nd]|er'| |]; cbn [bind] in *; try discriminate. contradiction.
    + eapply pa_answer; [|exact D|exact A]. intro TR. destruct (trips_parse_panics s rs d SR TR) as [f F].
      pose proof (parse_with_debug_mono fuel (Nat.max f fuel) s rs d ltac:(lia)) as [M|M]; [contradiction|].
      pose proof (parse_with_debug_mono f (Nat.max f fuel) s rs d ltac:(lia)) as [M'|M']; congruence.
  - intro H. destruct H as [TR|r o NT D A].
    + exact (trips_parse_panics s rs d SR TR).
    + pose proof (pege_plain _ _ _ _ D) as P. destruct (expression_parse_complete rs (status_init_debug s d) _ SR (inv_init s d) P) as [f F].
      exists f. assert (F' : parse_with_debug f s rs d <> Fuel).
      { rewrite parse_unfold. destruct (expression_parse rs f (status_init_debug s d)) as [[st nd]|er| |]; cbn [bind]; try discriminate; [|contradiction].
        destruct (pn (st_pos st) =? byte_len s); [discriminate|]. destruct (potential_error st); [discriminate|]. apply err_status_nofuel. }
      destruct (parse_x f s rs d SR F') as [[_ TR]|(r' & D' & A')]; [contradiction|].
      rewrite <- (pege_det _ _ _ _ D _ D') in A'. eapply answers_on_det; eassumption.
Qed.

Lemma parses_iff : forall s rs d o, o <> Fuel ->
  ((exists fuel, parse_with_debug fuel s rs d = o) <-> parses (grammar_of (norm_rules rs)) s d o).
Proof.
  intros s rs d o N. rewrite <- (parses_iff_sane s (norm_rules rs) d o (norm_rules_sane rs) N).
  split; intros [f F]; exists f; [rewrite <- parse_with_debug_norm|rewrite parse_with_debug_norm]; exact F.
Qed.

Lemma parses_det : forall G s d o1 o2, parses G s d o1 -> parses G s d o2 -> o1 = o2.
Proof.
  intros G s d o1 o2 H1 H2. destruct H1 as [T1|r1 o1 N1 D1 A1]; destruct H2 as [T2|r2 o2 N2 D2 A2]; try contradiction; [reflexivity|].
  rewrite (pege_det _ _ _ _ D1 _ D2) in A1. eapply answers_on_det; eassumption.
Qed.

Lemma trips_placed : forall G b e s, trips G b e s -> exists rest, b rest /\ exists c, s = c ++ rest.
Proof.
  intros G b e s H. induction H as
    [a s q D B|a s q D B|e es s H IH|e es s ts s1 p t D H IH|s B|e es s H IH|e e2 es s q D H IH|e s H IH|e s ts rest p t D B
    |e mn mx s NZ H IH|e mn mx s ts s1 p t NZ D H IH|n e s E H IH|n s E B]; try assumption.
  - exists (r_rest q). split; [exact B|]. exact (pege_placed _ _ _ _ D).
  - exists (r_rest q). split; [exact B|]. exact (pege_placed _ _ _ _ D).
  - destruct (pege_placed _ _ _ _ D) as [[c ->] _]. destruct IH as (x & B & c2 & ->). exists x. split; [exact B|]. exists (c ++ c2). apply app_assoc.
  - exists s. split; [exact B|]. exists []. reflexivity.
  - exists s. split; [exact B|]. exists []. reflexivity.
  - destruct (pege_placed _ _ _ _ D) as [[c ->] _]. destruct IH as (x & B & c2 & ->). exists x. split; [exact B|]. exists (c ++ c2). apply app_assoc.
  - exists s. split; [exact B|]. exists []. reflexivity.
Qed.

Lemma panic_is_a_cut : forall fuel s rs d, parse_with_debug fuel s rs d = Panic ->
  exists read rest, s = read ++ rest /\ uncuttable s rest.
Proof.
  intros fuel s rs d H. assert (P : parses (grammar_of (norm_rules rs)) s d Panic) by (apply parses_iff; [discriminate|exists fuel; exact H]).
  inversion P as [T|r o N D A]; subst.
  - destruct (trips_placed _ _ _ _ T) as (x & B & c & E). exists c, x. split; [exact E|exact B].
  - inversion A; subst. destruct (pege_placed _ _ _ _ D) as [[c E] _]. exists c, rest. split; [exact E|assumption].
Qed.

Lemma ascii_cuts : forall read rest t, ascii (read ++ rest) ->
  (excerpt (read ++ rest) (pstart_line (place (read ++ rest) rest)) (pn (place (read ++ rest) rest)) t <-> t = tail_after is_nl read).
Proof.
  intros read rest t A. unfold place. rewrite before_app. rewrite <- slice_iff. cbn [pstart_line pn pos_of].
  destruct (tail_after_suffix is_nl read) as [h Hh].
  assert (S : slice (read ++ rest) (length read - length (tail_after is_nl read)) (length read) = Some (tail_after is_nl read)).
  { assert (L : length read - length (tail_after is_nl read) = length h) by (rewrite Hh at 1; rewrite app_length; lia).
    assert (L2 : length read = length h + length (tail_after is_nl read)) by (rewrite Hh at 1; rewrite app_length; reflexivity).
    rewrite L, L2. rewrite Hh at 1. rewrite <- app_assoc. apply slice_ascii. rewrite <- Hh. apply ascii_app in A. tauto. }
  rewrite S. split; congruence.
Qed.
