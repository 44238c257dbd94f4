(** Formulas are read exactly. *)
From Verif Require Import Base ModelAst ModelParser SpecPeg SpecPos SpecApi SpecAst SpecTable SpecWords SpecOps.
From Verif Require Import ProofParser ProofEngine ProofApi ProofRefactor ProofReport ProofAst ProofTable ProofWords.

Lemma formula_ind' : forall P : formula -> Prop, (forall w, P (Number w)) -> (forall f, P f -> P (Group f)) ->
  (forall f l, P f -> Forall (fun p => P (snd p)) l -> P (Chain f l)) -> forall f, P f.
Proof.
  intros P PN PG PC. fix IH 1. intros [w|f|f l]; [apply PN|apply PG, IH|]. apply PC; [apply IH|].
  induction l as [|p l IHl]; [constructor|]. constructor; [apply IH|exact IHl].
Qed.

(** * The rules *)

Lemma lev_inj : forall j k, lev j = lev k -> j = k.
Proof. intros j k E. apply (f_equal (@length _)) in E. unfold lev in E. rewrite !repeat_length in E. lia. Qed.

Lemma lev_l : forall k, hd_error (lev k) = Some 108%N.
Proof. reflexivity. Qed.

Lemma str_eqb_neq : forall a b, a <> b -> str_eqb a b = false.
Proof. intros a b N. destruct (str_eqb a b) eqn:E; [|reflexivity]. apply str_eqb_eq in E. contradiction. Qed.

Lemma level_get : forall pre ops k j, j = k + length pre ->
  rules_get (level_rules k (pre ++ ops)) (lev j) = Some (level_expr j ops).
Proof.
  induction pre as [|o pre IH]; intros ops k j ->.
  - rewrite Nat.add_0_r. cbn [app]. destruct ops; cbn [level_rules rules_get]; rewrite (proj2 (str_eqb_eq _ _) eq_refl); reflexivity.
  - cbn [app level_rules rules_get length]. rewrite str_eqb_neq by (intro E; apply lev_inj in E; lia). apply IH. lia.
Qed.

Lemma level_get_other : forall ops k n, hd_error n <> Some 108%N -> rules_get (level_rules k ops) n = None.
Proof.
  induction ops as [|o ops IH]; intros k n N; cbn [level_rules rules_get].
  - rewrite str_eqb_neq; [reflexivity|]. intros <-. apply N, lev_l.
  - rewrite str_eqb_neq; [apply IH, N|]. intros <-. apply N, lev_l.
Qed.

Section Ops.
Variable cs : str.
Variable rg : list (char * char).
Variable O C : char.
Variable all : list str.
Hypothesis NO : ~ in_class cs rg O.
Hypothesis NC : ~ in_class cs rg C.
Hypothesis NOP : forall c, In c (concat all) -> ~ in_class cs rg c /\ c <> C.
Hypothesis SEP : separate all.

Let rs := ops_rules cs rg O C all.
Let G := grammar_of rs.
Let tx := formula_text O C.
Let tr := formula_tree O C.
Let fm := formula_of cs rg all.

Lemma G_level : forall pre ops, all = pre ++ ops -> G (lev (length pre)) = Some (level_expr (length pre) ops).
Proof.
  intros pre ops E. unfold G, grammar_of, rs, ops_rules. cbn [app rules_get].
  rewrite !str_eqb_neq by (intro X; apply (f_equal (@hd_error _)) in X; discriminate). rewrite E. apply (level_get pre ops 0). reflexivity.
Qed.

(** What may come after a formula of the levels [ops]. *)
Definition ends (ops : list str) (rest : str) : Prop := match rest with c :: _ => ~ in_class cs rg c /\ ~ In c (concat ops) | [] => True end.

Lemma ends_less : forall o ops rest, ends (o :: ops) rest -> ends ops rest.
Proof. intros o ops [|c rest] E; [exact Logic.I|]. destruct E as [E1 E2]. split; [exact E1|]. intro H. apply E2. cbn [concat]. apply in_or_app. right. exact H. Qed.

Lemma ends_class : forall ops rest, ends ops rest -> match rest with c :: _ => ~ in_class cs rg c | [] => True end.
Proof. intros ops [|c rest] E; [exact Logic.I|exact (proj1 E)]. Qed.

Lemma number_reads : forall w rest, w <> [] -> Forall (in_class cs rg) w -> ends [] rest ->
  peg G (RuleName nm_number) (w ++ rest) (PMatch [Rule nm_number (by_chars w)] rest).
Proof.
  intros [|c w] rest NE FW ST; [contradiction|]. inversion FW as [|? ? Cc FW']; subst.
  refine (peg_rule G nm_number (Repeat (ematch cs rg) 1 None) _ (PMatch (by_chars (c :: w)) rest) eq_refl _).
  change (by_chars (c :: w)) with ([Val [c]] ++ by_chars w).
  exact (peg_rep_more G (ematch cs rg) 1 None (c :: w ++ rest) [Val [c]] (w ++ rest) (PMatch (by_chars w) rest) ltac:(discriminate) (peg_class_ok G cs rg c _ Cc) (class_run G cs rg w rest FW' (ends_class [] rest ST))).
Qed.

Lemma number_fails : forall s, match s with c :: _ => ~ in_class cs rg c | [] => True end -> peg G (RuleName nm_number) s PFail.
Proof.
  intros s ST. refine (peg_rule G nm_number (Repeat (ematch cs rg) 1 None) _ PFail eq_refl _).
  apply peg_rep_short; [discriminate|lia|]. apply stop_class. exact ST.
Qed.

Lemma one_char : forall c rest, peg G (lit [c]) (c :: rest) (PMatch [Val [c]] rest).
Proof. intros c rest. exact (peg_lit_ok G [c] rest). Qed.

Lemma no_char : forall c s, (forall rest, s <> c :: rest) -> peg G (lit [c]) s PFail.
Proof. intros c s H. exact (peg_lit_fail G [c] s H). Qed.

Lemma operator : forall o c rest, In c o -> peg G (ematch o []) (c :: rest) (PMatch [Val [c]] rest).
Proof. intros o c rest IN. apply peg_class_ok. left. exact IN. Qed.

Lemma no_operator : forall o s, (forall c rest, s = c :: rest -> ~ In c o) -> peg G (ematch o []) s PFail.
Proof. intros o s H. apply peg_class_fail. intros c rest E [IN|(lo & hi & [] & _)]. exact (H c rest E IN). Qed.

Lemma C_ends : forall rest ops pre, all = pre ++ ops -> ends ops (C :: rest).
Proof.
  intros rest ops pre E. split; [exact NC|]. intro IN. apply (proj2 (NOP C ltac:(rewrite E, concat_app; apply in_or_app; right; exact IN))). reflexivity.
Qed.

Lemma op_ends : forall pre o ops c rest, all = pre ++ o :: ops -> In c o -> ends ops (c :: rest).
Proof.
  intros pre o ops c rest E IN. split.
  - apply (NOP c). rewrite E, concat_app. apply in_or_app. right. cbn [concat]. apply in_or_app. left. exact IN.
  - clear - SEP E IN. rewrite E in SEP. clear E. induction pre as [|p pre IH]; [exact (proj1 SEP c IN)|exact (IH (proj2 SEP))].
Qed.

Definition more (k : nat) (o : str) : expr := And [ematch o []; RuleName (lev k)].

(** * Completeness *)

Definition reads (pre ops : list str) (f : formula) : Prop := forall rest, ends ops rest ->
  peg G (RuleName (lev (length pre))) (tx f ++ rest) (PMatch [tr (length pre) f] rest).

Lemma turns_read : forall pre o ops l rest, all = pre ++ o :: ops -> Forall (fun p => In (fst p) o /\ reads (pre ++ [o]) ops (snd p)) l -> ends (o :: ops) rest ->
  peg G (Repeat (more (S (length pre)) o) 0 None) (flat_map (fun p => fst p :: tx (snd p)) l ++ rest)
    (PMatch (flat_map (fun p => [Val [fst p]; tr (S (length pre)) (snd p)]) l) rest).
Proof.
  intros pre o ops l rest EA FR ST. induction FR as [|[c f] l [IN R] FR IH].
  - cbn [flat_map app]. apply peg_rep_done; [discriminate|]. apply peg_and_stop; [|exact Logic.I]. apply no_operator. intros c r -> IN.
    apply (proj2 ST). cbn [concat]. apply in_or_app. left. exact IN.
  - cbn [flat_map fst snd] in *. cbn [app]. rewrite <- app_assoc.
    assert (S1 : ends ops (flat_map (fun p => fst p :: tx (snd p)) l ++ rest)).
    { destruct l as [|[c' f'] l]; [exact (ends_less _ _ _ ST)|]. cbn [flat_map fst app]. apply (op_ends pre o ops c' _ EA).
      inversion FR as [|? ? [IN' _] _]; subst. exact IN'. }
    specialize (R _ S1). rewrite app_length, Nat.add_comm in R. cbn [length Nat.add] in R.
    change (Val [c] :: tr (S (length pre)) f :: flat_map (fun p => [Val [fst p]; tr (S (length pre)) (snd p)]) l) with
      ([Val [c]; tr (S (length pre)) f] ++ flat_map (fun p => [Val [fst p]; tr (S (length pre)) (snd p)]) l).
    refine (peg_rep_more G (more (S (length pre)) o) 0 None _ [Val [c]; tr (S (length pre)) f] _ (PMatch _ rest) ltac:(discriminate) _ IH).
    exact (peg_and_cons G _ _ _ [Val [c]] _ (PMatch [tr (S (length pre)) f] _) (operator o c _ IN) (peg_and_cons G _ _ _ [tr (S (length pre)) f] _ (PMatch [] _) R (peg_and_nil G _))).
Qed.

Lemma leaf_rule : forall pre s p, all = pre ++ [] -> peg G (Or [RuleName nm_number; RuleName nm_group]) s p -> peg G (RuleName (lev (length pre))) s (wrap (lev (length pre)) p).
Proof. intros pre s p E D. exact (peg_rule G _ _ s p (G_level pre [] E) D). Qed.

Lemma chain_rule : forall pre o ops s p, all = pre ++ o :: ops -> peg G (And [RuleName (lev (S (length pre))); Repeat (more (S (length pre)) o) 0 None]) s p ->
  peg G (RuleName (lev (length pre))) s (wrap (lev (length pre)) p).
Proof. intros pre o ops s p E D. exact (peg_rule G _ _ s p (G_level pre (o :: ops) E) D). Qed.

Lemma formula_reads : forall f pre ops, all = pre ++ ops -> fm ops f -> reads pre ops f.
Proof.
  induction f as [w|f IH|f l IHf IHl] using formula_ind'; intros pre ops E V; inversion V as [? NE FW|? FV|? ? ? ? FV FL]; subst; intros rest ST.
  - apply (leaf_rule pre _ (PMatch [Rule nm_number (by_chars w)] rest) E). apply peg_or_first; [apply number_reads; assumption|discriminate].
  - unfold tx. cbn [formula_text app]. fold tx. rewrite <- app_assoc. cbn [app].
    apply (leaf_rule pre _ (PMatch [Rule nm_group [Val [O]; tr 0 f; Val [C]]] rest) E).
    apply peg_or_next; [apply number_fails; exact NO|]. apply peg_or_first; [|discriminate].
    refine (peg_rule G nm_group (And [lit [O]; RuleName (lev 0); lit [C]]) _ (PMatch [Val [O]; tr 0 f; Val [C]] rest) eq_refl _).
    pose proof (IH [] all eq_refl FV (C :: rest) (C_ends rest all [] eq_refl)) as D.
    exact (peg_and_cons G _ _ _ [Val [O]] _ _ (one_char O _) (peg_and_cons G _ _ _ [tr 0 f] _ _ D (peg_and_cons G _ [] _ [Val [C]] _ _ (one_char C rest) (peg_and_nil G rest)))).
  - assert (E' : all = (pre ++ [o]) ++ r) by (rewrite <- app_assoc; exact E).
    unfold tx. cbn [formula_text]. fold tx. rewrite <- app_assoc.
    apply (chain_rule pre o r _ (PMatch (tr (S (length pre)) f :: flat_map (fun p => [Val [fst p]; tr (S (length pre)) (snd p)]) l) rest) E).
    assert (FR : Forall (fun p => In (fst p) o /\ reads (pre ++ [o]) r (snd p)) l).
    { rewrite Forall_forall in *. intros p IN. split; [apply FL, IN|]. apply (IHl p IN); [exact E'|apply FL, IN]. }
    pose proof (turns_read pre o r l rest E FR ST) as T.
    assert (S1 : ends r (flat_map (fun p => fst p :: tx (snd p)) l ++ rest)).
    { destruct l as [|[c' f'] l]; [exact (ends_less _ _ _ ST)|]. cbn [flat_map fst app]. apply (op_ends pre o r c' _ E).
      inversion FL as [|? ? [IN' _] _]; subst. exact IN'. }
    pose proof (IHf (pre ++ [o]) r E' FV _ S1) as D. rewrite app_length, Nat.add_comm in D. cbn [length Nat.add] in D.
    pose proof (peg_and_cons G _ _ _ _ _ _ D (peg_and_cons G _ [] _ _ _ _ T (peg_and_nil G rest))) as X. cbn [prepend] in X. rewrite app_nil_r in X. exact X.
Qed.

(** * Nothing else is read *)

Definition read_or_not (k : nat) (ops : list str) (s : str) (p : presult) : Prop :=
  p = PFail \/ exists f rest, fm ops f /\ s = tx f ++ rest /\ p = PMatch [tr k f] rest.

Definition answers_upto (n : nat) (pre ops : list str) : Prop :=
  forall s, length s <= n -> exists p, peg G (RuleName (lev (length pre))) s p /\ read_or_not (length pre) ops s p.

Lemma turns_answer : forall pre o ops n, all = pre ++ o :: ops -> answers_upto n (pre ++ [o]) ops ->
  forall m s, length s <= m -> length s <= n -> exists l rest, Forall (fun p => In (fst p) o /\ fm ops (snd p)) l /\ s = flat_map (fun p => fst p :: tx (snd p)) l ++ rest /\
    peg G (Repeat (more (S (length pre)) o) 0 None) s (PMatch (flat_map (fun p => [Val [fst p]; tr (S (length pre)) (snd p)]) l) rest).
Proof.
  intros pre o ops n EA H. unfold answers_upto in H. rewrite app_length, Nat.add_comm in H. cbn [length Nat.add] in H.
  assert (STOP : forall s, peg G (more (S (length pre)) o) s PFail -> exists l rest, Forall (fun p => In (fst p) o /\ fm ops (snd p)) l /\ s = flat_map (fun p => fst p :: tx (snd p)) l ++ rest /\
      peg G (Repeat (more (S (length pre)) o) 0 None) s (PMatch (flat_map (fun p => [Val [fst p]; tr (S (length pre)) (snd p)]) l) rest)).
  { intros s D. exists [], s. split; [constructor|]. split; [reflexivity|]. apply peg_rep_done; [discriminate|exact D]. }
  induction m as [|m IH]; intros s L Ln.
  - destruct s; [|cbn in L; lia]. apply STOP, peg_and_stop; [apply no_operator; discriminate|exact Logic.I].
  - destruct s as [|c s]; [apply STOP, peg_and_stop; [apply no_operator; discriminate|exact Logic.I]|]. cbn [length] in L, Ln.
    destruct (in_dec N.eq_dec c o) as [IN|X].
    2:{ apply STOP, peg_and_stop; [|exact Logic.I]. apply no_operator. intros d r E. injection E as <- _. exact X. }
    destruct (H s ltac:(lia)) as (p & D & [->|(f & rest & V & -> & ->)]).
    + apply STOP. exact (peg_and_cons G _ _ _ [Val [c]] _ PFail (operator o c s IN) (peg_and_stop G _ _ _ _ D Logic.I)).
    + rewrite app_length in L, Ln. destruct (IH rest) as (l & rest' & FV & -> & T); [lia|lia|].
      exists ((c, f) :: l), rest'. split; [constructor; [split; assumption|assumption]|]. split; [cbn [flat_map fst snd app]; rewrite <- app_assoc; reflexivity|].
      cbn [flat_map fst snd].
      refine (peg_rep_more G (more (S (length pre)) o) 0 None _ [Val [c]; tr (S (length pre)) f] _ (PMatch _ rest') ltac:(discriminate) _ T).
      exact (peg_and_cons G _ _ _ [Val [c]] _ (PMatch [tr (S (length pre)) f] _) (operator o c _ IN) (peg_and_cons G _ _ _ [tr (S (length pre)) f] _ (PMatch [] _) D (peg_and_nil G _))).
Qed.

Lemma leaf_answer : forall n pre, all = pre ++ [] -> (0 < n -> answers_upto (pred n) [] all) -> answers_upto n pre [].
Proof.
  intros n pre E H s L.
  destruct (first_word_ex cs rg s) as (w & rest & Es & FW & ST). destruct w as [|c w].
  - cbn [app] in Es. subst rest.
    assert (LF : forall p, peg G (And [lit [O]; RuleName (lev 0); lit [C]]) s p -> peg G (RuleName (lev (length pre))) s (wrap (lev (length pre)) (wrap nm_group p))).
    { intros p D. apply (leaf_rule pre _ _ E). apply peg_or_next; [apply number_fails; exact ST|].
      pose proof (peg_rule G nm_group _ s p eq_refl D) as D'. destruct p as [ts r| |m r]; cbn [wrap] in *.
      - apply peg_or_first; [exact D'|discriminate].
      - apply peg_or_next; [exact D'|constructor].
      - apply peg_or_first; [exact D'|discriminate]. }
    assert (FAIL : peg G (And [lit [O]; RuleName (lev 0); lit [C]]) s PFail -> exists p, peg G (RuleName (lev (length pre))) s p /\ read_or_not (length pre) [] s p).
    { intro D. exists PFail. split; [exact (LF PFail D)|left; reflexivity]. }
    destruct s as [|c s]; [apply FAIL, peg_and_stop; [apply no_char; discriminate|exact Logic.I]|]. cbn [length] in L.
    destruct (N.eq_dec c O) as [->|X].
    2:{ apply FAIL, peg_and_stop; [|exact Logic.I]. apply no_char. intros r Er. injection Er as Er _. contradiction. }
    destruct (H ltac:(lia) s ltac:(lia)) as (p & D & [->|(f & rest & V & -> & ->)]).
    + apply FAIL. exact (peg_and_cons G _ _ _ [Val [O]] _ PFail (one_char O s) (peg_and_stop G _ _ _ _ D Logic.I)).
    + assert (Z : (exists r, rest = C :: r) \/ forall r, rest <> C :: r).
      { destruct rest as [|d r]; [right; discriminate|]. destruct (N.eq_dec d C) as [->|Y]; [left; eauto|right]. intros r' Er. injection Er as Er _. contradiction. }
      destruct Z as [(r & ->)|Z].
      * pose proof (peg_and_cons G _ _ _ _ _ _ (one_char O _) (peg_and_cons G _ _ _ _ _ _ D (peg_and_cons G _ [] _ _ _ _ (one_char C r) (peg_and_nil G r)))) as X.
        cbn [prepend app] in X. exists (PMatch [tr (length pre) (Group f)] r). split; [exact (LF _ X)|right]. exists (Group f), r. split; [constructor; exact V|]. split; [|reflexivity].
        unfold tx at 2. cbn [formula_text app]. rewrite <- app_assoc. reflexivity.
      * apply FAIL. exact (peg_and_cons G _ _ _ _ _ PFail (one_char O _) (peg_and_cons G _ _ _ _ _ PFail D (peg_and_stop G _ _ _ _ (no_char C rest Z) Logic.I))).
  - subst s. assert (V : fm [] (Number (c :: w))) by (constructor; [discriminate|exact FW]).
    assert (ST' : ends [] rest) by (destruct rest as [|d rest]; [exact Logic.I|split; [exact ST|intros []]]).
    exists (PMatch [tr (length pre) (Number (c :: w))] rest). split; [exact (formula_reads _ pre [] E V rest ST')|]. right. exists (Number (c :: w)), rest. split; [exact V|]. split; reflexivity.
Qed.

Lemma level_answer : forall n, (0 < n -> answers_upto (pred n) [] all) -> forall ops pre, all = pre ++ ops -> answers_upto n pre ops.
Proof.
  intros n H. induction ops as [|o ops IH]; intros pre E; [apply leaf_answer; assumption|].
  assert (E' : all = (pre ++ [o]) ++ ops) by (rewrite <- app_assoc; exact E). specialize (IH _ E').
  intros s L. destruct (IH s L) as (p & D & X). rewrite app_length, Nat.add_comm in D, X. cbn [length Nat.add] in D, X.
  destruct X as [->|(f & rest & V & -> & ->)].
  - exists PFail. split; [|left; reflexivity]. apply (chain_rule pre o ops _ PFail E). apply peg_and_stop; [exact D|exact Logic.I].
  - rewrite app_length in L. destruct (turns_answer pre o ops n E IH (length rest) rest ltac:(lia) ltac:(lia)) as (l & rest' & FV & -> & T).
    exists (PMatch [tr (length pre) (Chain f l)] rest'). split.
    + apply (chain_rule pre o ops _ (PMatch (tr (S (length pre)) f :: flat_map (fun p => [Val [fst p]; tr (S (length pre)) (snd p)]) l) rest') E).
      pose proof (peg_and_cons G _ _ _ _ _ _ D (peg_and_cons G _ [] _ _ _ _ T (peg_and_nil G rest'))) as Y. cbn [prepend] in Y. rewrite app_nil_r in Y. exact Y.
    + right. exists (Chain f l), rest'. split; [constructor; assumption|]. split; [|reflexivity]. unfold tx. cbn [formula_text]. rewrite <- app_assoc. reflexivity.
Qed.

Lemma all_answer : forall n, answers_upto n [] all.
Proof. induction n as [|n IH]; apply level_answer; try reflexivity; [lia|]. intros _. exact IH. Qed.

(** * Parse *)

Lemma level_sane : forall k ops n e, rules_get (level_rules k ops) n = Some e -> sane e.
Proof.
  intros k ops. revert k. induction ops as [|o ops IH]; intros k n e; cbn [level_rules rules_get]; destruct (str_eqb _ n).
  - intros [= <-]. cbn. auto.
  - discriminate.
  - intros [= <-]. cbn. auto 9.
  - apply IH.
Qed.

Lemma ops_sane : sane_rules rs.
Proof.
  intros n e. unfold rs, ops_rules. cbn [app rules_get].
  destruct (str_eqb main n); [intros [= <-]; exact Logic.I|]. destruct (str_eqb nm_number n); [intros [= <-]; cbn; auto|].
  destruct (str_eqb nm_group n); [intros [= <-]; cbn; auto|]. apply level_sane.
Qed.

Lemma main_reads : forall s p, peg G (RuleName (lev 0)) s p -> peg_main rs s (wrap main p).
Proof. intros s p D. exact (peg_rule G main (RuleName (lev 0)) s p eq_refl D). Qed.

Lemma ops_accepts : forall s d, ascii s -> forall ast, (exists fuel, parse_with_debug fuel s rs d = Ok ast) <->
  exists f, fm all f /\ s = tx f /\ ast = Rule main [tr 0 f].
Proof.
  intros s d A ast. rewrite (parse_accepts_iff s rs d ops_sane A ast). split.
  - intro D. destruct (all_answer (length s) s ltac:(lia)) as (p & D' & X). pose proof (peg_det _ _ _ _ D _ (main_reads s p D')) as E.
    destruct X as [->|(v & rest & V & -> & ->)]; [discriminate|]. cbn [wrap] in E. injection E as -> E. subst rest. exists v. split; [exact V|]. split; [apply app_nil_r|reflexivity].
  - intros (v & V & -> & ->). pose proof (formula_reads v [] all eq_refl V [] Logic.I) as D. rewrite app_nil_r in D. exact (main_reads _ _ D).
Qed.

Lemma ops_decides : forall s d, ascii s -> exists bound, forall fuel, bound <= fuel ->
  (exists f, fm all f /\ s = tx f /\ parse_with_debug fuel s rs d = Ok (Rule main [tr 0 f])) \/
  ((forall f, fm all f -> s <> tx f) /\ exists er, parse_with_debug fuel s rs d = Err er /\ e_priority er = Normal).
Proof.
  intros s d A. destruct (all_answer (length s) s ltac:(lia)) as (p & D & X). pose proof (main_reads s p D) as M.
  destruct (proj2 (parse_terminates_iff s rs d ops_sane A) (ex_intro _ _ M)) as [fuel NF']. exists fuel. intros fuel' L.
  assert (E : parse_with_debug fuel' s rs d <> Fuel) by (destruct (parse_with_debug_mono fuel fuel' s rs d L) as [E|E]; [contradiction|congruence]).
  pose proof (parse_sound fuel' s rs d ops_sane) as H.
  destruct (parse_with_debug fuel' s rs d) as [t|er| |] eqn:R; [| |contradiction|contradiction].
  - left. destruct (proj1 (ops_accepts s d A t) (ex_intro _ _ R)) as (v & V & Ev & ->). exists v. split; [exact V|]. split; [exact Ev|reflexivity].
  - right. split.
    + intros v V Ev. destruct (proj2 (ops_accepts s d A (Rule main [tr 0 v]))) as [f' H']; [exists v; split; [exact V|split; [exact Ev|reflexivity]]|].
      pose proof (parse_same _ _ _ _ _ _ _ ops_sane A R H' ltac:(discriminate) ltac:(discriminate)). discriminate.
    + exists er. split; [reflexivity|]. destruct H as [_ H]. destruct (e_priority er); [reflexivity|]. destruct H as (rest & H & _).
      pose proof (peg_det _ _ _ _ M _ H) as Q. destruct X as [->|(v & r & _ & _ & ->)]; discriminate.
Qed.

Lemma one_formula_tree : forall f f', fm all f -> fm all f' -> tx f = tx f' -> tr 0 f = tr 0 f'.
Proof.
  intros f f' V V' E. pose proof (formula_reads f [] all eq_refl V [] Logic.I) as H. pose proof (formula_reads f' [] all eq_refl V' [] Logic.I) as H'. rewrite E in H.
  pose proof (peg_det _ _ _ _ H _ H') as D. cbn [length] in D. congruence.
Qed.

End Ops.

Lemma formula_tree_inj : forall O C f f' k, formula_tree O C k f = formula_tree O C k f' -> f = f'.
Proof.
  intros O C. induction f as [w|f IH|f l IHf IHl] using formula_ind'; intros [w'|f'|f' l'] k E; cbn [formula_tree] in E.
  - injection E as E. apply by_chars_inj in E. congruence.
  - discriminate.
  - destruct f'; discriminate.
  - discriminate.
  - injection E as E. f_equal. exact (IH f' 0 E).
  - destruct f'; discriminate.
  - destruct f; discriminate.
  - destruct f; discriminate.
  - injection E as E1 E2. f_equal; [exact (IHf f' (S k) E1)|]. clear - E2 IHl. revert l' E2. induction IHl as [|[c g] l IH FL IHl]; intros [|[c' g'] l'] E2; try discriminate; [reflexivity|].
    cbn [flat_map fst snd app] in E2. injection E2 as -> E E2. cbn [snd] in IH. rewrite (IH g' (S k) E). f_equal. apply IHl, E2.
Qed.
