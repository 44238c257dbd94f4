(** What parsing copies. *)
From Verif Require Import Base ModelAst ModelParser ModelCost ModelCopy SpecPeg SpecPos SpecCopy ProofParser ProofEngine.

(* ------------------------------------------------------------------------------------------- *)
(** * Errors hold at most one line and one message *)

Lemma up_to_factor : forall f s, exists r, s = up_to f s ++ r /\ Forall (fun c => f c = false) (up_to f s).
Proof.
  intros f s. induction s as [|c s IH]; cbn [up_to]; [exists []; split; constructor|].
  destruct (f c) eqn:E; [exists (c :: s); split; [reflexivity|constructor]|].
  destruct IH as (r & H1 & H2). exists r. split; [cbn; f_equal; exact H1|constructor; assumption].
Qed.

Lemma tail_factor : forall f s, exists h, s = h ++ tail_after f s /\ Forall (fun c => f c = false) (tail_after f s).
Proof.
  intros f s. destruct (up_to_factor f (rev s)) as (r & H1 & H2). exists (rev r). unfold tail_after. split.
  - rewrite <- rev_app_distr, <- H1, rev_involutive. reflexivity.
  - apply Forall_rev. exact H2.
Qed.

Lemma err_line : forall l t lo er, ascii t -> lines_within l t -> err_ok t lo er ->
  length (e_line_before er) + length (e_line_after er) <= l.
Proof.
  intros l t lo er As LW (pre & post & T & _ & _ & LA & LB). rewrite (LB As), LA, <- app_length.
  destruct (tail_factor is_nl pre) as (h & H1 & H2). destruct (up_to_factor is_eol post) as (r & R1 & R2).
  apply (LW h _ r).
  - rewrite T. rewrite H1 at 1. rewrite R1 at 1. unfold until_eol. rewrite !app_assoc. reflexivity.
  - intro IN. apply in_app_or in IN. rewrite Forall_forall in H2, R2. destruct IN as [IN|IN].
    + apply H2 in IN. unfold is_nl in IN. rewrite N.eqb_refl in IN. discriminate.
    + apply R2 in IN. unfold is_eol in IN. rewrite N.eqb_refl in IN. discriminate.
Qed.

(** The texts of the grammar that can get into messages and nodes. *)
Fixpoint expr_chars (e : expr) : nat :=
  match e with
  | Simple (Literal l) => length l
  | Simple (Match cs rg) => length cs + length (debug_ranges rg)
  | Simple (AError m) => length m
  | Simple _ => 0
  | And es | Or es => fold_right (fun x n => expr_chars x + n) 0 es
  | Not e1 => expr_chars e1
  | Repeat e1 _ _ => expr_chars e1
  | RuleName n => length n
  end.

Definition base_chars : nat := length msg_logic_error.

Section Bound.
Variable rs : rules.
Variable d l : nat.
Variable t : str.
Hypothesis As : ascii t.
Hypothesis LW : lines_within l t.

Definition fits (e : expr) : Prop := base_chars + expr_chars e <= d.
Hypothesis FR : forall n e, rules_get rs n = Some e -> fits e.

Definition small (er : perror) : Prop := length (e_descr er) <= d /\ e_parsing_rules er = [] /\ exists lo, err_ok t lo er.

Definition quiet (st : status) : Prop :=
  text2parse st = t /\ trace_rules st = false /\ walking_rules st = [] /\ (forall er, potential_error st = Some er -> small er).

Notation w := (l + d).

Lemma small_chars : forall er, small er -> err_chars er <= w.
Proof.
  intros er (D & P & lo & E). pose proof (err_line l t lo er As LW E). unfold err_chars. rewrite P. cbn [strs_chars fold_right]. lia.
Qed.

Lemma quiet_chars : forall st, quiet st -> status_chars st <= w.
Proof.
  intros st (_ & _ & W & P). unfold status_chars, opt_err_chars. rewrite W. cbn [strs_chars fold_right].
  destruct (potential_error st) as [er|] eqn:E; [|lia]. pose proof (small_chars er (P er eq_refl)). lia.
Qed.

Lemma from_small : forall st x p er, inv st -> quiet st -> length x <= d -> from_status st x p = Some er -> small er.
Proof.
  intros st x p er I (T & _ & W & _) L F. destruct (from_status_ok st x p er I F) as (E & _ & D & _ & PR).
  split; [congruence|]. split; [congruence|]. exists (pn (st_pos st)). rewrite <- T. exact E.
Qed.

Lemma err_small : forall A st x p er, inv st -> quiet st -> length x <= d -> @err_status A st x p = Err er -> small er.
Proof.
  intros A st x p er I Q L E. unfold err_status in E. destruct (from_status st x p) as [e|] eqn:F; [|discriminate].
  injection E as E. subst e. exact (from_small st x p er I Q L F).
Qed.

Lemma made_small : forall A st x p, inv st -> quiet st -> length x <= d -> made (@err_status A st x p) <= w.
Proof.
  intros A st x p I Q L. destruct (@err_status A st x p) as [a|er| |] eqn:E; cbn [made]; try lia.
  apply small_chars. exact (err_small A st x p er I Q L E).
Qed.

Lemma get_char_quiet : forall st st' c, quiet st -> get_char st = inl (st', c) -> quiet st'.
Proof.
  intros st st' c Q E. unfold get_char in E. destruct (it_parsing st) as [|x r]; [discriminate|].
  injection E as E1 E2. subst st'. exact Q.
Qed.

Lemma get_char_inv : forall st st' c, inv st -> get_char st = inl (st', c) -> inv st'.
Proof. intros st st' c I E. pose proof (get_char_spec st I) as H. rewrite E in H. tauto. Qed.

Lemma get_char_end : forall st st', get_char st = inr st' -> st' = st.
Proof. intros st st' E. unfold get_char in E. destruct (it_parsing st); [congruence|discriminate]. Qed.

Lemma literal_quiet : forall x chs st, inv st -> quiet st -> base_chars + length x <= d ->
  match parse_literal_loop x st chs with Ok st' => quiet st' | Err er => small er | _ => True end.
Proof.
  intros x chs. induction chs as [|c chs IH]; intros st I Q F; cbn [parse_literal_loop]; [exact Q|].
  pose proof (parse_char_spec st c I) as PC. unfold parse_char in *. destruct (get_char st) as [[s1 c1]|s1] eqn:G.
  - pose proof (get_char_quiet _ _ _ Q G) as Q1. pose proof (get_char_inv _ _ _ I G) as I1. destruct (N.eqb c c1).
    + exact (IH s1 I1 Q1 F).
    + destruct (err_normal s1 _) as [|er| |] eqn:E; try exact Logic.I;
        [unfold err_normal, err_status in E; destruct (from_status _ _ _) in E; discriminate|].
      eapply (err_small _ s1 _ _ er I1 Q1); [|exact E]. rewrite !app_length.
      unfold base_chars in F. vm_compute (length msg_logic_error) in F. cbn [s_ length]. cbn. lia.
  - apply get_char_end in G. subst s1.
    destruct (err_normal st _) as [|er| |] eqn:E; try exact Logic.I;
      [unfold err_normal, err_status in E; destruct (from_status _ _ _) in E; discriminate|].
    eapply (err_small _ st _ _ er I Q); [|exact E]. rewrite !app_length.
    unfold base_chars in F. vm_compute (length msg_logic_error) in F. cbn. lia.
Qed.

Lemma atom_quiet : forall st a, inv st -> quiet st -> fits (Simple a) ->
  match parse_atom st a with Ok (st', nd) => quiet st' /\ copied_atom st a <= w | Err er => small er | _ => True end.
Proof.
  intros st a I Q F. unfold copied_atom.
  assert (BC : 20 <= base_chars) by (vm_compute; lia).
  assert (NOK : forall A s x p a0, @err_status A s x p = Ok a0 -> False).
  { intros A s x p a0 E. unfold err_status in E. destruct (from_status _ _ _) in E; discriminate. }
  destruct a as [x|cs rg|m| |]; unfold fits in F; cbn [expr_chars] in F; cbn [parse_atom].
  - unfold parse_literal. pose proof (literal_quiet x x st I Q F) as H.
    destruct (parse_literal_loop x st x) as [s1|er| |]; cbn [bind]; try exact Logic.I; [split; [exact H|lia]|exact H].
  - unfold parse_match. destruct (get_char st) as [[s1 c]|s1] eqn:G.
    + pose proof (get_char_quiet _ _ _ Q G) as Q1. pose proof (get_char_inv _ _ _ I G) as I1. destruct (match_char cs rg c).
      * split; [exact Q1|cbn [length]; lia].
      * destruct (err_normal s1 _) as [[? ?]|er| |] eqn:E; try exact Logic.I; [destruct (NOK _ _ _ _ _ E)|].
        eapply (err_small _ s1 _ _ er I1 Q1); [|exact E]. rewrite !app_length. change (length (s_ "match. expected ")) with 16.
        change (length (s_ " ")) with 1. lia.
    + apply get_char_end in G. subst s1. destruct (err_normal st _) as [[? ?]|er| |] eqn:E; try exact Logic.I; [destruct (NOK _ _ _ _ _ E)|].
      eapply (err_small _ st _ _ er I Q); [|exact E]. rewrite !app_length. change (length (s_ "match. expected ")) with 16.
      change (length (s_ " ")) with 1. lia.
  - unfold parse_error. destruct (err_status st m Critical) as [[? ?]|er| |] eqn:E; try exact Logic.I; [destruct (NOK _ _ _ _ _ E)|].
    eapply (err_small _ st _ _ er I Q); [|exact E]. lia.
  - unfold parse_dot. destruct (get_char st) as [[s1 c]|s1] eqn:G.
    + split; [exact (get_char_quiet _ _ _ Q G)|cbn [length]; lia].
    + apply get_char_end in G. subst s1. destruct (err_normal st _) as [[? ?]|er| |] eqn:E; try exact Logic.I; [destruct (NOK _ _ _ _ _ E)|].
      eapply (err_small _ st _ _ er I Q); [|exact E]. change (length (s_ "dot")) with 3. lia.
  - unfold parse_eof. destruct (get_char st) as [[s1 c]|s1] eqn:G.
    + pose proof (get_char_quiet _ _ _ Q G) as Q1. pose proof (get_char_inv _ _ _ I G) as I1.
      destruct (err_normal s1 _) as [[? ?]|er| |] eqn:E; try exact Logic.I; [destruct (NOK _ _ _ _ _ E)|].
      eapply (err_small _ s1 _ _ er I1 Q1); [|exact E]. change (length (s_ "expected EOF")) with 12. lia.
    + apply get_char_end in G. subst s1. split; [exact Q|change (length (s_ "EOF")) with 3; lia].
Qed.

(* ------------------------------------------------------------------------------------------- *)
(** * Every step keeps its errors small *)

Definition step_ok (r : result_expr) : Prop :=
  match r with Ok (st', _) => inv st' /\ quiet st' | Err er => small er | _ => True end.

Definition pe_ok (pe : status -> expr -> result_expr) (e : expr) : Prop := forall st, inv st -> quiet st -> step_ok (pe st e).

Lemma sum_le : forall es e, In e es -> expr_chars e <= fold_right (fun x n => expr_chars x + n) 0 es.
Proof. intros es e. induction es as [|x es IH]; intros H; [destruct H|]. cbn. destruct H as [->|H]; [lia|]. apply IH in H. lia. Qed.

Lemma fits_in : forall es e, In e es -> fits (And es) -> fits e.
Proof. intros es e IN F. unfold fits in *. cbn [expr_chars] in F. pose proof (sum_le es e IN). lia. Qed.

Lemma and_ok : forall pe es, (forall e, In e es -> pe_ok pe e) -> forall st acc, inv st -> quiet st -> step_ok (parse_and pe st es acc).
Proof.
  intros pe es. induction es as [|e es IH]; intros H st acc I Q; cbn [parse_and]; [split; assumption|].
  pose proof (H e (or_introl eq_refl) st I Q) as E. destruct (pe st e) as [[s1 v]|er| |]; cbn in E; try exact E.
  apply IH; try tauto. intros e' IN. apply H. right. exact IN.
Qed.

Lemma deep_small : forall oe er e, (forall e1, oe = Some e1 -> small e1) -> small er -> deep_err oe er = Some e -> small e.
Proof.
  intros oe er e H S E. unfold deep_err in E. destruct oe as [e1|]; [|congruence].
  destruct (prio_gt _ _); [|destruct (_ <? _)]; injection E as E; subst e; auto.
Qed.

Lemma err_step : forall A st x p, inv st -> quiet st -> length x <= d ->
  match @err_status A st x p with Err er => small er | Ok _ => False | _ => True end.
Proof.
  intros A st x p I Q L. destruct (@err_status A st x p) as [a|er| |] eqn:E; try exact Logic.I.
  - unfold err_status in E. destruct (from_status _ _ _) in E; discriminate.
  - exact (err_small A st x p er I Q L E).
Qed.

Lemma err_step_ok : forall st x p, inv st -> quiet st -> length x <= d -> step_ok (err_status st x p).
Proof.
  intros st x p I Q L. pose proof (err_step (status * list node) st x p I Q L) as H. unfold step_ok.
  destruct (err_status st x p) as [[? ?]|er| |]; [destruct H|exact H|exact H|exact H].
Qed.

Lemma or_ok : forall pe es, (forall e, In e es -> pe_ok pe e) -> base_chars <= d -> forall st oe, inv st -> quiet st ->
  (forall e1, oe = Some e1 -> small e1) -> step_ok (parse_or pe st es oe).
Proof.
  intros pe es. induction es as [|e es IH]; intros H B st oe I Q O; cbn [parse_or].
  - destruct oe as [e1|]; [exact (O e1 eq_refl)|]. apply err_step_ok; assumption.
  - pose proof (H e (or_introl eq_refl) st I Q) as E. destruct (pe st e) as [[s1 v]|er| |]; cbn in E; try exact E.
    destruct (is_critical _); [exact E|]. apply IH; try assumption.
    + intros e' IN. apply H. right. exact IN.
    + intros e1. apply deep_small; assumption.
Qed.

Lemma not_ok : forall pe e, pe_ok pe e -> base_chars <= d -> forall st, inv st -> quiet st -> step_ok (parse_not pe st e).
Proof.
  intros pe e H B st I Q. unfold parse_not. pose proof (H st I Q) as E. destruct (pe st e) as [[s1 v]|er| |]; try exact E.
  - apply err_step_ok; try assumption. change (length (s_ "not")) with 3. vm_compute (base_chars) in B. lia.
  - split; assumption.
Qed.

Lemma set_inv : forall st er, inv st -> err_ok (text2parse st) 0 er -> e_priority er = Normal -> inv (set_potential_error st er).
Proof. intros st er [H1 H2] E P. split; [exact H1|]. cbn. intros e' X. injection X as X. subst e'. split; assumption. Qed.

Lemma set_quiet : forall st er, quiet st -> small er -> quiet (set_potential_error st er).
Proof. intros st er (A & B & C & D) S. split; [exact A|]. split; [exact B|]. split; [exact C|]. cbn. intros e' X. injection X as X. subst e'. exact S. Qed.

Lemma repeat_ok : forall pe e, pe_ok pe e -> forall f mn mx st counter acc, inv st -> quiet st ->
  step_ok (parse_repeat f pe st e mn mx counter acc).
Proof.
  intros pe e H f mn mx. induction f as [|f IH]; intros st counter acc I Q; cbn [parse_repeat]; [exact Logic.I|].
  pose proof (H st I Q) as E. destruct (pe st e) as [[s1 v]|er| |]; cbn in E; try exact E.
  - destruct (touch_max_bound mx counter); [exact E|]. apply IH; tauto.
  - destruct (big_min_bound mn counter); [|exact E]. destruct (is_critical (e_priority er)) eqn:C; [exact E|].
    split; [|apply set_quiet; assumption]. destruct E as (_ & _ & lo & EO). apply set_inv; [exact I| |].
    + destruct Q as (T & _). rewrite T. eapply err_ok_weaken; [|exact EO]. lia.
    + destruct (e_priority er); [reflexivity|discriminate].
Qed.

Lemma expr_ok : forall f e, fits e -> pe_ok (parse_expr rs f) e.
Proof.
  intro f. induction f as [|f IH]; intros e F st I Q; [exact Logic.I|]. cbn [parse_expr].
  assert (B : base_chars <= d) by (unfold fits in F; lia).
  destruct e as [a|es|es|e1|e1 mn mx|n].
  - pose proof (atom_quiet st a I Q F) as H. pose proof (parse_atom_good (rules_get rs) st a I) as G.
    destruct (parse_atom st a) as [[s1 nd]|er| |]; cbn [bind]; try exact Logic.I; [split; tauto|exact H].
  - apply and_ok; try assumption. intros e IN. apply IH. exact (fits_in es e IN F).
  - apply or_ok; [intros e IN; apply IH; exact (fits_in es e IN F)|exact B|exact I|exact Q|]. intros e1 X. discriminate X.
  - apply not_ok; try assumption. apply IH. exact F.
  - apply repeat_ok; try assumption. apply IH. exact F.
  - unfold parse_rule_name. pose proof Q as Q'. destruct Q' as (_ & TR & _). rewrite TR.
    destruct (rules_get rs n) as [e|] eqn:E.
    + pose proof (IH e (FR n e E) st I Q) as H. destruct (parse_expr rs f st e) as [[s1 v]|er| |]; exact H.
    + assert (LN : length (s_ "Missing rule: " ++ n) <= d).
      { rewrite app_length. change (length (s_ "Missing rule: ")) with 14. unfold fits in F. cbn [expr_chars] in F.
        assert (20 <= base_chars) by (vm_compute; lia). lia. }
      pose proof (err_step (status * node) st (s_ "Missing rule: " ++ n) Critical I Q LN) as H.
      destruct (err_status st _ Critical) as [[? ?]|er| |]; cbn [bind]; [destruct H|exact H|exact H|exact H].
Qed.

(* ------------------------------------------------------------------------------------------- *)
(** * What is copied is bounded by the number of calls *)

Notation pe f := (parse_expr rs f).
Notation cp f := (copied rs f).
Notation calls f := (tally Nat.add rs f).

Definition bounded (f : nat) (e : expr) : Prop := forall st, inv st -> quiet st ->
  cp f st e + (if f then 0 else w) <= 5 * w * calls f st e.

Lemma and_bounded : forall f es, (forall e, In e es -> fits e) -> (forall e, In e es -> bounded f e) -> forall st, inv st -> quiet st ->
  copied_and (pe f) (cp f) st es <= 5 * w * tally_and Nat.add (pe f) (calls f) st es.
Proof.
  intros f es. induction es as [|e es IH]; intros F B st I Q; cbn [copied_and tally_and]; [lia|].
  pose proof (B e (or_introl eq_refl) st I Q) as H. pose proof (expr_ok f e (F e (or_introl eq_refl)) st I Q) as S.
  rewrite Nat.mul_add_distr_l.
  destruct (pe f st e) as [[s1 v]|er| |]; cbn in S; try lia.
  specialize (IH (fun e' IN => F e' (or_intror IN)) (fun e' IN => B e' (or_intror IN)) s1 (proj1 S) (proj2 S)). lia.
Qed.

Lemma or_bounded : forall f es, base_chars <= d -> (forall e, In e es -> bounded f e) -> forall st oe, inv st -> quiet st ->
  copied_or (pe f) (cp f) st es oe <= w + 5 * w * tally_or Nat.add (pe f) (calls f) st es.
Proof.
  intros f es BC. induction es as [|e es IH]; intros B st oe I Q; cbn [copied_or tally_or].
  - destruct oe; [lia|]. pose proof (made_small unit st msg_logic_error Normal I Q BC) as H. unfold err_normal. lia.
  - pose proof (B e (or_introl eq_refl) st I Q) as H. pose proof (quiet_chars st Q) as SC. rewrite Nat.mul_add_distr_l.
    destruct f as [|f]; [cbn [parse_expr copied tally]; lia|].
    destruct (pe (S f) st e) as [[s1 v]|er| |]; try lia. destruct (is_critical _); [lia|].
    specialize (IH (fun e' IN => B e' (or_intror IN)) st (deep_err oe er) I Q). lia.
Qed.

Lemma repeat_bounded : forall f e mx, fits e -> bounded f e -> forall g st counter, inv st -> quiet st ->
  copied_repeat g (pe f) (cp f) st e mx counter <= w + 5 * w * tally_repeat Nat.add g (pe f) (calls f) st e mx counter.
Proof.
  intros f e mx F B g. induction g as [|g IH]; intros st counter I Q; cbn [copied_repeat tally_repeat]; [lia|].
  pose proof (B st I Q) as H. pose proof (quiet_chars st Q) as SC. rewrite Nat.mul_add_distr_l.
  pose proof (expr_ok f e F st I Q) as S. destruct f as [|f]; [cbn [parse_expr copied tally]; lia|].
  destruct (pe (Datatypes.S f) st e) as [[s1 v]|er| |]; cbn in S; try lia. destruct (touch_max_bound mx counter); [lia|].
  specialize (IH s1 (counter + 1) (proj1 S) (proj2 S)). lia.
Qed.

Lemma name_bounded : forall f st n, (forall e, fits e -> bounded f e) -> inv st -> quiet st -> base_chars + length n <= d ->
  copied_rule_name (pe f) (cp f) rs st n <= w + 5 * w * tally_rule_name (calls f) rs st n.
Proof.
  intros f st n B I Q F. unfold copied_rule_name, tally_rule_name. pose proof Q as Q'. destruct Q' as (_ & TR & _). rewrite TR.
  destruct (rules_get rs n) as [e|] eqn:E.
  - pose proof (B e (FR n e E) st I Q) as H. destruct (pe f st e) as [[s1 v]|er| |]; lia.
  - assert (LN : length (s_ "Missing rule: " ++ n) <= d).
    { rewrite app_length. change (length (s_ "Missing rule: ")) with 14. assert (20 <= base_chars) by (vm_compute; lia). lia. }
    pose proof (made_small unit st _ Critical I Q LN). lia.
Qed.

Lemma expr_bounded : forall f e, fits e -> bounded f e.
Proof.
  intro f. induction f as [|f IH]; intros e F st I Q; [cbn; lia|]. cbn [copied tally].
  assert (BC : base_chars <= d) by (unfold fits in F; lia). rewrite Nat.mul_succ_r. pose proof (quiet_chars st Q) as SC.
  destruct e as [a|es|es|e1|e1 mn mx|n].
  - pose proof (atom_quiet st a I Q F) as H. unfold copied_atom in *.
    destruct (parse_atom st a) as [[s1 nd]|er| |]; cbn [made]; try lia. pose proof (small_chars er H). lia.
  - pose proof (and_bounded f es (fun e IN => fits_in es e IN F) (fun e IN => IH e (fits_in es e IN F)) st I Q). lia.
  - pose proof (or_bounded f es BC (fun e IN => IH e (fits_in es e IN F)) st None I Q). lia.
  - pose proof (IH e1 F st I Q) as H. unfold copied_not. assert (LN : length (s_ "not") <= d).
    { change (length (s_ "not")) with 3. assert (20 <= base_chars) by (vm_compute; lia). lia. }
    pose proof (made_small unit st (s_ "not") Normal I Q LN) as M. unfold err_normal.
    destruct (pe f st e1) as [[s1 v]|er| |]; lia.
  - pose proof (repeat_bounded f e1 mx F (IH e1 F) f st 0 I Q). lia.
  - pose proof (name_bounded f st n IH I Q F). lia.
Qed.

End Bound.
