(** Statements with an optional branch: calls. *)
From Verif Require Import Base ModelAst ModelParser ModelCost SpecPeg SpecPos SpecApi SpecWf SpecComments SpecElse.
From Verif Require Import PegTools ProofParser ProofEngine ProofApi ProofRun ProofRunDet ProofLines ProofSearch ProofComments ProofElse Examples.

Lemma q_lit : forall G l s, costs G (lit l) (l ++ s) (OM s) 1.
Proof. intros G l s. eapply c_match. apply peg_lit_ok. Qed.
Lemma q_nolit : forall G l s, ~ starts_with l s -> costs G (lit l) s OF 1.
Proof. intros G l s N. apply c_fail, peg_lit_fail. intros r E. apply N. exists r. exact E. Qed.

Section Marks.
Variables i e x : str.
Hypothesis CM : clear_marks i e x.
Notation text := (stm_text i e x).
Notation S_ := (RuleName nm_stmt).

Lemma len_i : 1 <= length i.
Proof. pose proof (marks_i i e x CM) as N. destruct i; [destruct (N eq_refl)|cbn; lia]. Qed.
Lemma len_x : 1 <= length x.
Proof. pose proof (marks_x i e x CM) as N. destruct x; [destruct (N eq_refl)|cbn; lia]. Qed.

(** ** The rules with an optional part *)

Notation Go := (grammar_of (optional_rules i e x)).
Notation run := (costs Go).
Lemma q_leaf : forall rest, run S_ (x ++ rest) (OM rest) 5.
Proof.
  intro rest. apply (c_rule Go nm_stmt _ _ _ 4 (go_stmt i e x)). apply (c_or Go _ _ _ 3). apply (co_next Go _ _ _ _ 2 1).
  - apply (c_and Go _ _ _ 1). apply ca_fail. exact (q_nolit Go i _ (x_not_i i e x CM rest)).
  - apply co_match. apply q_lit.
Qed.
Lemma q_other : forall s, ~ starts_with i s -> ~ starts_with x s -> run S_ s OF 5.
Proof.
  intros s NI NX. apply (c_rule Go nm_stmt _ _ _ 4 (go_stmt i e x)). apply (c_or Go _ _ _ 3). apply (co_next Go _ _ _ _ 2 1).
  - apply (c_and Go _ _ _ 1). apply ca_fail. exact (q_nolit Go i s NI).
  - apply (co_next Go _ _ _ _ 1 0); [exact (q_nolit Go x s NX)|apply co_nil].
Qed.
Lemma q_fail : forall s k, run S_ s OF k -> run S_ (i ++ s) OF (k + 5).
Proof.
  intros s k K. replace (k + 5) with (S (S (S (1 + k) + (1 + 0)))) by lia. eapply c_rule; [exact (go_stmt i e x)|]. apply c_or. eapply co_next.
  - apply c_and. eapply ca_cons; [apply q_lit|]. apply ca_fail. exact K.
  - eapply co_next; [exact (q_nolit Go x _ (i_not_x i e x CM s))|apply co_nil].
Qed.
Lemma q_opt : forall s r rest k k', run S_ s (OM r) k -> costs_rep Go (And [lit e; S_]) 0 (Some 1) r (OM rest) k' -> run S_ (i ++ s) (OM rest) (k + k' + 5).
Proof.
  intros s r rest k k' K K'. replace (k + k' + 5) with (S (S (S (1 + (k + (S k' + 0)))))) by lia. eapply c_rule; [exact (go_stmt i e x)|]. apply c_or. apply co_match.
  apply c_and. eapply ca_cons; [apply q_lit|]. eapply ca_cons; [exact K|]. eapply ca_cons; [apply c_rep; exact K'|]. apply ca_nil.
Qed.
Lemma q_both : forall s r rest k k', run S_ s (OM (e ++ r)) k -> run S_ r (OM rest) k' -> run S_ (i ++ s) (OM rest) (k + k' + 7).
Proof.
  intros s r rest k k' K K'. replace (k + k' + 7) with (k + S (1 + (k' + 0)) + 5) by lia. eapply q_opt; [exact K|]. apply cr_last. apply c_and.
  eapply ca_cons; [apply q_lit|]. eapply ca_cons; [exact K'|]. apply ca_nil.
Qed.
Lemma q_none : forall s r k, run S_ s (OM r) k -> ~ starts_with e r -> run S_ (i ++ s) (OM r) (k + 7).
Proof.
  intros s r k K N. replace (k + 7) with (k + 2 + 5) by lia. eapply q_opt; [exact K|]. apply cr_done. apply (c_and Go _ _ _ 1). apply ca_fail. exact (q_nolit Go e r N).
Qed.
Lemma q_vain : forall s r k k', run S_ s (OM (e ++ r)) k -> run S_ r OF k' -> run S_ (i ++ s) (OM (e ++ r)) (k + k' + 7).
Proof.
  intros s r k k' K K'. replace (k + k' + 7) with (k + S (1 + k') + 5) by lia. eapply q_opt; [exact K|]. apply cr_done. apply c_and. eapply ca_cons; [apply q_lit|]. apply ca_fail. exact K'.
Qed.
Lemma q_main : forall s out k, run S_ s out k -> run (RuleName main) s out (S k).
Proof. intros s out k K. eapply c_rule; [reflexivity|exact K]. Qed.

(** Texts that are statements. *)
Lemma q_statement : forall t, nearest t -> forall rest, complete_before i e x t rest -> ~ starts_with e rest \/ (exists b r, rest = e ++ text b ++ r) ->
  exists k, run S_ (text t ++ rest) (OM rest) k /\ k <= 7 * length (text t).
Proof.
  pose proof len_i as LI. pose proof len_x as LX.
  induction t as [|a IHa|a IHa b IHb]; intros NE rest CB CL; cbn [stm_text].
  - exists 5. split; [apply q_leaf|lia].
  - destruct (IHa NE rest ltac:(intros _; exact (CB I)) CL) as (k & K & L). rewrite <- app_assoc, app_length. exists (k + 7). split; [|lia].
    apply q_none; [exact K|]. destruct CL as [CL|(b & r & E)]; [exact CL|destruct (CB I b r E)].
  - destruct NE as (NA & CA & NB). destruct (IHa NA (e ++ text b ++ rest) ltac:(intro T; destruct (CA T)) ltac:(right; eauto)) as (k & K & L).
    destruct (IHb NB rest CB CL) as (k' & K' & L'). exists (k + k' + 7). rewrite <- !app_assoc, !app_length. split; [exact (q_both _ _ _ _ _ K K')|lia].
Qed.
Lemma statement_calls : forall s fuel debug t, ascii s -> s = text t -> parse_with_debug fuel s (optional_rules i e x) debug <> Fuel ->
  parse_calls fuel s (optional_rules i e x) debug <= 7 * length s.
Proof.
  intros s fuel debug t A E N. destruct (one_nearest i e x CM t) as (t' & E' & NE & _). rewrite <- E' in E.
  assert (NIL : ~ starts_with e []) by (intros (r & Q); symmetry in Q; apply app_eq_nil in Q; exact (marks_e i e x CM (proj1 Q))).
  destruct (q_statement t' NE [] ltac:(intros _ b r Q; apply NIL; eexists; exact Q) (or_introl NIL)) as (k & K & L). rewrite app_nil_r, <- E in K. rewrite <- E in L.
  pose proof (parse_calls_run _ _ _ _ _ _ (o_sane i e x) A N (q_main _ _ _ K) ltac:(discriminate)). lia.
Qed.

(** All texts. *)
Lemma q_all : forall n s, length s <= n ->
  (exists k, run S_ s OF k /\ k <= 5 * (length s + 1)) \/
  (exists r k, run S_ s (OM r) k /\ length r <= length s /\ k + (12 * (n + 1)) * length r <= (12 * (n + 1)) * length s).
Proof.
  pose proof len_i as LI. pose proof len_x as LX. intros n s. remember (length s) as m eqn:M. assert (L0 : length s <= m) by lia. clear M. intro B. revert s L0.
  induction m as [m IH] using lt_wf_ind. intros s L.
  assert (Y : (exists k, run S_ s OF k /\ k <= 5 * (length s + 1)) \/
    (exists r k, run S_ s (OM r) k /\ length r <= length s /\ k + (12 * (n + 1)) * length r <= (12 * (n + 1)) * length s)).
  2:{ destruct Y as [(k & K & H)|(r & k & K & H & X)]; [left; exists k; split; [exact K|lia]|]. right. exists r, k. split; [exact K|]. split; [lia|nia]. }
  destruct (starts_dec i s) as [(s1 & ->)|NI].
  - rewrite app_length in *. destruct (IH (length s1) ltac:(lia) ltac:(lia) s1 (Nat.le_refl _)) as [(k & K & H)|(r & k & K & H & X)].
    + left. exists (k + 5). split; [exact (q_fail s1 k K)|lia].
    + right. destruct (starts_dec e r) as [(r1 & ->)|NS].
      * rewrite app_length in *. destruct (IH (length r1) ltac:(lia) ltac:(lia) r1 (Nat.le_refl _)) as [(k' & K' & H')|(r2 & k' & K' & H' & X')].
        -- exists (e ++ r1). eexists. split; [exact (q_vain _ _ _ _ K K')|]. rewrite app_length. split; [lia|nia].
        -- exists r2. eexists. split; [exact (q_both _ _ _ _ _ K K')|]. split; [lia|nia].
      * exists r. eexists. split; [exact (q_none _ _ _ K NS)|]. split; [lia|nia].
  - destruct (starts_dec x s) as [(r & ->)|NX].
    + right. exists r, 5. split; [apply q_leaf|]. rewrite app_length in *. split; [lia|nia].
    + left. exists 5. split; [exact (q_other s NI NX)|lia].
Qed.
Lemma all_calls : forall s fuel debug, ascii s -> parse_with_debug fuel s (optional_rules i e x) debug <> Fuel ->
  parse_calls fuel s (optional_rules i e x) debug <= 12 * ((length s + 1) * (length s + 1)).
Proof.
  intros s fuel debug A N. destruct (q_all (length s) s (Nat.le_refl _)) as [(k & K & H)|(r & k & K & H & X)];
    pose proof (parse_calls_run _ _ _ _ _ _ (o_sane i e x) A N (q_main _ _ _ K) ltac:(discriminate)); nia.
Qed.

(** A branch that does not come is looked for again and again. *)
Lemma q_vain_many : forall m, exists k, run S_ (copies m i) OF k /\ m <= k.
Proof.
  assert (E0 : forall w, w <> [] -> ~ starts_with w []) by (intros w N (r & Q); symmetry in Q; apply app_eq_nil in Q; exact (N (proj1 Q))).
  induction m as [|m (k & K & H)]; cbn [copies].
  - exists 5. split; [|lia]. apply q_other; apply E0; [exact (marks_i i e x CM)|exact (marks_x i e x CM)].
  - exists (k + 5). split; [exact (q_fail _ _ K)|lia].
Qed.
Lemma vain_calls : forall n m fuel debug, let s := copies n i ++ x ++ e ++ copies m i in ascii s ->
  parse_with_debug fuel s (optional_rules i e x) debug <> Fuel ->
  n * m <= parse_calls fuel s (optional_rules i e x) debug.
Proof.
  intros n m fuel debug s A N. destruct (q_vain_many m) as (k & K & H).
  assert (Y : exists k', run S_ s (OM (e ++ copies m i)) k' /\ n * m <= k').
  { subst s. clear A N. induction n as [|n (k' & K' & H')]; cbn [copies app].
    - exists 5. split; [apply q_leaf|lia].
    - exists (k' + k + 7). split; [rewrite <- app_assoc; exact (q_vain _ _ _ _ K' K)|]. cbn. lia. }
  destruct Y as (k' & K' & H'). pose proof (parse_calls_run _ _ _ _ _ _ (o_sane i e x) A N (q_main _ _ _ K') ltac:(discriminate)). lia.
Qed.

(** ** The rules with the long alternative first *)

Notation Gl := (grammar_of (long_first_rules i e x)).
Lemma long_calls : forall n fuel debug, let s := copies n i ++ x in ascii s ->
  parse_with_debug fuel s (long_first_rules i e x) debug <> Fuel ->
  2 ^ n <= parse_calls fuel s (long_first_rules i e x) debug.
Proof.
  intros n fuel debug s A N.
  assert (E0 : ~ starts_with e []) by (intros (r & Q); symmetry in Q; apply app_eq_nil in Q; exact (marks_e i e x CM (proj1 Q))).
  assert (Y : exists k, costs Gl S_ s (OM []) k /\ 2 ^ n <= k).
  { subst s. clear A N. induction n as [|n (k & K & H)]; cbn [copies app].
    - eexists. split; [|cbn; apply le_n_S, Nat.le_0_l]. eapply c_rule; [exact (gl_stmt i e x)|]. apply c_or. pose proof (x_not_i i e x CM []) as NI. rewrite app_nil_r in NI.
      eapply co_next; [apply c_and, ca_fail; exact (q_nolit Gl i x NI)|]. eapply co_next; [apply c_and, ca_fail; exact (q_nolit Gl i x NI)|]. apply co_match.
      pose proof (q_lit Gl x []) as Q. rewrite app_nil_r in Q. exact Q.
    - rewrite <- app_assoc. exists (S (S (S (1 + (k + 1)) + S (1 + (k + 0))))). split; [|cbn; lia]. eapply c_rule; [exact (gl_stmt i e x)|]. apply c_or. eapply co_next.
      + apply c_and. eapply ca_cons; [apply q_lit|]. eapply ca_cons; [exact K|]. apply ca_fail. exact (q_nolit Gl e [] E0).
      + apply co_match. apply c_and. eapply ca_cons; [apply q_lit|]. eapply ca_cons; [exact K|]. apply ca_nil. }
  destruct Y as (k & K & H). assert (Km : costs Gl (RuleName main) s (OM []) (S k)) by (eapply c_rule; [reflexivity|exact K]).
  pose proof (parse_calls_run _ _ _ _ _ _ (l_sane i e x) A N Km ltac:(discriminate)). lia.
Qed.
End Marks.
