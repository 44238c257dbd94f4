(** Comments in comments: calls, and the loose rules. *)
From Verif Require Import Base ModelAst ModelParser ModelCost SpecPeg SpecPos SpecApi SpecWf SpecComments.
From Verif Require Import PegTools ProofParser ProofEngine ProofApi ProofRun ProofRunDet ProofLines ProofSearch ProofComments Examples.

Section Calls.
Variables o c : str.
Variable P : expr.
Notation G := (grammar_of (comment_rules o c P)).
Notation item_ := (Or [RuleName nm_comment; P]).
Notation loop := (Repeat item_ 0 None).
Notation run := (costs G).

Lemma k_lit : forall l s, run (lit l) (l ++ s) (OM s) 1.
Proof. intros l s. eapply c_match. apply peg_lit_ok. Qed.
Lemma k_nolit : forall l s, ~ starts_with l s -> run (lit l) s OF 1.
Proof. intros l s N. apply c_fail, peg_lit_fail. intros r E. apply N. exists r. exact E. Qed.
Lemma k_not : forall l s, ~ starts_with l s -> run (Not (lit l)) s (OM s) 2.
Proof. intros l s N. apply (c_not_ok G _ _ OF 1); [exact (k_nolit l s N)|left; reflexivity]. Qed.
Lemma k_not_fail : forall l s, starts_with l s -> run (Not (lit l)) s OF 2.
Proof. intros l s (r & ->). apply (c_not_fail G _ _ r 1). apply k_lit. Qed.
Lemma k_dot : forall x s, run dot_ (x :: s) (OM s) 1.
Proof. intros x s. eapply c_match. apply peg_dot_ok. Qed.
Lemma k_nodot : run dot_ [] OF 1.
Proof. apply c_fail, peg_dot_fail. Qed.

Lemma k_other : forall s, ~ starts_with o s -> run (RuleName nm_comment) s OF 3.
Proof. intros s N. eapply c_rule; [reflexivity|]. apply c_and, ca_fail. exact (k_nolit o s N). Qed.
Lemma k_comment : forall s rest k, costs_rep G item_ 0 None s (OM (c ++ rest)) k -> run (RuleName nm_comment) (o ++ s) (OM rest) (k + 5).
Proof.
  intros s rest k K. replace (k + 5) with (S (S (1 + (S k + (1 + 0))))) by lia. eapply c_rule; [reflexivity|]. apply c_and. eapply ca_cons; [apply k_lit|].
  eapply ca_cons; [apply c_rep; exact K|]. eapply ca_cons; [apply k_lit|]. apply ca_nil.
Qed.
Lemma k_open : forall s r k, costs_rep G item_ 0 None s (OM r) k -> ~ starts_with c r -> run (RuleName nm_comment) (o ++ s) OF (k + 5).
Proof.
  intros s r k K N. replace (k + 5) with (S (S (1 + (S k + 1)))) by lia. eapply c_rule; [reflexivity|]. apply c_and. eapply ca_cons; [apply k_lit|].
  eapply ca_cons; [apply c_rep; exact K|]. apply ca_fail. exact (k_nolit c r N).
Qed.
Lemma k_main : forall s out k, run (RuleName nm_comment) s out k -> run (RuleName main) s out (S k).
Proof. intros s out k K. eapply c_rule; [reflexivity|exact K]. Qed.
Lemma i_comment : forall s s1 k, run (RuleName nm_comment) s (OM s1) k -> run item_ s (OM s1) (S k).
Proof. intros s s1 k K. apply c_or. apply co_match. exact K. Qed.
Lemma i_plain : forall s s1 k k', run (RuleName nm_comment) s OF k -> run P s (OM s1) k' -> run item_ s (OM s1) (S (k + k')).
Proof. intros s s1 k k' K K'. apply c_or. eapply co_next; [exact K|]. apply co_match. exact K'. Qed.
Lemma i_none : forall s k k', run (RuleName nm_comment) s OF k -> run P s OF k' -> run item_ s OF (S (k + (k' + 0))).
Proof. intros s k k' K K'. apply c_or. eapply co_next; [exact K|]. eapply co_next; [exact K'|]. apply co_nil. Qed.
End Calls.

Section Strict.
Variables o c : str.
Hypothesis DM : distinct_marks o c.
Notation Ps := (And [Not (lit o); Not (lit c); dot_]).
Notation Gs := (grammar_of (strict_rules o c)).
Notation item_ := (Or [RuleName nm_comment; Ps]).

Lemma strict_loop : forall s, exists r k, costs_rep Gs item_ 0 None s (OM r) k /\ length r <= length s /\
  ((starts_with c r /\ k + 20 * length r <= 20 * length s + 20) \/ (~ starts_with c r /\ k <= 20 * length s + 20)).
Proof.
  intro s. remember (length s) as n eqn:K. assert (L : length s <= n) by lia. clear K. revert s L. induction n as [n IH] using lt_wf_ind. intros s L.
  assert (Y : exists r k, costs_rep Gs item_ 0 None s (OM r) k /\ length r <= length s /\
    ((starts_with c r /\ k + 20 * length r <= 20 * length s + 20) \/ (~ starts_with c r /\ k <= 20 * length s + 20))).
  2:{ destruct Y as (r & k & K & H & X). exists r, k. split; [exact K|]. split; [lia|]. destruct X as [[X1 X2]|[X1 X2]]; [left|right]; (split; [exact X1|lia]). }
  pose proof (o_nonempty o c DM) as ON. pose proof (c_nonempty o c DM) as CN.
  assert (OL : 1 <= length o) by (destruct o; [destruct (ON eq_refl)|cbn; lia]). assert (CL : 1 <= length c) by (destruct c; [destruct (CN eq_refl)|cbn; lia]).
  destruct (starts_dec c s) as [C|C].
  { assert (O : ~ starts_with o s) by (intro O; exact (not_both o c DM s O C)). exists s. eexists. split.
    - apply cr_done. apply i_none; [exact (k_other o c Ps s O)|]. apply c_and. eapply ca_cons; [exact (k_not o c Ps o s O)|]. apply ca_fail. exact (k_not_fail o c Ps c s C).
    - split; [lia|]. left. split; [exact C|lia]. }
  destruct (starts_dec o s) as [(s1 & ->)|O].
  - rewrite app_length in *. destruct (IH (length s1) ltac:(lia) s1 (Nat.le_refl _)) as (r1 & k1 & K1 & L1 & [[(r2 & E) X]|[C1 X]]).
    + pose proof (k_comment o c Ps s1 r2 k1) as Y. rewrite E in K1. specialize (Y K1). subst r1. rewrite app_length in *.
      destruct (IH (length r2) ltac:(lia) r2 (Nat.le_refl _)) as (r & k & K & LR & Z). exists r. eexists. split; [eapply cr_more; [discriminate|exact (i_comment o c Ps _ _ _ Y)|exact K]|].
      split; [lia|]. destruct Z as [[Z1 Z2]|[Z1 Z2]]; [left|right]; (split; [exact Z1|lia]).
    + exists (o ++ s1). eexists. split.
      * apply cr_done. apply i_none; [exact (k_open o c Ps _ _ _ K1 C1)|]. apply c_and. apply ca_fail. apply k_not_fail. exists s1. reflexivity.
      * split; [rewrite app_length; lia|]. right. split; [exact C|lia].
  - destruct s as [|x s].
    + exists []. eexists. split; [|split; [lia|]].
      * apply cr_done. apply i_none; [exact (k_other o c Ps [] O)|]. apply c_and. eapply ca_cons; [exact (k_not o c Ps o [] O)|]. eapply ca_cons; [exact (k_not o c Ps c [] C)|]. apply ca_fail. apply k_nodot.
      * right. split; [exact C|cbn; lia].
    + cbn [length] in *. destruct (IH (length s) ltac:(lia) s (Nat.le_refl _)) as (r & k & K & LR & Z).
      exists r. eexists. split; [eapply cr_more; [discriminate| |exact K]|].
      * eapply i_plain; [exact (k_other o c Ps (x :: s) O)|]. apply c_and. eapply ca_cons; [exact (k_not o c Ps o _ O)|]. eapply ca_cons; [exact (k_not o c Ps c _ C)|]. eapply ca_cons; [apply k_dot|]. apply ca_nil.
      * split; [lia|]. destruct Z as [[Z1 Z2]|[Z1 Z2]]; [left|right]; (split; [exact Z1|lia]).
Qed.
Lemma strict_calls : forall s fuel debug, ascii s -> parse_with_debug fuel s (strict_rules o c) debug <> Fuel -> parse_calls fuel s (strict_rules o c) debug <= 30 * (length s + 1).
Proof.
  intros s fuel debug A N.
  assert (Y : exists out k, costs Gs (RuleName main) s out k /\ out <> OC /\ k <= 30 * (length s + 1)).
  { destruct (starts_dec o s) as [(b & ->)|O].
    - destruct (strict_loop b) as (r & k & K & L & [[(r2 & ->) X]|[C X]]).
      + exists (OM r2). eexists. split; [apply k_main; exact (k_comment o c Ps _ _ _ K)|]. split; [discriminate|]. rewrite app_length. lia.
      + exists OF. eexists. split; [apply k_main; exact (k_open o c Ps _ _ _ K C)|]. split; [discriminate|]. rewrite app_length. lia.
    - exists OF. eexists. split; [apply k_main; exact (k_other o c Ps _ O)|]. split; [discriminate|lia]. }
  destruct Y as (out & k & K & NC & L). pose proof (parse_calls_run _ _ _ _ _ _ (r_sane o c Ps (strict_sane o c)) A N K NC). unfold strict_rules. lia.
Qed.
End Strict.

Section Loose.
Variables o c : str.
Notation Pl := (And [Not (lit c); dot_]).
Notation Gl := (grammar_of (loose_rules o c)).
Notation item_ := (Or [RuleName nm_comment; Pl]).

Lemma copies_pos : forall n, 1 <= 2 ^ n.
Proof. induction n; cbn; lia. Qed.

(** Without a closing mark every comment fails, and all is tried again. *)
Lemma loose_open : o <> [] -> forall w u, w = o ++ u -> forall v, (forall a b, v = a ++ b -> ~ starts_with c b) ->
  (exists k, costs Gl (RuleName nm_comment) v OF k /\ forall m, v = copies m w -> 2 ^ m <= k) /\
  (exists k, costs_rep Gl item_ 0 None v (OM []) k /\ forall a m, v = a ++ copies m w -> 2 ^ S m <= S k).
Proof.
  intros ON w u W v. remember (length v) as n eqn:K. assert (L : length v <= n) by lia. clear K. revert v L. induction n as [n IH] using lt_wf_ind. intros v L NC.
  assert (A1 : exists k, costs Gl (RuleName nm_comment) v OF k /\ forall m, v = copies m w -> 2 ^ m <= k).
  { destruct (starts_dec o v) as [(b & ->)|O].
    - rewrite app_length in L. destruct (IH (length b) ltac:(destruct o; [destruct (ON eq_refl)|cbn in L; lia]) b (Nat.le_refl _)) as [_ (k & K & H)].
      + intros x y ->. apply (NC (o ++ x) y). rewrite app_assoc. reflexivity.
      + exists (k + 5). split; [apply (k_open o c Pl _ [] _ K); apply (NC (o ++ b) []); rewrite app_nil_r; reflexivity|].
        intros [|m] E; [cbn; lia|]. cbn [copies] in E. rewrite W, <- app_assoc in E. apply app_inv_head in E. rewrite <- W in E. specialize (H u m E). lia.
    - exists 3. split; [exact (k_other o c Pl v O)|]. intros [|m] E; [cbn; lia|]. exfalso. apply O. cbn [copies] in E. rewrite E, W, <- app_assoc. eexists. reflexivity. }
  split; [exact A1|]. destruct A1 as (k1 & K1 & H1). pose proof (NC [] v eq_refl) as C. destruct v as [|x v].
  - eexists. split.
    + apply cr_done. eapply i_none; [exact K1|]. apply c_and. eapply ca_cons; [exact (k_not o c Pl c [] C)|]. apply ca_fail. apply k_nodot.
    + intros a m E. symmetry in E. apply app_eq_nil in E. destruct E as [_ E]. destruct m as [|m]; [cbn; lia|]. cbn [copies] in E. apply app_eq_nil in E. destruct E as [E _]. rewrite W in E.
      apply app_eq_nil in E. destruct E as [E _]. destruct (ON E).
  - cbn [length] in L. destruct (IH (length v) ltac:(lia) v (Nat.le_refl _)) as [_ (k & K & H)].
    { intros a b ->. apply (NC (x :: a) b). reflexivity. }
    eexists. split.
    + eapply cr_more; [discriminate| |exact K]. eapply i_plain; [exact K1|]. apply c_and. eapply ca_cons; [exact (k_not o c Pl c _ C)|]. eapply ca_cons; [apply k_dot|]. apply ca_nil.
    + intros a m E. destruct a as [|y a].
      * cbn [app] in E. destruct m as [|m]; [discriminate E|]. specialize (H1 _ E). cbn [copies] in E. destruct w as [|y w'] eqn:EW; [symmetry in W; apply app_eq_nil in W; destruct W as [W _]; destruct (ON W)|].
        injection E as _ E. specialize (H w' m E). change (2 ^ S (S m)) with (2 * 2 ^ S m). lia.
      * injection E as _ E. specialize (H a m E). lia.
Qed.
Lemma loose_calls : forall u n fuel debug, o <> [] -> let s := copies n (o ++ u) in ascii s -> (forall a b, s = a ++ b -> ~ starts_with c b) ->
  parse_with_debug fuel s (loose_rules o c) debug <> Fuel -> 2 ^ n <= parse_calls fuel s (loose_rules o c) debug.
Proof.
  intros u n fuel debug ON s A NC N. destruct (loose_open ON (o ++ u) u eq_refl s NC) as [(k & K & H) _]. specialize (H n eq_refl).
  pose proof (parse_calls_run _ _ _ _ _ _ (r_sane o c Pl ltac:(repeat constructor)) A N (k_main o c Pl _ _ _ K) ltac:(discriminate)). unfold loose_rules. lia.
Qed.
End Loose.

(** ** One char each *)

Section Chars.
Variables a b : char.
Hypothesis AB : a <> b.
Notation Pl := (And [Not (lit [b]); dot_]).
Notation Gl := (grammar_of (loose_rules [a] [b])).
Notation items := (Repeat (Or [RuleName nm_comment; Pl]) 0 None).

Lemma chars_distinct : distinct_marks [a] [b].
Proof. split; intros (r & E); injection E as E _; congruence. Qed.
Lemma head_is : forall x y s, starts_with [x] (y :: s) <-> x = y.
Proof. intros x y s. split; [intros (r & E); injection E as ->; reflexivity|intros ->; exists s; reflexivity]. Qed.

Lemma loose_plain : forall x s, x <> b -> peg Gl Pl (x :: s) (PMatch [Val [x]] s).
Proof.
  intros x s N. refine (peg_and_cons Gl _ _ _ [] (x :: s) (PMatch [Val [x]] s) (not_starts _ _ _ _) _); [rewrite head_is; congruence|].
  exact (peg_and_cons Gl _ _ _ [Val [x]] s (PMatch [] s) (peg_dot_ok Gl x s) (peg_and_nil Gl s)).
Qed.
Lemma loose_total : forall s,
  (exists l rest, closes [a] [b] s l rest /\ peg Gl items s (PMatch (map (item_tree [a] [b]) l) (b :: rest))) \/
  ((forall l rest, ~ closes [a] [b] s l rest) /\ exists ts, peg Gl items s (PMatch ts [])).
Proof.
  intro s. remember (length s) as k eqn:K. assert (L : length s <= k) by lia. clear K. revert s L. induction k as [k IH] using lt_wf_ind. intros s L.
  destruct s as [|x s].
  { right. split.
    - intros l rest H. apply closes_text in H. symmetry in H. apply app_eq_nil in H. destruct H as [_ H]. discriminate.
    - exists []. apply loop_none; [apply comment_not; intros (r & E); discriminate|].
      refine (peg_and_cons Gl _ _ _ [] [] PFail (not_starts _ _ _ _) _); [intros (r & E); discriminate|]. apply peg_and_stop; [apply peg_dot_fail|exact I]. }
  cbn in L. destruct (N.eq_dec x b) as [->|NB].
  { left. exists [], s. split; [apply (cl_end [a] [b])|]. apply loop_none; [apply comment_not; rewrite head_is; exact AB|]. apply peg_and_stop; [|exact I]. apply starts_not. apply head_is. reflexivity. }
  destruct (N.eq_dec x a) as [->|NA].
  - destruct (IH (length s) ltac:(lia) s (Nat.le_refl _)) as [(l1 & r1 & H1 & D1)|(N1 & ts1 & D1)].
    + assert (L1 : length r1 < k). { apply closes_text in H1. rewrite H1 in L. rewrite !app_length in L. lia. }
      pose proof (comment_yes [a] [b] Pl s _ r1 D1) as Y. destruct (IH _ L1 r1 (Nat.le_refl _)) as [(l2 & r2 & H2 & D2)|(N2 & ts2 & D2)].
      * left. exists (Inner l1 :: l2), r2. split; [exact (cl_open [a] [b] s l1 r1 l2 r2 H1 H2)|]. exact (loop_comment [a] [b] Pl _ _ _ _ _ Y D2).
      * right. split; [|eexists; exact (loop_comment [a] [b] Pl _ _ _ _ _ Y D2)].
        intros l rest H. remember (a :: s) as z eqn:Z in H. destruct H as [rest|s2 k2 s2' l2 rest K' L'|y s2 l2 rest M1 M2 L'].
        -- injection Z as Z _. congruence.
        -- injection Z as ->. destruct (closes_det [a] [b] chars_distinct _ _ _ H1 _ _ K') as [<- <-]. exact (N2 _ _ L').
        -- injection Z as -> ->. apply M1. apply head_is. reflexivity.
    + right. split.
      * intros l rest H. remember (a :: s) as z eqn:Z in H. destruct H as [rest|s2 k2 s2' l2 rest K' L'|y s2 l2 rest M1 M2 L'].
        -- injection Z as Z _. congruence.
        -- injection Z as ->. exact (N1 _ _ K').
        -- injection Z as -> ->. apply M1. apply head_is. reflexivity.
      * eexists. apply (loop_plain [a] [b] Pl); [|exact (loose_plain a s AB)|exact D1]. apply (comment_no [a] [b] Pl s ts1 [] D1). intros (r & E). discriminate.
  - assert (D0 : peg Gl (RuleName nm_comment) (x :: s) PFail) by (apply comment_not; rewrite head_is; congruence).
    destruct (IH (length s) ltac:(lia) s (Nat.le_refl _)) as [(l1 & r1 & H1 & D1)|(N1 & ts1 & D1)].
    + left. exists (Plain x :: l1), r1. split; [apply cl_char; [rewrite head_is; congruence|rewrite head_is; congruence|exact H1]|]. exact (loop_plain [a] [b] Pl _ _ _ _ D0 (loose_plain x s NB) D1).
    + right. split; [|eexists; exact (loop_plain [a] [b] Pl _ _ _ _ D0 (loose_plain x s NB) D1)].
      intros l rest H. remember (x :: s) as z eqn:Z in H. destruct H as [rest|s2 k2 s2' l2 rest K' L'|y s2 l2 rest M1 M2 L'].
      -- injection Z as Z _. congruence.
      -- injection Z as Z _. congruence.
      -- injection Z as -> ->. exact (N1 _ _ L').
Qed.
Lemma loose_accepts : forall s debug, ascii s -> forall ast, (exists fuel, parse_with_debug fuel s (loose_rules [a] [b]) debug = Ok ast) <->
  exists body l, s = a :: body /\ closes [a] [b] body l [] /\ ast = Rule main [item_tree [a] [b] (Inner l)].
Proof.
  intros s debug A ast. unfold loose_rules. rewrite (accepts_of [a] [b] Pl ltac:(repeat constructor) s debug A ast). split.
  - intros (t & -> & D). destruct (starts_dec [a] s) as [(body & ->)|O].
    + destruct (loose_total body) as [(l & rest & H & D')|(N & ts & D')].
      * pose proof (peg_det _ _ _ _ D _ (comment_yes [a] [b] Pl body _ rest D')) as X. injection X as -> <-. exists body, l. repeat split. exact H.
      * assert (X : ~ starts_with [b] []) by (intros (r & E); discriminate). pose proof (peg_det _ _ _ _ D _ (comment_no [a] [b] Pl body _ [] D' X)). discriminate.
    + pose proof (peg_det _ _ _ _ D _ (comment_not [a] [b] Pl s O)). discriminate.
  - intros (body & l & -> & H & ->). eexists. split; [reflexivity|]. destruct (loose_total body) as [(l' & rest & H' & D')|(N & _)]; [|destruct (N _ _ H)].
    destruct (closes_det [a] [b] chars_distinct _ _ _ H _ _ H') as [<- <-]. exact (comment_yes [a] [b] Pl body _ [] D').
Qed.
End Chars.
