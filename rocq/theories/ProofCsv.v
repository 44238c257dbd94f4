(** CSV files: proofs. *)
From Verif Require Import Base ModelAst ModelParser ModelPeg ModelCost SpecPeg SpecPos SpecApi SpecWf SpecTable SpecCsv.
From Verif Require Import PegTools ProofParser ProofEngine ProofApi ProofRun ProofRunDet Examples.

(** ** Lists with separators *)

Lemma join_cons : forall C x l, join C (x :: l) = x ++ flat_map (fun y => C :: y) l.
Proof.
  intros C x l. revert x. induction l as [|y l IH]; intro x; [cbn; rewrite app_nil_r; reflexivity|].
  change (join C (x :: y :: l)) with (x ++ C :: join C (y :: l)). rewrite IH. reflexivity.
Qed.
Lemma join_trees_cons : forall C x l, join_trees C (x :: l) = x :: flat_map (fun y => [Val [C]; y]) l.
Proof.
  intros C x l. revert x. induction l as [|y l IH]; intro x; [reflexivity|].
  change (join_trees C (x :: y :: l)) with (x :: Val [C] :: join_trees C (y :: l)). rewrite IH. reflexivity.
Qed.
Lemma join_trees_inj : forall C l l', join_trees C l = join_trees C l' -> l = l'.
Proof.
  intros C l l'. destruct l as [|x l]; destruct l' as [|x' l']; intro H; [reflexivity| | |].
  - rewrite join_trees_cons in H. discriminate.
  - rewrite join_trees_cons in H. discriminate.
  - rewrite !join_trees_cons in H. injection H as -> H. f_equal. revert l' H. induction l as [|y l IH]; intros [|y' l'] H; cbn in H; try discriminate; [reflexivity|].
    injection H as -> H. rewrite (IH _ H). reflexivity.
Qed.

Definition starts_not_with (c : char) (s : str) : Prop := forall r, s <> c :: r.
Lemma head_dec : forall c s, (exists r, s = c :: r) \/ starts_not_with c s.
Proof.
  intros c [|x s]; [right; intros r E; discriminate|]. destruct (N.eq_dec x c) as [->|N]; [left; eauto|right; intros r E; injection E as E _; congruence].
Qed.

Section Separated.
Variable G : str -> option expr.
Variable X : expr.
Variable C : char.
Variable A : Type.
Variable text : A -> str.
Variable tree : A -> node.
Variable ok : A -> Prop.
Variable follow : str -> Prop.
Hypothesis FC : forall r, follow (C :: r).
Hypothesis FWD : forall a rest, ok a -> follow rest -> peg G X (text a ++ rest) (PMatch [tree a] rest).
Hypothesis TOT : forall s, exists a rest, ok a /\ s = text a ++ rest /\ peg G X s (PMatch [tree a] rest).
Notation more := (And [lit [C]; X]).

Lemma more_ok : forall s t rest, peg G X s (PMatch [t] rest) -> peg G more (C :: s) (PMatch [Val [C]; t] rest).
Proof.
  intros s t rest D. refine (peg_and_cons G _ _ _ [Val [C]] s (PMatch [t] rest) (peg_lit_ok G [C] s) _).
  exact (peg_and_cons G _ _ _ [t] rest (PMatch [] rest) D (peg_and_nil G rest)).
Qed.
Lemma more_end : forall s, starts_not_with C s -> peg G (Repeat more 0 None) s (PMatch [] s).
Proof.
  intros s N. apply peg_rep_done; [discriminate|]. apply peg_and_stop; [|exact I]. apply peg_lit_fail. intros r E. exact (N r E).
Qed.
Lemma seq_of : forall s t s1 ts rest, peg G X s (PMatch [t] s1) -> peg G (Repeat more 0 None) s1 (PMatch ts rest) ->
  peg G (And [X; Repeat more 0 None]) s (PMatch (t :: ts) rest).
Proof.
  intros s t s1 ts rest D D'. refine (peg_and_cons G _ _ _ [t] s1 (PMatch ts rest) D _).
  replace ts with (ts ++ []) by apply app_nil_r. exact (peg_and_cons G _ _ _ ts rest (PMatch [] rest) D' (peg_and_nil G rest)).
Qed.
Lemma loop_fwd : forall l rest, Forall ok l -> follow rest -> starts_not_with C rest ->
  peg G (Repeat more 0 None) (flat_map (fun y => C :: y) (map text l) ++ rest) (PMatch (flat_map (fun y => [Val [C]; y]) (map tree l)) rest).
Proof.
  intros l rest K FR N. induction K as [|a l Ka K IH]; [exact (more_end rest N)|]. cbn [map flat_map app]. rewrite <- app_assoc.
  refine (peg_rep_more G more 0 None _ [Val [C]; tree a] (flat_map (fun y => C :: y) (map text l) ++ rest) (PMatch _ rest) _ _ IH); [discriminate|].
  apply more_ok. apply FWD; [exact Ka|]. destruct l as [|b l]; [exact FR|]. apply FC.
Qed.
Lemma list_fwd : forall l rest, l <> [] -> Forall ok l -> follow rest -> starts_not_with C rest ->
  peg G (And [X; Repeat more 0 None]) (join C (map text l) ++ rest) (PMatch (join_trees C (map tree l)) rest).
Proof.
  intros [|a l] rest NE K FR N; [destruct (NE eq_refl)|]. inversion K as [|? ? Ka Kl]; subst. cbn [map]. rewrite join_cons, join_trees_cons, <- app_assoc.
  apply (seq_of _ _ (flat_map (fun y => C :: y) (map text l) ++ rest)); [|exact (loop_fwd l rest Kl FR N)].
  apply FWD; [exact Ka|]. destruct l as [|b l]; [exact FR|]. apply FC.
Qed.
Lemma loop_tot : forall s, exists l rest, Forall ok l /\ s = flat_map (fun y => C :: y) (map text l) ++ rest /\
  peg G (Repeat more 0 None) s (PMatch (flat_map (fun y => [Val [C]; y]) (map tree l)) rest) /\ starts_not_with C rest.
Proof.
  intro s. remember (length s) as k eqn:K. assert (L : length s <= k) by lia. clear K. revert s L. induction k as [k IH] using lt_wf_ind. intros s L.
  destruct (head_dec C s) as [(s1 & ->)|N].
  - destruct (TOT s1) as (a & r & Ka & E & D). cbn in L. assert (LR : length r < k) by (rewrite E, app_length in L; lia).
    destruct (IH _ LR r (Nat.le_refl _)) as (l & rest & Kl & E2 & D2 & N2). exists (a :: l), rest. split; [constructor; assumption|]. split; [|split; [|exact N2]].
    + cbn [map flat_map app]. rewrite E, E2 at 1. rewrite <- app_assoc. reflexivity.
    + refine (peg_rep_more G more 0 None _ [Val [C]; tree a] r (PMatch _ rest) _ (more_ok _ _ _ D) D2). discriminate.
  - exists [], s. split; [constructor|]. split; [reflexivity|]. split; [exact (more_end s N)|exact N].
Qed.
Lemma list_tot : forall s, exists l rest, l <> [] /\ Forall ok l /\ s = join C (map text l) ++ rest /\
  peg G (And [X; Repeat more 0 None]) s (PMatch (join_trees C (map tree l)) rest) /\ starts_not_with C rest.
Proof.
  intro s. destruct (TOT s) as (a & r & Ka & E & D). destruct (loop_tot r) as (l & rest & Kl & E2 & D2 & N2). exists (a :: l), rest.
  split; [discriminate|]. split; [constructor; assumption|]. cbn [map]. rewrite join_cons, join_trees_cons. split; [|split; [exact (seq_of _ _ _ _ _ D D2)|exact N2]].
  rewrite E, E2 at 1. rewrite <- app_assoc. reflexivity.
Qed.
End Separated.

Section Csv.
Variables Q F R : char.
Hypothesis QF : Q <> F.
Hypothesis QR : Q <> R.
Hypothesis FR : F <> R.
Notation G := (grammar_of (csv_rules Q F R)).
Notation qitem := (Or [lit [Q; Q]; And [Not (lit [Q]); dot_]]).
Notation pitem := (And [Not (lit [Q]); Not (lit [F]); Not (lit [R]); dot_]).

Lemma not_here : forall c s, starts_not_with c s -> peg G (Not (lit [c])) s (PMatch [] s).
Proof. intros c s N. refine (peg_not_ok G _ _ PFail _ I). apply peg_lit_fail. intros r E. exact (N r E). Qed.
Lemma here_not : forall c s, peg G (Not (lit [c])) (c :: s) PFail.
Proof. intros c s. exact (peg_not_fail G _ _ [Val [c]] s (peg_lit_ok G [c] s)). Qed.
Lemma other_head : forall c x s, x <> c -> starts_not_with c (x :: s).
Proof. intros c x s N r E. injection E as E _. congruence. Qed.

(** ** Plain fields *)

Definition special (x : char) : Prop := x = Q \/ x = F \/ x = R.
Definition ends_plain (s : str) : Prop := forall x r, s = x :: r -> special x.
Lemma pitem_ok : forall x s, x <> Q /\ x <> F /\ x <> R -> peg G pitem (x :: s) (PMatch [Val [x]] s).
Proof.
  intros x s (N1 & N2 & N3). refine (peg_and_cons G _ _ _ [] (x :: s) (PMatch [Val [x]] s) (not_here Q _ (other_head Q x s N1)) _).
  refine (peg_and_cons G _ _ _ [] (x :: s) (PMatch [Val [x]] s) (not_here F _ (other_head F x s N2)) _).
  refine (peg_and_cons G _ _ _ [] (x :: s) (PMatch [Val [x]] s) (not_here R _ (other_head R x s N3)) _).
  exact (peg_and_cons G _ _ _ [Val [x]] s (PMatch [] s) (peg_dot_ok G x s) (peg_and_nil G s)).
Qed.
Lemma pitem_no : forall s, ends_plain s -> peg G pitem s PFail.
Proof.
  intros s H. destruct (head_dec Q s) as [(r & ->)|N1]; [apply peg_and_stop; [apply here_not|exact I]|].
  refine (peg_and_cons G _ _ _ [] s PFail (not_here Q s N1) _).
  destruct (head_dec F s) as [(r & ->)|N2]; [apply peg_and_stop; [apply here_not|exact I]|].
  refine (peg_and_cons G _ _ _ [] s PFail (not_here F s N2) _).
  destruct (head_dec R s) as [(r & ->)|N3]; [apply peg_and_stop; [apply here_not|exact I]|].
  refine (peg_and_cons G _ _ _ [] s PFail (not_here R s N3) _).
  destruct s as [|x s]; [apply peg_and_stop; [apply peg_dot_fail|exact I]|]. exfalso.
  destruct (H x s eq_refl) as [->|[->| ->]]; [exact (N1 s eq_refl)|exact (N2 s eq_refl)|exact (N3 s eq_refl)].
Qed.
Lemma plain_reads : forall w rest, Forall (fun x => x <> Q /\ x <> F /\ x <> R) w -> ends_plain rest ->
  peg G (RuleName nm_plain) (w ++ rest) (PMatch [Rule nm_plain (map (fun x => Val [x]) w)] rest).
Proof.
  intros w rest K E. refine (peg_rule G nm_plain (Repeat pitem 0 None) _ (PMatch (map (fun x => Val [x]) w) rest) eq_refl _).
  induction K as [|x w Kx K IH]; [apply peg_rep_done; [discriminate|exact (pitem_no rest E)]|].
  refine (peg_rep_more G pitem 0 None _ [Val [x]] (w ++ rest) (PMatch _ rest) _ (pitem_ok x _ Kx) IH). discriminate.
Qed.
Lemma split_plain : forall s, exists w rest, s = w ++ rest /\ Forall (fun x => x <> Q /\ x <> F /\ x <> R) w /\ ends_plain rest.
Proof.
  induction s as [|x s (w & rest & -> & K & E)]; [exists [], []; split; [reflexivity|]; split; [constructor|intros x r H; discriminate]|].
  destruct (N.eq_dec x Q) as [->|N1]; [exists [], (Q :: w ++ rest); split; [reflexivity|]; split; [constructor|intros y r H; injection H as <- _; left; reflexivity]|].
  destruct (N.eq_dec x F) as [->|N2]; [exists [], (F :: w ++ rest); split; [reflexivity|]; split; [constructor|intros y r H; injection H as <- _; right; left; reflexivity]|].
  destruct (N.eq_dec x R) as [->|N3]; [exists [], (R :: w ++ rest); split; [reflexivity|]; split; [constructor|intros y r H; injection H as <- _; right; right; reflexivity]|].
  exists (x :: w), rest. split; [reflexivity|]. split; [constructor; [repeat split; assumption|exact K]|exact E].
Qed.

(** ** Quoted fields *)

Lemma twice_q : twice Q Q = [Q; Q].
Proof. unfold twice. rewrite N.eqb_refl. reflexivity. Qed.
Lemma twice_other : forall x, x <> Q -> twice Q x = [x].
Proof. intros x N. unfold twice. apply N.eqb_neq in N. rewrite N. reflexivity. Qed.

Lemma qitem_ok : forall x s, peg G qitem (twice Q x ++ s) (PMatch [Val (twice Q x)] s).
Proof.
  intros x s. destruct (N.eq_dec x Q) as [->|N].
  - rewrite twice_q. apply peg_or_first; [apply (peg_lit_ok G [Q; Q])|discriminate].
  - rewrite (twice_other x N). apply peg_or_next; [apply peg_lit_fail; intros r E; injection E as E _; congruence|].
    apply peg_or_first; [|discriminate]. refine (peg_and_cons G _ _ _ [] (x :: s) (PMatch [Val [x]] s) (not_here Q _ (other_head Q x s N)) _).
    exact (peg_and_cons G _ _ _ [Val [x]] s (PMatch [] s) (peg_dot_ok G x s) (peg_and_nil G s)).
Qed.
Lemma qitem_no : forall s, s = [] \/ (exists r, s = Q :: r /\ starts_not_with Q r) -> peg G qitem s PFail.
Proof.
  intros s [->|(r & -> & N)].
  - apply peg_or_next; [apply peg_lit_fail; intros r E; discriminate|]. apply peg_or_next; [|apply peg_or_nil].
    refine (peg_and_cons G _ _ _ [] [] PFail (not_here Q [] ltac:(intros r E; discriminate)) _). apply peg_and_stop; [apply peg_dot_fail|exact I].
  - apply peg_or_next; [apply peg_lit_fail; intros r' E; injection E as E; exact (N r' E)|]. apply peg_or_next; [|apply peg_or_nil].
    apply peg_and_stop; [apply here_not|exact I].
Qed.
Lemma qloop : forall w s, s = [] \/ (exists r, s = Q :: r /\ starts_not_with Q r) ->
  peg G (Repeat qitem 0 None) (flat_map (twice Q) w ++ s) (PMatch (map (fun x => Val (twice Q x)) w) s).
Proof.
  intros w s E. induction w as [|x w IH]; [apply peg_rep_done; [discriminate|exact (qitem_no s E)]|]. cbn [flat_map map]. rewrite <- app_assoc.
  refine (peg_rep_more G qitem 0 None _ [Val (twice Q x)] (flat_map (twice Q) w ++ s) (PMatch _ s) _ (qitem_ok x _) IH). discriminate.
Qed.
Lemma split_quoted : forall s, exists w r, s = flat_map (twice Q) w ++ r /\ (r = [] \/ exists r', r = Q :: r' /\ starts_not_with Q r').
Proof.
  intro s. remember (length s) as k eqn:K. assert (L : length s <= k) by lia. clear K. revert s L. induction k as [k IH] using lt_wf_ind. intros s L.
  destruct s as [|x s]; [exists [], []; split; [reflexivity|left; reflexivity]|]. cbn in L. destruct (N.eq_dec x Q) as [->|N].
  - destruct (head_dec Q s) as [(s1 & ->)|NQ].
    + cbn in L. destruct (IH (length s1) ltac:(lia) s1 (Nat.le_refl _)) as (w & r & -> & E). exists (Q :: w), r. split; [cbn [flat_map]; rewrite twice_q; reflexivity|exact E].
    + exists [], (Q :: s). split; [reflexivity|right; eauto].
  - destruct (IH (length s) ltac:(lia) s (Nat.le_refl _)) as (w & r & -> & E). exists (x :: w), r. split; [cbn [flat_map]; rewrite (twice_other x N); reflexivity|exact E].
Qed.
Lemma quoted_reads : forall w rest, starts_not_with Q rest ->
  peg G (RuleName nm_quoted) (Q :: flat_map (twice Q) w ++ Q :: rest) (PMatch [Rule nm_quoted (Val [Q] :: map (fun x => Val (twice Q x)) w ++ [Val [Q]])] rest).
Proof.
  intros w rest N. refine (peg_rule G nm_quoted _ _ (PMatch (Val [Q] :: map (fun x => Val (twice Q x)) w ++ [Val [Q]]) rest) eq_refl _).
  refine (peg_and_cons G _ _ _ [Val [Q]] (flat_map (twice Q) w ++ Q :: rest) (PMatch (map (fun x => Val (twice Q x)) w ++ [Val [Q]]) rest) (peg_lit_ok G [Q] _) _).
  refine (peg_and_cons G _ _ _ (map (fun x => Val (twice Q x)) w) (Q :: rest) (PMatch [Val [Q]] rest) (qloop w (Q :: rest) _) _); [right; eauto|].
  exact (peg_and_cons G _ _ _ [Val [Q]] rest (PMatch [] rest) (peg_lit_ok G [Q] rest) (peg_and_nil G rest)).
Qed.
Lemma quoted_open : forall w, peg G (RuleName nm_quoted) (Q :: flat_map (twice Q) w) PFail.
Proof.
  intro w. refine (peg_rule G nm_quoted _ _ PFail eq_refl _). refine (peg_and_cons G _ _ _ [Val [Q]] (flat_map (twice Q) w) PFail (peg_lit_ok G [Q] _) _).
  pose proof (qloop w [] (or_introl eq_refl)) as D. rewrite app_nil_r in D. refine (peg_and_cons G _ _ _ _ [] PFail D _).
  apply peg_and_stop; [apply peg_lit_fail; intros r E; discriminate|exact I].
Qed.
Lemma quoted_not : forall s, starts_not_with Q s -> peg G (RuleName nm_quoted) s PFail.
Proof. intros s N. refine (peg_rule G nm_quoted _ _ PFail eq_refl _). apply peg_and_stop; [|exact I]. apply peg_lit_fail. intros r E. exact (N r E). Qed.

(** ** Fields, rows and tables *)

Notation ctext := (cell_text Q).
Notation ctree := (cell_tree Q).
Definition field_end (s : str) : Prop := forall x r, s = x :: r -> x = F \/ x = R.
Lemma field_end_plain : forall s, field_end s -> ends_plain s.
Proof. intros s H x r E. right. exact (H x r E). Qed.
Lemma field_end_quoted : forall s, field_end s -> starts_not_with Q s.
Proof. intros s H r E. destruct (H Q r E); congruence. Qed.

Lemma field_fwd : forall c rest, cell_ok Q F R c -> field_end rest -> peg G (RuleName nm_field) (ctext c ++ rest) (PMatch [ctree c] rest).
Proof.
  intros [w|w] rest K E; cbn [cell_text cell_ok] in *.
  - refine (peg_rule G nm_field _ _ (PMatch [Rule nm_plain (map (fun x => Val [x]) w)] rest) eq_refl _). apply peg_or_next.
    + apply quoted_not. destruct w as [|x w]; [exact (field_end_quoted rest E)|]. inversion K as [|? ? [N _] _]; subst. exact (other_head Q x _ N).
    + apply peg_or_first; [|discriminate]. exact (plain_reads w rest K (field_end_plain rest E)).
  - refine (peg_rule G nm_field _ _ (PMatch [Rule nm_quoted (Val [Q] :: map (fun x => Val (twice Q x)) w ++ [Val [Q]])] rest) eq_refl _).
    apply peg_or_first; [|discriminate]. cbn [app]. rewrite <- app_assoc. exact (quoted_reads w rest (field_end_quoted rest E)).
Qed.
Lemma field_tot : forall s, exists c rest, cell_ok Q F R c /\ s = ctext c ++ rest /\ peg G (RuleName nm_field) s (PMatch [ctree c] rest).
Proof.
  intro s. assert (P : peg G (RuleName nm_quoted) s PFail -> exists c rest, cell_ok Q F R c /\ s = ctext c ++ rest /\ peg G (RuleName nm_field) s (PMatch [ctree c] rest)).
  { intro D. destruct (split_plain s) as (w & rest & -> & K & E). exists (Bare w), rest. split; [exact K|]. split; [reflexivity|].
    refine (peg_rule G nm_field _ _ (PMatch [Rule nm_plain (map (fun x => Val [x]) w)] rest) eq_refl _). apply peg_or_next; [exact D|].
    apply peg_or_first; [|discriminate]. exact (plain_reads w rest K E). }
  destruct (head_dec Q s) as [(s1 & ->)|N]; [|exact (P (quoted_not s N))].
  destruct (split_quoted s1) as (w & r & -> & [->|(rest & -> & N)]).
  - apply P. rewrite app_nil_r. apply quoted_open.
  - exists (Quoted w), rest. split; [exact I|]. split; [cbn; rewrite <- app_assoc; reflexivity|].
    refine (peg_rule G nm_field _ _ (PMatch [Rule nm_quoted (Val [Q] :: map (fun x => Val (twice Q x)) w ++ [Val [Q]])] rest) eq_refl _).
    apply peg_or_first; [|discriminate]. exact (quoted_reads w rest N).
Qed.

Definition row_text (row : list cell) : str := join F (map ctext row).
Definition row_tree (row : list cell) : node := Rule nm_row (join_trees F (map ctree row)).
Definition row_ok (row : list cell) : Prop := row <> [] /\ Forall (cell_ok Q F R) row.
Definition row_end (s : str) : Prop := forall x r, s = x :: r -> x = R.

Lemma row_fwd : forall row rest, row_ok row -> row_end rest -> peg G (RuleName nm_row) (row_text row ++ rest) (PMatch [row_tree row] rest).
Proof.
  intros row rest (NE & K) E. refine (peg_rule G nm_row _ _ (PMatch (join_trees F (map ctree row)) rest) eq_refl _).
  apply (list_fwd G (RuleName nm_field) F cell ctext ctree (cell_ok Q F R) field_end); [|exact field_fwd|exact NE|exact K| |].
  - intros r x r' H. injection H as <- _. left. reflexivity.
  - intros x r H. right. exact (E x r H).
  - intros r H. apply FR. exact (E F r H).
Qed.
Lemma row_tot : forall s, exists row rest, row_ok row /\ s = row_text row ++ rest /\ peg G (RuleName nm_row) s (PMatch [row_tree row] rest).
Proof.
  intro s. destruct (list_tot G (RuleName nm_field) F cell ctext ctree (cell_ok Q F R) field_tot s) as (row & rest & NE & K & E & D & _).
  exists row, rest. split; [split; assumption|]. split; [exact E|]. exact (peg_rule G nm_row _ _ (PMatch (join_trees F (map ctree row)) rest) eq_refl D).
Qed.

Lemma csv_sane : sane_rules (csv_rules Q F R).
Proof. apply sane_rules_all. repeat constructor. Qed.
Lemma csv_ok_rows : forall rows, csv_ok Q F R rows <-> rows <> [] /\ Forall row_ok rows.
Proof. intro rows. reflexivity. Qed.

Lemma csv_fwd : forall rows, csv_ok Q F R rows -> peg_main (csv_rules Q F R) (csv_text Q F R rows) (PMatch [csv_tree Q F R rows] []).
Proof.
  intros rows (NE & K). refine (peg_rule G main _ _ (PMatch (join_trees R (map row_tree rows)) []) eq_refl _).
  pose proof (list_fwd G (RuleName nm_row) R (list cell) row_text row_tree row_ok row_end) as H. specialize (H ltac:(intros r x r' E; injection E as <- _; reflexivity) row_fwd rows [] NE K).
  rewrite app_nil_r in H. apply H; [intros x r E; discriminate|intros r E; discriminate].
Qed.
Lemma csv_tot : forall s, exists rows rest, csv_ok Q F R rows /\ s = csv_text Q F R rows ++ rest /\ peg_main (csv_rules Q F R) s (PMatch [csv_tree Q F R rows] rest).
Proof.
  intro s. destruct (list_tot G (RuleName nm_row) R (list cell) row_text row_tree row_ok row_tot s) as (rows & rest & NE & K & E & D & _).
  exists rows, rest. split; [split; assumption|]. split; [exact E|]. exact (peg_rule G main _ _ (PMatch (join_trees R (map row_tree rows)) rest) eq_refl D).
Qed.

Lemma csv_accepts : forall s debug, ascii s -> forall ast, (exists fuel, parse_with_debug fuel s (csv_rules Q F R) debug = Ok ast) <->
  exists rows, csv_ok Q F R rows /\ s = csv_text Q F R rows /\ ast = csv_tree Q F R rows.
Proof.
  intros s debug A ast. rewrite (parse_accepts_iff s _ debug csv_sane A ast). split.
  - intro D. destruct (csv_tot s) as (rows & rest & K & E & D'). pose proof (peg_det _ _ _ _ D _ D') as X. injection X as -> <-.
    exists rows. split; [exact K|]. rewrite app_nil_r in E. split; [exact E|reflexivity].
  - intros (rows & K & -> & ->). exact (csv_fwd rows K).
Qed.
Lemma csv_decides : forall s debug, ascii s ->
  (exists fuel ast, parse_with_debug fuel s (csv_rules Q F R) debug = Ok ast) \/
  (exists fuel er, parse_with_debug fuel s (csv_rules Q F R) debug = Err er /\ e_priority er = Normal).
Proof.
  intros s debug A. destruct (csv_tot s) as (rows & rest & K & E & D).
  destruct (proj2 (parse_terminates_iff s _ debug csv_sane A) (ex_intro _ _ D)) as [fuel N]. pose proof (parse_sound fuel s _ debug csv_sane) as X.
  destruct (parse_with_debug fuel s (csv_rules Q F R) debug) as [t|er| |] eqn:P; [left; eauto| |destruct (X A)|destruct (N eq_refl)].
  right. exists fuel, er. split; [exact P|]. destruct (e_priority er); [reflexivity|]. destruct X as [_ (r & X & _)]. pose proof (peg_det _ _ _ _ D _ X). discriminate.
Qed.

(** ** Trees and texts tell the table *)

Lemma val_inj : forall w w', map (fun x => Val [x]) w = map (fun x => Val [x]) w' -> w = w'.
Proof. induction w as [|x w IH]; intros [|x' w'] H; cbn in H; try discriminate; [reflexivity|]. injection H as -> H. rewrite (IH _ H). reflexivity. Qed.
Lemma twice_inj : forall x y, twice Q x = twice Q y -> x = y.
Proof.
  intros x y H. destruct (N.eq_dec x Q) as [->|N]; destruct (N.eq_dec y Q) as [->|N']; rewrite ?twice_q, ?(twice_other x), ?(twice_other y) in H by assumption; try discriminate; [reflexivity|].
  injection H as ->. reflexivity.
Qed.
Lemma qval_inj : forall w w', map (fun x => Val (twice Q x)) w = map (fun x => Val (twice Q x)) w' -> w = w'.
Proof. induction w as [|x w IH]; intros [|x' w'] H; cbn in H; try discriminate; [reflexivity|]. injection H as H0 H. rewrite (twice_inj _ _ H0), (IH _ H). reflexivity. Qed.
Lemma cell_tree_inj : forall c c', ctree c = ctree c' -> c = c'.
Proof.
  intros [w|w] [w'|w'] H; cbn in H; try discriminate.
  - injection H as H. rewrite (val_inj _ _ H). reflexivity.
  - injection H as H. apply app_inj_tail in H. rewrite (qval_inj _ _ (proj1 H)). reflexivity.
Qed.
Lemma map_inj : forall A B (f : A -> B), (forall a a', f a = f a' -> a = a') -> forall l l', map f l = map f l' -> l = l'.
Proof. intros A B f J. induction l as [|x l IH]; intros [|x' l'] H; cbn in H; try discriminate; [reflexivity|]. injection H as H0 H. rewrite (J _ _ H0), (IH _ H). reflexivity. Qed.
Lemma row_tree_inj : forall r r', row_tree r = row_tree r' -> r = r'.
Proof. intros r r' H. injection H as H. apply join_trees_inj in H. exact (map_inj _ _ _ cell_tree_inj _ _ H). Qed.
Lemma csv_tree_inj : forall t t', csv_tree Q F R t = csv_tree Q F R t' -> t = t'.
Proof. intros t t' H. injection H as H. apply join_trees_inj in H. exact (map_inj _ _ _ row_tree_inj _ _ H). Qed.
Lemma csv_text_inj : forall t t', csv_ok Q F R t -> csv_ok Q F R t' -> csv_text Q F R t = csv_text Q F R t' -> t = t'.
Proof.
  intros t t' K K' E. pose proof (csv_fwd t K) as D. rewrite E in D. pose proof (peg_det _ _ _ _ D _ (csv_fwd t' K')) as X. injection X as X. apply join_trees_inj in X.
  exact (map_inj _ _ _ row_tree_inj _ _ X).
Qed.

(** Every table can be written: if need be, with quotes. *)
Notation plain_char := (plain_char Q F R).
Notation write := (write Q F R).
Lemma write_ok : forall w, cell_ok Q F R (write w) /\ content (write w) = w.
Proof.
  intro w. unfold SpecCsv.write. destruct (forallb plain_char w) eqn:E; [|split; [exact I|reflexivity]]. split; [|reflexivity]. rewrite forallb_forall in E. apply Forall_forall. intros x I.
  specialize (E x I). unfold SpecCsv.plain_char in E. apply negb_true_iff in E. apply orb_false_iff in E. destruct E as [E E3]. apply orb_false_iff in E. destruct E as [E1 E2].
  apply N.eqb_neq in E1, E2, E3. repeat split; assumption.
Qed.
Lemma write_where_needed : forall w,
  (write w = Bare w <-> cell_ok Q F R (Bare w)) /\ (write w = Quoted w <-> exists x, In x w /\ (x = Q \/ x = F \/ x = R)).
Proof.
  intro w. assert (PC : forall x, plain_char x = true <-> x <> Q /\ x <> F /\ x <> R).
  { intro x. unfold SpecCsv.plain_char. rewrite negb_true_iff, !orb_false_iff, !N.eqb_neq. tauto. }
  assert (B : forallb plain_char w = true <-> cell_ok Q F R (Bare w)).
  { rewrite forallb_forall. cbn [cell_ok]. rewrite Forall_forall. split; intros H x IN; apply PC, H, IN. }
  unfold SpecCsv.write. destruct (forallb plain_char w) eqn:E.
  - pose proof (proj1 B eq_refl) as K. split; [tauto|]. split; [discriminate|]. intros (x & IN & S0). cbn [cell_ok] in K. rewrite Forall_forall in K. destruct (K x IN) as (N1 & N2 & N3). tauto.
  - split; [split; [discriminate|intro H; apply B in H; discriminate]|]. split; [intros _|reflexivity].
    clear B. induction w as [|x w IH]; [discriminate|]. cbn [forallb] in E. apply andb_false_iff in E. destruct E as [E|E].
    + exists x. split; [left; reflexivity|]. destruct (N.eq_dec x Q); [tauto|]. destruct (N.eq_dec x F); [tauto|]. destruct (N.eq_dec x R); [tauto|].
      rewrite (proj2 (PC x)) in E by tauto. discriminate.
    + destruct (IH E) as (y & IN & S0). exists y. split; [right; exact IN|exact S0].
Qed.
Lemma written_tables : forall table, table <> [] -> Forall (fun row => row <> []) table ->
  csv_ok Q F R (map (map write) table) /\ contents (map (map write) table) = table /\ csv_ok Q F R (map (map Quoted) table) /\ contents (map (map Quoted) table) = table.
Proof.
  intros table NE K. assert (NE' : forall f : list str -> list cell, map f table <> []) by (intros f H; apply map_eq_nil in H; exact (NE H)).
  split; [split; [apply NE'|]|split; [|split; [split; [apply NE'|]|]]].
  - apply Forall_map. revert K. apply Forall_impl. intros row N. split; [intro H; apply map_eq_nil in H; exact (N H)|]. apply Forall_map. apply Forall_forall. intros w _. apply write_ok.
  - unfold contents. rewrite map_map. rewrite <- (map_id table) at 2. apply map_ext. intro row. rewrite map_map. rewrite <- (map_id row) at 2. apply map_ext. intro w. apply write_ok.
  - apply Forall_map. revert K. apply Forall_impl. intros row N. split; [intro H; apply map_eq_nil in H; exact (N H)|]. apply Forall_map. apply Forall_forall. intros w _. exact I.
  - unfold contents. rewrite map_map. rewrite <- (map_id table) at 2. apply map_ext. intro row. rewrite map_map. rewrite <- (map_id row) at 2. apply map_ext. intro w. reflexivity.
Qed.
End Csv.

(** ** The grammar text *)
Lemma csv_reads : rules_from_peg 400 csv_grammar = Ok (csv_rules 34 44 10)%N.
Proof. vm_compute. reflexivity. Qed.
