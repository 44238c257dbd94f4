(** CSV files: errors. *)
From Verif Require Import Base ModelAst ModelParser SpecPeg SpecPos SpecApi SpecReport SpecTable SpecCsv.
From Verif Require Import PegTools ProofParser ProofEngine ProofApi ProofReport ProofCsv Examples.

Lemma and_inv : forall G e es s ts rest p t, pege G (And (e :: es)) s (EMatch ts rest p t) ->
  exists s1 p1 t1 us p2 t2, pege G (And es) s1 (EMatch us rest p2 t2) /\ p = match p2 with Some q => Some (shift t1 q) | None => p1 end.
Proof.
  intros G e es s ts rest p t H. remember (And (e :: es)) as x eqn:E. remember (EMatch ts rest p t) as r0 eqn:ER. destruct H; try discriminate E.
  - injection E as -> ->. destruct r as [us r2 p2 t2| |]; try discriminate. injection ER as _ <- <- _. exists s1, p0, t0, us, p2, t2. split; [exact H0|reflexivity].
  - subst r. destruct H0.
Qed.
Lemma and_inv2 : forall G e s ts rest p t, pege G (And [e]) s (EMatch ts rest p t) -> exists us tv, pege G e s (EMatch us rest p tv).
Proof.
  intros G e s ts rest p t H. remember (And [e]) as x eqn:E. remember (EMatch ts rest p t) as r0 eqn:ER. destruct H; try discriminate E.
  - injection E as -> ->. assert (X : r = EMatch [] s1 None []) by (remember (And []) as y eqn:EY; destruct H0; try discriminate EY; reflexivity). subst r. injection ER as _ <- <- _.
    exists ts0, t0. exact H.
  - subst r. destruct H0.
Qed.

Section Separated.
Variable G : str -> option expr.
Variable X : expr.
Variable C : char.
Notation more := (And [lit [C]; X]).

(** What is pending after a list is that there is no separator. *)
Lemma more_fails : forall s q, starts_not_with C s -> pege G more s (EFail q) -> q = Report (lit_msg [C]) (tl s) [].
Proof.
  intros s q N H. remember more as e eqn:E. remember (EFail q) as r eqn:ER. destruct H; try discriminate.
  - injection E as -> ->. exfalso. remember (lit [C]) as l eqn:EL. remember (EMatch ts s1 p t) as r' eqn:E'. destruct H; try discriminate. injection EL as ->. exact (N rest eq_refl).
  - injection E as -> ->. subst r. remember (lit [C]) as l eqn:EL. remember (EFail q) as r' eqn:E'. destruct H; try discriminate. injection EL as ->. injection E' as <-.
    inversion H as [c0 l0 E1 E2|c0 l0 d s0 ND E1 E2|c0 l0 s0 r0 ST E1 E2]; subst; [reflexivity|reflexivity|]. destruct (N s0 eq_refl).
Qed.
Lemma rep_pending : forall s ts rest p t, pege G (Repeat more 0 None) s (EMatch ts rest p t) -> starts_not_with C rest ->
  exists trail, p = Some (Report (lit_msg [C]) (tl rest) trail).
Proof.
  intros s ts rest p t H. remember (Repeat more 0 None) as e eqn:E. remember (EMatch ts rest p t) as r eqn:ER. revert ts rest p t ER.
  induction H; intros ts' rest' p' t' ER N; try discriminate E.
  - injection E as -> -> ->. destruct r as [us r2 p2 t2| |]; try discriminate. injection ER as _ <- <- _. destruct (IHpege2 eq_refl us r2 p2 t2 eq_refl N) as (trail & ->). eexists. reflexivity.
  - injection E as -> ->. injection ER as _ <- <- _. rewrite (more_fails s q N H0). eexists. reflexivity.
  - discriminate.
  - discriminate.
Qed.
Lemma list_pending : forall s ts rest p t, pege G (And [X; Repeat more 0 None]) s (EMatch ts rest p t) -> starts_not_with C rest ->
  exists trail, p = Some (Report (lit_msg [C]) (tl rest) trail).
Proof.
  intros s ts rest p t H N. destruct (and_inv G _ _ _ _ _ _ _ H) as (s1 & p1 & t1 & us & p2 & t2 & H2 & ->).
  destruct (and_inv2 G _ _ _ _ _ _ H2) as (vs & tv & H3). destruct (rep_pending _ _ _ _ _ H3 N) as (trail & ->). eexists. reflexivity.
Qed.

(** ** How a list ends *)

Variable A : Type.
Variable text : A -> str.
Variable tree : A -> node.
Variable ok : A -> Prop.
Variable stuck : A -> str -> Prop.
Hypothesis TOT : forall s, exists a rest, ok a /\ s = text a ++ rest /\ peg G X s (PMatch [tree a] rest) /\ stuck a rest.

Lemma loop_stuck : forall s, exists l rest, Forall ok l /\ s = flat_map (fun y => C :: y) (map text l) ++ rest /\
  peg G (Repeat more 0 None) s (PMatch (flat_map (fun y => [Val [C]; y]) (map tree l)) rest) /\ starts_not_with C rest /\
  ((l = [] /\ rest = s) \/ exists l0 a, l = l0 ++ [a] /\ stuck a rest).
Proof.
  intro s. remember (length s) as k eqn:K. assert (L : length s <= k) by lia. clear K. revert s L. induction k as [k IH] using lt_wf_ind. intros s L.
  destruct (head_dec C s) as [(s1 & ->)|N].
  - destruct (TOT s1) as (a & r & Ka & E & D & ST). cbn in L. assert (LR : length r < k) by (rewrite E, app_length in L; lia).
    destruct (IH _ LR r (Nat.le_refl _)) as (l & rest & Kl & E2 & D2 & N2 & LS). exists (a :: l), rest. split; [constructor; assumption|]. split; [|split; [|split; [exact N2|]]].
    + cbn [map flat_map app]. rewrite E, E2 at 1. rewrite <- app_assoc. reflexivity.
    + refine (peg_rep_more G more 0 None _ [Val [C]; tree a] r (PMatch _ rest) _ (more_ok G X C _ _ _ D) D2). discriminate.
    + right. destruct LS as [(-> & ->)|(l0 & b & -> & S0)]; [exists [], a; split; [reflexivity|exact ST]|exists (a :: l0), b; split; [reflexivity|exact S0]].
  - exists [], s. split; [constructor|]. split; [reflexivity|]. split; [exact (more_end G X C s N)|]. split; [exact N|]. left. split; reflexivity.
Qed.
Variable follow : str -> Prop.
Hypothesis FC : forall r, follow (C :: r).
Hypothesis FWD : forall a rest, ok a -> follow rest -> peg G X (text a ++ rest) (PMatch [tree a] rest).
Lemma loop_fwd_last : forall l a rest, Forall ok l -> peg G X (text a ++ rest) (PMatch [tree a] rest) -> starts_not_with C rest ->
  peg G (Repeat more 0 None) (flat_map (fun y => C :: y) (map text (l ++ [a])) ++ rest) (PMatch (flat_map (fun y => [Val [C]; y]) (map tree (l ++ [a]))) rest).
Proof.
  intros l a rest K D N. induction K as [|b l Kb K IH]; cbn [app map flat_map]; rewrite <- app_assoc.
  - refine (peg_rep_more G more 0 None _ [Val [C]; tree a] rest (PMatch [] rest) _ (more_ok G X C _ _ _ D) (more_end G X C rest N)). discriminate.
  - refine (peg_rep_more G more 0 None _ [Val [C]; tree b] (flat_map (fun y => C :: y) (map text (l ++ [a])) ++ rest) (PMatch _ rest) _ _ IH); [discriminate|].
    apply more_ok. apply FWD; [exact Kb|]. destruct l; apply FC.
Qed.
Lemma list_fwd_last : forall l a rest, Forall ok l -> peg G X (text a ++ rest) (PMatch [tree a] rest) -> starts_not_with C rest ->
  peg G (And [X; Repeat more 0 None]) (join C (map text (l ++ [a])) ++ rest) (PMatch (join_trees C (map tree (l ++ [a]))) rest).
Proof.
  intros [|b l] a rest K D N; cbn [app map]; rewrite join_cons, join_trees_cons, <- app_assoc.
  - exact (seq_of G X C _ _ _ _ _ D (more_end G X C rest N)).
  - inversion K as [|? ? Kb Kl]; subst. apply (seq_of G X C _ _ (flat_map (fun y => C :: y) (map text (l ++ [a])) ++ rest)); [|exact (loop_fwd_last l a rest Kl D N)].
    apply FWD; [exact Kb|]. destruct l; apply FC.
Qed.

Lemma list_stuck : forall s, exists l0 a rest, Forall ok (l0 ++ [a]) /\ s = join C (map text (l0 ++ [a])) ++ rest /\
  peg G (And [X; Repeat more 0 None]) s (PMatch (join_trees C (map tree (l0 ++ [a]))) rest) /\ starts_not_with C rest /\ stuck a rest.
Proof.
  intro s. destruct (TOT s) as (a & r & Ka & E & D & ST). destruct (loop_stuck r) as (l & rest & Kl & E2 & D2 & N2 & LS).
  assert (P : Forall ok (a :: l) /\ s = join C (map text (a :: l)) ++ rest /\ peg G (And [X; Repeat more 0 None]) s (PMatch (join_trees C (map tree (a :: l))) rest)).
  { split; [constructor; assumption|]. cbn [map]. rewrite join_cons, join_trees_cons. split; [|exact (seq_of G X C _ _ _ _ _ D D2)]. rewrite E, E2 at 1. rewrite <- app_assoc. reflexivity. }
  destruct P as (P1 & P2 & P3). destruct LS as [(-> & ->)|(l0 & b & -> & S0)].
  - exists [], a, r. repeat split; assumption.
  - exists (a :: l0), b, rest. repeat split; assumption.
Qed.
End Separated.

Section Csv.
Variables Q F R : char.
Hypothesis QF : Q <> F.
Hypothesis QR : Q <> R.
Hypothesis FR : F <> R.
Notation G := (grammar_of (csv_rules Q F R)).

(** What can stand after a field that was read. *)
Definition field_stuck (c : cell) (rest : str) : Prop :=
  rest = [] \/ (exists r, rest = F :: r) \/ (exists r, rest = R :: r) \/ exists x r, rest = x :: r /\ mistake Q F R c x r.

Lemma field_tot_stuck : forall s, exists c rest, cell_ok Q F R c /\ s = cell_text Q c ++ rest /\ peg G (RuleName nm_field) s (PMatch [cell_tree Q c] rest) /\ field_stuck c rest.
Proof.
  intro s. assert (P : peg G (RuleName nm_quoted) s PFail -> (forall s1, s = Q :: s1 -> exists w, s1 = flat_map (twice Q) w) ->
    exists c rest, cell_ok Q F R c /\ s = cell_text Q c ++ rest /\ peg G (RuleName nm_field) s (PMatch [cell_tree Q c] rest) /\ field_stuck c rest).
  { intros D O. destruct (split_plain Q F R s) as (w & rest & -> & K & E). exists (Bare w), rest. split; [exact K|]. split; [reflexivity|]. split.
    - refine (peg_rule G nm_field _ _ (PMatch [Rule nm_plain (map (fun x => Val [x]) w)] rest) eq_refl _). apply peg_or_next; [exact D|].
      apply peg_or_first; [|discriminate]. exact (plain_reads Q F R w rest K E).
    - destruct rest as [|x r]; [left; reflexivity|]. destruct (E x r eq_refl) as [->|[->| ->]]; [|right; left; eauto|right; right; left; eauto]. right. right. right. exists Q, r. split; [reflexivity|].
      cbn [mistake]. split; [reflexivity|]. destruct w as [|y w]; [right; exact (O r eq_refl)|left; discriminate]. }
  destruct (head_dec Q s) as [(s1 & ->)|N].
  2: { apply P; [exact (quoted_not Q F R s N)|]. intros s1 E. destruct (N s1 E). }
  destruct (split_quoted Q F R QF QR FR s1) as (w & r & -> & [->|(rest & -> & N)]).
  - apply P; [rewrite app_nil_r; apply quoted_open|]. intros s1 E. injection E as <-. exists w. apply app_nil_r.
  - exists (Quoted w), rest. split; [exact I|]. split; [cbn; rewrite <- app_assoc; reflexivity|]. split.
    + refine (peg_rule G nm_field _ _ (PMatch [Rule nm_quoted (Val [Q] :: map (fun x => Val (twice Q x)) w ++ [Val [Q]])] rest) eq_refl _).
      apply peg_or_first; [|discriminate]. exact (quoted_reads Q F R w rest N).
    + destruct rest as [|x r]; [left; reflexivity|]. destruct (N.eq_dec x F) as [->|N1]; [right; left; eauto|]. destruct (N.eq_dec x R) as [->|N2]; [right; right; left; eauto|].
      right. right. right. exists x, r. split; [reflexivity|]. cbn [mistake]. repeat split; [|exact N1|exact N2]. intros ->. exact (N r eq_refl).
Qed.

Definition row_stuck (row : list cell) (rest : str) : Prop :=
  exists cs c, row = cs ++ [c] /\ field_stuck c rest /\ starts_not_with F rest.
Lemma row_tot_stuck : forall s, exists row rest, row_ok Q F R row /\ s = row_text Q F row ++ rest /\ peg G (RuleName nm_row) s (PMatch [row_tree Q F row] rest) /\ row_stuck row rest.
Proof.
  intro s. destruct (list_stuck G (RuleName nm_field) F cell (cell_text Q) (cell_tree Q) (cell_ok Q F R) field_stuck field_tot_stuck s) as (cs & c & rest & K & E & D & N & ST).
  exists (cs ++ [c]), rest. split; [split; [destruct cs; discriminate|exact K]|]. split; [exact E|]. split; [exact (peg_rule G nm_row _ _ (PMatch (join_trees F (map (cell_tree Q) (cs ++ [c]))) rest) eq_refl D)|].
  exists cs, c. repeat split; assumption.
Qed.

(** How the reading of a text ends. *)
Lemma csv_stuck : forall s, exists rows cs c rest, csv_ok Q F R (rows ++ [cs ++ [c]]) /\ s = csv_text Q F R (rows ++ [cs ++ [c]]) ++ rest /\
  peg_main (csv_rules Q F R) s (PMatch [csv_tree Q F R (rows ++ [cs ++ [c]])] rest) /\ starts_not_with R rest /\
  (rest = [] \/ exists x r, rest = x :: r /\ mistake Q F R c x r).
Proof.
  intro s. destruct (list_stuck G (RuleName nm_row) R (list cell) (row_text Q F) (row_tree Q F) (row_ok Q F R) row_stuck row_tot_stuck s) as (rows & row & rest & K & E & D & N & (cs & c & -> & ST & NF)).
  exists rows, cs, c, rest. split; [split; [destruct rows; discriminate|exact K]|]. split; [exact E|].
  split; [exact (peg_rule G main _ _ (PMatch (join_trees R (map (row_tree Q F) (rows ++ [cs ++ [c]]))) rest) eq_refl D)|]. split; [exact N|].
  destruct ST as [->|[(r & ->)|[(r & ->)|H]]]; [left; reflexivity|destruct (NF r eq_refl)|destruct (N r eq_refl)|right; exact H].
Qed.

Lemma before_app : forall a b, before (a ++ b) b = a.
Proof. intros a b. unfold before. rewrite app_length. replace (length a + length b - length b) with (length a) by lia. rewrite firstn_app, Nat.sub_diag, firstn_all. cbn. apply app_nil_r. Qed.

Lemma csv_errors : forall fuel s debug er, ascii s -> parse_with_debug fuel s (csv_rules Q F R) debug = Err er ->
  exists rows cs c x r, csv_ok Q F R (rows ++ [cs ++ [c]]) /\ s = csv_text Q F R (rows ++ [cs ++ [c]]) ++ x :: r /\ mistake Q F R c x r /\
    exists trail, er = error_at s debug Normal (Report (lit_msg [R]) r trail).
Proof.
  intros fuel s debug er A P. destruct (csv_stuck s) as (rows & cs & c & rest & K & E & D & N & ST).
  destruct (parse_report fuel s (csv_rules Q F R) debug (csv_sane Q F R) A ltac:(rewrite P; discriminate)) as (o & H & AN). rewrite P in AN.
  pose proof (peg_det _ _ _ _ D _ (pege_plain _ _ _ _ H)) as X. destruct o as [ts r2 p t|q|q]; try discriminate. injection X as <- <-.
  assert (PE : exists trail, p = Some (Report (lit_msg [R]) (tl rest) trail)).
  { clear - H N. remember (RuleName main) as e eqn:EE. remember (EMatch [csv_tree Q F R (rows ++ [cs ++ [c]])] rest p t) as o eqn:EO. destruct H; try discriminate EE; try discriminate EO.
    injection EE as ->. injection H as <-. destruct r as [us r2 p2 t2|q|q]; try discriminate. injection EO as _ <- <- _. 
    destruct (list_pending G (RuleName nm_row) R _ _ _ _ _ H0 N) as (trail & ->). eexists. reflexivity. }
  destruct PE as (trail & ->). destruct ST as [->|(x & r & -> & M)]; [inversion AN|]. exists rows, cs, c, x, r. split; [exact K|]. split; [exact E|]. split; [exact M|].
  exists trail. inversion AN. reflexivity.
Qed.

(** In words of the text only. *)
Lemma csv_error_fields : forall fuel s debug er, ascii s -> parse_with_debug fuel s (csv_rules Q F R) debug = Err er ->
  exists rows cs c x r, csv_ok Q F R (rows ++ [cs ++ [c]]) /\ mistake Q F R c x r /\
    let pre := csv_text Q F R (rows ++ [cs ++ [c]]) ++ [x] in
    s = pre ++ r /\ e_pos er = pos_of pre /\ e_descr er = s_ "expected literal: <" ++ [R] ++ s_ ">" /\
    e_line_before er = tail_after is_nl pre /\ e_line_after er = until_eol r /\ e_priority er = Normal.
Proof.
  intros fuel s debug er A P. destruct (csv_errors fuel s debug er A P) as (rows & cs & c & x & r & K & E & M & trail & ->). exists rows, cs, c, x, r. split; [exact K|]. split; [exact M|].
  cbv zeta. assert (E' : s = (csv_text Q F R (rows ++ [cs ++ [c]]) ++ [x]) ++ r) by (rewrite <- app_assoc; exact E). split; [exact E'|].
  unfold error_at. cbn [e_pos e_descr e_line_before e_line_after e_priority r_rest r_descr]. rewrite E', before_app. repeat split.
Qed.

(** Texts with a mistake are no tables. *)
Lemma field_before_mistake : forall c x r, cell_ok Q F R c -> mistake Q F R c x r -> peg G (RuleName nm_field) (cell_text Q c ++ x :: r) (PMatch [cell_tree Q c] (x :: r)).
Proof.
  intros [w|w] x r K M; cbn [mistake] in M.
  - destruct M as [-> M]. refine (peg_rule G nm_field _ _ (PMatch [Rule nm_plain (map (fun y => Val [y]) w)] (Q :: r)) eq_refl _). apply peg_or_next.
    + destruct w as [|y w]; [|inversion K as [|? ? [N _] _]; subst; exact (quoted_not Q F R _ (other_head Q y _ N))]. destruct M as [M|(u & ->)]; [destruct (M eq_refl)|]. exact (quoted_open Q F R u).
    + apply peg_or_first; [|discriminate]. apply (plain_reads Q F R w (Q :: r) K). intros y r' E. injection E as <- _. left. reflexivity.
  - destruct M as (N1 & N2 & N3). refine (peg_rule G nm_field _ _ (PMatch [Rule nm_quoted (Val [Q] :: map (fun y => Val (twice Q y)) w ++ [Val [Q]])] (x :: r)) eq_refl _).
    apply peg_or_first; [|discriminate]. cbn [cell_text app]. rewrite <- app_assoc. exact (quoted_reads Q F R w (x :: r) (other_head Q x r N1)).
Qed.
Lemma mistake_char : forall c x r, mistake Q F R c x r -> x <> F /\ x <> R.
Proof. intros [w|w] x r M; cbn [mistake] in M; [destruct M as [-> _]; split; assumption|tauto]. Qed.
Lemma csv_before_mistake : forall rows cs c x r, csv_ok Q F R (rows ++ [cs ++ [c]]) -> mistake Q F R c x r ->
  peg_main (csv_rules Q F R) (csv_text Q F R (rows ++ [cs ++ [c]]) ++ x :: r) (PMatch [csv_tree Q F R (rows ++ [cs ++ [c]])] (x :: r)).
Proof.
  intros rows cs c x r (_ & K) M. destruct (mistake_char c x r M) as [NF NR]. apply Forall_app in K. destruct K as [K1 K2]. inversion K2 as [|? ? [_ K3] _]; subst. apply Forall_app in K3. destruct K3 as [K3 K4].
  inversion K4 as [|? ? K5 _]; subst. refine (peg_rule G main _ _ (PMatch (join_trees R (map (row_tree Q F) (rows ++ [cs ++ [c]]))) (x :: r)) eq_refl _).
  apply (list_fwd_last G (RuleName nm_row) R (list cell) (row_text Q F) (row_tree Q F) (row_ok Q F R) (row_end R)); [intros r' y r'' E; injection E as <- _; reflexivity|exact (row_fwd Q F R QF QR FR)|exact K1| |exact (other_head R x r NR)].
  refine (peg_rule G nm_row _ _ (PMatch (join_trees F (map (cell_tree Q) (cs ++ [c]))) (x :: r)) eq_refl _).
  apply (list_fwd_last G (RuleName nm_field) F cell (cell_text Q) (cell_tree Q) (cell_ok Q F R) (field_end F R)); [intros r' y r'' E; injection E as <- _; left; reflexivity|exact (field_fwd Q F R QF QR)|exact K3| |exact (other_head F x r NF)].
  exact (field_before_mistake c x r K5 M).
Qed.
Lemma mistakes_are_wrong : forall rows cs c x r, csv_ok Q F R (rows ++ [cs ++ [c]]) -> mistake Q F R c x r ->
  forall rows', csv_ok Q F R rows' -> csv_text Q F R (rows ++ [cs ++ [c]]) ++ x :: r <> csv_text Q F R rows'.
Proof.
  intros rows cs c x r K M rows' K' E. pose proof (csv_before_mistake rows cs c x r K M) as D. rewrite E in D. pose proof (peg_det _ _ _ _ D _ (csv_fwd Q F R QF QR FR rows' K')) as X. discriminate.
Qed.
Lemma mistakes_are_unique : forall rows cs c x r rows' cs' c' x' r', csv_ok Q F R (rows ++ [cs ++ [c]]) -> mistake Q F R c x r ->
  csv_ok Q F R (rows' ++ [cs' ++ [c']]) -> mistake Q F R c' x' r' ->
  csv_text Q F R (rows ++ [cs ++ [c]]) ++ x :: r = csv_text Q F R (rows' ++ [cs' ++ [c']]) ++ x' :: r' ->
  rows ++ [cs ++ [c]] = rows' ++ [cs' ++ [c']] /\ x = x' /\ r = r'.
Proof.
  intros rows cs c x r rows' cs' c' x' r' K M K' M' E. pose proof (csv_before_mistake rows cs c x r K M) as D. rewrite E in D.
  pose proof (peg_det _ _ _ _ D _ (csv_before_mistake rows' cs' c' x' r' K' M')) as X. assert (X1 : csv_tree Q F R (rows ++ [cs ++ [c]]) = csv_tree Q F R (rows' ++ [cs' ++ [c']])) by congruence.
  assert (X2 : x :: r = x' :: r') by congruence. injection X2 as -> ->. split; [exact (csv_tree_inj Q F R _ _ X1)|split; reflexivity].
Qed.
End Csv.
