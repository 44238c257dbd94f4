(** Tables are read exactly. *)
From Verif Require Import Base ModelAst ModelParser SpecPeg SpecPos SpecApi SpecReport SpecStuck SpecAst SpecTable.
From Verif Require Import ProofParser ProofEngine ProofApi ProofReport ProofAst.

(** * Lists with separators *)

Section List.
Variable G : str -> option expr.
Variable A : Type.
Variable it : str.                    (* the rule of the items *)
Variable tx : A -> str.               (* their texts *)
Variable tr : A -> node.              (* their trees *)
Variable P : A -> Prop.
Variable stop : str -> Prop.          (* what may come after an item *)
Variable sep : char.

Hypothesis item : forall a rest, P a -> stop rest -> exists p, pege G (RuleName it) (tx a ++ rest) (EMatch [tr a] rest p (names (tr a))).
Hypothesis stop_sep : forall rest, stop (sep :: rest).

Definition not_sep (rest : str) : Prop := match rest with c :: _ => c <> sep | [] => True end.

Lemma sep_stops : forall rest, not_sep rest -> lit_stops [sep] rest (tl rest).
Proof. intros [|c rest] N; [constructor|]. cbn [tl]. constructor. intro E. apply N. symmetry. exact E. Qed.

Let more := And [lit [sep]; RuleName it].

Lemma turns_run : forall l rest, Forall P l -> stop rest -> not_sep rest ->
  let ts := flat_map (fun a => [Val [sep]; tr a]) l in
  pege G (Repeat more 0 None) (flat_map (fun a => sep :: tx a) l ++ rest)
       (EMatch ts rest (Some (Report (lit_msg [sep]) (tl rest) (flat_map names ts))) (flat_map names ts)).
Proof.
  intros l rest FP ST NS. induction FP as [|a l Pa FP IH]; cbn [flat_map app]; cbv zeta in *.
  - apply ee_rep_done; [discriminate|]. apply ee_and_stop; [|exact I]. apply ee_lit_fail, sep_stops, NS.
  - rewrite <- app_assoc.
    assert (S1 : stop (flat_map (fun a => sep :: tx a) l ++ rest)) by (destruct l; [exact ST|apply stop_sep]).
    destruct (item a _ Pa S1) as (p & H).
    assert (T : pege G more (sep :: tx a ++ flat_map (fun a => sep :: tx a) l ++ rest)
                  (after [Val [sep]] None [] (after [tr a] p (names (tr a)) (EMatch [] (flat_map (fun a => sep :: tx a) l ++ rest) None [])))).
    { eapply ee_and_cons; [exact (ee_lit_ok G [sep] _)|]. eapply ee_and_cons; [exact H|]. apply ee_and_nil. }
    cbn [after app shift] in T. eapply (ee_rep_more G more 0 None) in T; [|discriminate|exact IH].
    cbn [after shift r_descr r_rest r_trail names flat_map app] in T. rewrite app_nil_r in T. exact T.
Qed.

Lemma list_run : forall a l rest, Forall P (a :: l) -> stop rest -> not_sep rest ->
  let ts := tr a :: flat_map (fun a => [Val [sep]; tr a]) l in
  pege G (And [RuleName it; Repeat more 0 None]) (tx a ++ flat_map (fun a => sep :: tx a) l ++ rest)
       (EMatch ts rest (Some (Report (lit_msg [sep]) (tl rest) (flat_map names ts))) (flat_map names ts)).
Proof.
  intros a l rest FP ST NS ts. inversion FP as [|? ? Pa FP']; subst.
  assert (S1 : stop (flat_map (fun a => sep :: tx a) l ++ rest)) by (destruct l; [exact ST|apply stop_sep]).
  destruct (item a _ Pa S1) as (p & H).
  pose proof (ee_and_cons G _ _ _ _ _ _ _ _ H (ee_and_cons G _ [] _ _ _ _ _ _ (turns_run l rest FP' ST NS) (ee_and_nil G rest))) as T.
  cbn [after shift r_descr r_rest r_trail app] in T. unfold ts. cbn [flat_map].
  rewrite !app_nil_r in T. exact T.
Qed.

Lemma list_text : forall a l, join sep (map tx (a :: l)) = tx a ++ flat_map (fun a => sep :: tx a) l.
Proof.
  intros a l. revert a. induction l as [|b l IH]; intro a.
  - cbn [map join flat_map]. rewrite app_nil_r. reflexivity.
  - specialize (IH b). cbn [map flat_map] in *.
    transitivity (tx a ++ sep :: join sep (tx b :: map tx l)); [reflexivity|]. rewrite IH. rewrite app_comm_cons. reflexivity.
Qed.

Lemma list_tree : forall a l, join_trees sep (map tr (a :: l)) = tr a :: flat_map (fun a => [Val [sep]; tr a]) l.
Proof.
  intros a l. revert a. induction l as [|b l IH]; intro a; [reflexivity|].
  specialize (IH b). cbn [map flat_map] in *.
  transitivity (tr a :: Val [sep] :: join_trees sep (tr b :: map tr l)); [reflexivity|]. rewrite IH. reflexivity.
Qed.

Lemma list_match : forall l rest, l <> [] -> Forall P l -> stop rest -> not_sep rest ->
  let ts := join_trees sep (map tr l) in
  pege G (And [RuleName it; Repeat more 0 None]) (join sep (map tx l) ++ rest)
       (EMatch ts rest (Some (Report (lit_msg [sep]) (tl rest) (flat_map names ts))) (flat_map names ts)).
Proof.
  intros [|a l] rest N FP ST NS; [contradiction|]. cbv zeta. rewrite list_text, list_tree, <- app_assoc. apply list_run; assumption.
Qed.

End List.

Section Table.
Variable cs : str.
Variable rg : list (char * char).
Variable F R : char.
Hypothesis NF : ~ in_class cs rg F.
Hypothesis NR : ~ in_class cs rg R.
Hypothesis FR : F <> R.

Let rs := table_rules cs rg F R.
Let G := grammar_of rs.

Definition field_tree (w : str) : node := Rule nm_field (by_chars w).
Definition row_tree (row : list str) : node := Rule nm_row (join_trees F (map field_tree row)).

Definition field_stop (rest : str) : Prop := match rest with c :: _ => ~ in_class cs rg c | [] => True end.
Definition row_stop (rest : str) : Prop := field_stop rest /\ not_sep F rest.
Definition table_stop (rest : str) : Prop := row_stop rest /\ not_sep R rest.

Lemma field_run : forall w rest, Forall (in_class cs rg) w -> field_stop rest ->
  exists q, pege G (Repeat (Simple (Match cs rg)) 0 None) (w ++ rest) (EMatch (by_chars w) rest (Some q) []).
Proof.
  intros w rest FW ST. induction FW as [|c w C FW IH].
  - cbn [app by_chars map]. destruct rest as [|c rest]; eexists; (apply ee_rep_done; [discriminate|]); [apply ee_class_end|]. apply ee_class_fail. exact ST.
  - destruct IH as (q & IH). exists (shift [] q). cbn [app by_chars map].
    exact (ee_rep_more G _ 0 None _ _ _ _ _ _ ltac:(discriminate) (ee_class_ok G cs rg c (w ++ rest) C) IH).
Qed.

Lemma by_chars_names : forall w, flat_map names (by_chars w) = [].
Proof. induction w as [|c w IH]; [reflexivity|]. exact IH. Qed.

Lemma field_item : forall w rest, Forall (in_class cs rg) w -> field_stop rest ->
  exists p, pege G (RuleName nm_field) (w ++ rest) (EMatch [field_tree w] rest p (names (field_tree w))).
Proof.
  intros w rest FW ST. destruct (field_run w rest FW ST) as (q & H). exists (Some (shift [nm_field] q)).
  replace (names (field_tree w)) with [nm_field]; [exact (ee_rule G nm_field _ _ _ eq_refl H)|].
  unfold field_tree. cbn [names]. rewrite by_chars_names. reflexivity.
Qed.

Lemma row_item : forall row rest, (row <> [] /\ Forall (Forall (in_class cs rg)) row) -> row_stop rest ->
  exists p, pege G (RuleName nm_row) (join F row ++ rest) (EMatch [row_tree row] rest p (names (row_tree row))).
Proof.
  intros row rest [NE FW] [S1 S2].
  pose proof (list_match G str nm_field (fun w => w) field_tree _ field_stop F field_item (fun _ => NF) row rest NE FW S1 S2) as H.
  rewrite map_id in H. cbv zeta in H. eexists. exact (ee_rule G nm_row _ _ _ eq_refl H).
Qed.

Lemma row_stop_sep : forall rest, row_stop (R :: rest).
Proof. intro rest. split; [exact NR|]. intro E. apply FR. symmetry. exact E. Qed.

Lemma tree_eq : forall rows, table_tree by_chars F R rows = Rule main (join_trees R (map row_tree rows)).
Proof. reflexivity. Qed.

Lemma table_run : forall rows rest, is_table cs rg rows -> table_stop rest ->
  let t := table_tree by_chars F R rows in
  pege G (RuleName main) (table_text F R rows ++ rest) (EMatch [t] rest (Some (Report (lit_msg [R]) (tl rest) (names t))) (names t)).
Proof.
  intros rows rest [NE FW] [S1 S2].
  pose proof (list_match G (list str) nm_row (join F) row_tree _ row_stop R row_item row_stop_sep rows rest NE FW S1 S2) as H.
  cbv zeta in *. rewrite tree_eq. exact (ee_rule G main _ _ _ eq_refl H).
Qed.

(** * Every text starts with the text of a table *)

Lemma table_of : forall s, Forall (table_char cs rg F R) s -> exists rows, is_table cs rg rows /\ s = table_text F R rows.
Proof.
  intros s FS. induction FS as [|c s C FS IH].
  - exists [[[]]]. split; [|reflexivity]. split; [discriminate|]. constructor; [|constructor]. split; [discriminate|]. constructor; constructor.
  - destruct IH as (rows & [NE FW] & ->). destruct rows as [|row rows]; [contradiction|].
    inversion FW as [|? ? [NE1 FW1] FW2]; subst. destruct row as [|w row]; [contradiction|].
    inversion FW1 as [|? ? W1 W2]; subst.
    destruct C as [C|[-> | ->]].
    + exists (((c :: w) :: row) :: rows). split.
      * split; [discriminate|]. constructor; [|exact FW2]. split; [discriminate|]. constructor; [constructor; assumption|exact W2].
      * unfold table_text. destruct rows as [|row' rows]; destruct row as [|w' row]; reflexivity.
    + exists (([] :: w :: row) :: rows). split.
      * split; [discriminate|]. constructor; [|exact FW2]. split; [discriminate|]. constructor; [constructor|exact FW1].
      * unfold table_text. destruct rows as [|row' rows]; reflexivity.
    + exists ([[]] :: (w :: row) :: rows). split; [|reflexivity].
      split; [discriminate|]. constructor; [|exact FW]. split; [discriminate|]. constructor; constructor.
Qed.

Lemma join_chars : forall (P : char -> Prop) sep l, P sep -> Forall (Forall P) l -> Forall P (join sep l).
Proof.
  intros P sep l PS FL. induction FL as [|x l PX FL IH]; [constructor|]. destruct l as [|y l]; [exact PX|].
  change (join sep (x :: y :: l)) with (x ++ sep :: join sep (y :: l)). apply Forall_app. split; [exact PX|]. constructor; [exact PS|exact IH].
Qed.

Lemma table_chars : forall rows, is_table cs rg rows -> Forall (table_char cs rg F R) (table_text F R rows).
Proof.
  intros rows [_ FW]. apply join_chars; [right; right; reflexivity|]. apply Forall_map. eapply Forall_impl; [|exact FW].
  intros row [_ H]. apply join_chars; [right; left; reflexivity|]. eapply Forall_impl; [|exact H].
  intros w Hw. eapply Forall_impl; [|exact Hw]. intros c C. left. exact C.
Qed.

Lemma table_char_dec : forall c, table_char cs rg F R c \/ ~ table_char cs rg F R c.
Proof.
  intro c. destruct (N.eq_dec c F) as [->|X]; [left; right; left; reflexivity|]. destruct (N.eq_dec c R) as [->|Y]; [left; right; right; reflexivity|].
  destruct (match_char cs rg c) eqn:M; [left; left; apply match_char_iff; exact M|].
  right. intros [C|[C|C]]; [|contradiction|contradiction]. apply match_char_iff in C. congruence.
Qed.

Lemma span : forall s, Forall (table_char cs rg F R) s \/
  exists g x rest, s = g ++ x :: rest /\ Forall (table_char cs rg F R) g /\ ~ table_char cs rg F R x.
Proof.
  induction s as [|c s IH]; [left; constructor|]. destruct (table_char_dec c) as [C|C].
  - destruct IH as [IH|(g & x & rest & -> & FG & NX)]; [left; constructor; assumption|].
    right. exists (c :: g), x, rest. split; [reflexivity|]. split; [constructor; assumption|exact NX].
  - right. exists [], c, s. split; [reflexivity|]. split; [constructor|exact C].
Qed.

Lemma bad_stops : forall x rest, ~ table_char cs rg F R x -> table_stop (x :: rest).
Proof.
  intros x rest N. split; [split|]; cbn; intro H; apply N; [left; exact H|right; left; exact H|right; right; exact H].
Qed.

Lemma table_sane : sane_rules rs.
Proof.
  intros n e H. unfold rs, table_rules, rules_macro in H. cbn [fold_left fst snd] in H.
  unfold rules_add, hm_insert in H. cbn in H.
  repeat match type of H with context [if ?b then _ else _] => destruct b end; try discriminate; injection H as <-; cbn; repeat split.
Qed.

Lemma accepts : forall rows d, is_table cs rg rows -> ascii (table_text F R rows) ->
  exists fuel, parse_with_debug fuel (table_text F R rows) rs d = Ok (table_tree by_chars F R rows).
Proof.
  intros rows d T A. apply (parse_report_iff _ rs d _ table_sane A); [discriminate|].
  pose proof (table_run rows [] T (conj (conj I I) I)) as H. rewrite app_nil_r in H. cbv zeta in H. eexists. split; [exact H|constructor].
Qed.

Lemma rejects : forall rows x rest d, is_table cs rg rows -> ~ table_char cs rg F R x -> ascii (table_text F R rows ++ x :: rest) ->
  exists fuel, parse_with_debug fuel (table_text F R rows ++ x :: rest) rs d =
    Err (error_at (table_text F R rows ++ x :: rest) d Normal (Report (lit_msg [R]) rest (names (table_tree by_chars F R rows)))).
Proof.
  intros rows x rest d T N A. apply (parse_report_iff _ rs d _ table_sane A); [discriminate|].
  pose proof (table_run rows (x :: rest) T (bad_stops x rest N)) as H. cbv zeta in H. cbn [tl] in H. eexists. split; [exact H|constructor].
Qed.

End Table.

(** * Compacting *)

Lemma compact_rule_then : forall n l r, compact_loop [] (Rule n l :: r) = compact (Rule n l) :: compact_loop [] r.
Proof. intros n l r. cbn [compact_loop concat_nodes app last_val]. rewrite compact_loop_step by discriminate. reflexivity. Qed.

Lemma compact_val_then : forall v r, ~ starts_with_val r -> compact_loop [] (Val v :: r) = Val v :: compact_loop [] r.
Proof. intros v r H. cbn [compact_loop concat_nodes app last_val]. apply compact_loop_stop, H. Qed.

Lemma compact_joined : forall (A : Type) sep n (show : A -> list node) l,
  compact_loop [] (join_trees sep (map (fun a => Rule n (show a)) l)) = join_trees sep (map (fun a => compact (Rule n (show a))) l).
Proof.
  intros A sep n show l. induction l as [|a l IH]; [reflexivity|]. destruct l as [|b l].
  - cbn [map join_trees]. rewrite compact_rule_then. reflexivity.
  - cbn [map] in *.
    change (join_trees sep (Rule n (show a) :: Rule n (show b) :: map (fun a0 => Rule n (show a0)) l)) with
      (Rule n (show a) :: Val [sep] :: join_trees sep (Rule n (show b) :: map (fun a0 => Rule n (show a0)) l)).
    rewrite compact_rule_then, compact_val_then.
    + rewrite IH. reflexivity.
    + intros (v & r & E). destruct l; discriminate.
Qed.

Lemma compact_chars : forall w, compact_loop [] (by_chars w) = in_one w.
Proof.
  intros [|c w]; [reflexivity|]. cbn [by_chars map compact_loop concat_nodes last_val app].
  assert (E : by_chars w = map Val (map (fun c => [c]) w) ++ []) by (rewrite map_map, app_nil_r; reflexivity).
  change (map (fun c0 => Val [c0]) w) with (by_chars w). rewrite E, compact_loop_run. cbn [compact_loop].
  unfold in_one. do 3 f_equal. clear E. cbn [app]. f_equal. induction w as [|d w IH]; [reflexivity|]. cbn [map concat app]. f_equal. exact IH.
Qed.

Lemma map_ext_eq : forall (A B : Type) (f g : A -> B) l, (forall a, f a = g a) -> map f l = map g l.
Proof. intros A B f g l H. induction l as [|a l IH]; [reflexivity|]. cbn. rewrite H, IH. reflexivity. Qed.

Lemma table_compact : forall F R rows, compact (table_tree by_chars F R rows) = table_tree in_one F R rows.
Proof.
  intros F R rows. unfold table_tree. rewrite compact_rule. f_equal. rewrite compact_joined. f_equal. apply map_ext_eq. intro row.
  rewrite compact_rule. f_equal. rewrite compact_joined. f_equal. apply map_ext_eq. intro w. rewrite compact_rule. f_equal. apply compact_chars.
Qed.

(** * The tree says which table it is *)

Lemma join_trees_inj : forall (A : Type) sep n (f : A -> list node) (INJ : forall a b, f a = f b -> a = b) l l',
  join_trees sep (map (fun a => Rule n (f a)) l) = join_trees sep (map (fun a => Rule n (f a)) l') -> l = l'.
Proof.
  intros A sep n f INJ l. induction l as [|a l IH]; intros l' E.
  - destruct l' as [|b [|c l']]; [reflexivity|discriminate|discriminate].
  - destruct l' as [|b l']; [destruct l; discriminate|].
    destruct l as [|a' l]; destruct l' as [|b' l']; cbn [map join_trees] in E.
    + injection E as E. rewrite (INJ _ _ E). reflexivity.
    + discriminate.
    + discriminate.
    + injection E as E1 E2. rewrite (INJ _ _ E1). f_equal. apply IH. exact E2.
Qed.

Lemma by_chars_inj : forall a b, by_chars a = by_chars b -> a = b.
Proof. induction a as [|c a IH]; intros [|d b] E; try discriminate; [reflexivity|]. injection E as -> E. f_equal. apply IH, E. Qed.

Lemma in_one_inj : forall a b, in_one a = in_one b -> a = b.
Proof. intros [|c a] [|d b] E; try discriminate; [reflexivity|]. injection E as -> ->. reflexivity. Qed.

Lemma table_tree_inj : forall show F R, (forall a b, show a = show b -> a = b) ->
  forall rows rows', table_tree show F R rows = table_tree show F R rows' -> rows = rows'.
Proof.
  intros show F R INJ rows rows' E. unfold table_tree in E. injection E as E. revert E. apply join_trees_inj. intros a b. apply join_trees_inj. exact INJ.
Qed.

Lemma parse_same : forall f f' s rs d o o', sane_rules rs -> ascii s -> parse_with_debug f s rs d = o -> parse_with_debug f' s rs d = o' ->
  o <> Fuel -> o' <> Fuel -> o = o'.
Proof.
  intros f f' s rs d o o' S A H H' N N'.
  destruct (proj1 (parse_report_iff s rs d o S A N) (ex_intro _ f H)) as (r & D & X).
  destruct (proj1 (parse_report_iff s rs d o' S A N') (ex_intro _ f' H')) as (r' & D' & X').
  rewrite (pege_det _ _ _ _ D _ D') in X. exact (answers_det _ _ _ _ X _ X').
Qed.

Lemma only_tables : forall cs rg F R, ~ in_class cs rg F -> ~ in_class cs rg R -> F <> R -> forall fuel s d ast, ascii s ->
  parse_with_debug fuel s (table_rules cs rg F R) d = Ok ast ->
  exists rows, is_table cs rg rows /\ s = table_text F R rows /\ ast = table_tree by_chars F R rows.
Proof.
  intros cs rg F R NF NR FR fuel s d ast A H.
  destruct (span cs rg F R s) as [FS|(g & x & rest & -> & FG & NX)].
  - destruct (table_of cs rg F R s FS) as (rows & T & ->). exists rows. split; [exact T|]. split; [reflexivity|].
    destruct (accepts cs rg F R NF NR FR rows d T A) as (f' & H').
    pose proof (parse_same _ _ _ _ _ _ _ (table_sane cs rg F R) A H H' ltac:(discriminate) ltac:(discriminate)). congruence.
  - exfalso. destruct (table_of cs rg F R g FG) as (rows & T & ->).
    destruct (rejects cs rg F R NF NR FR rows x rest d T NX A) as (f' & H').
    pose proof (parse_same _ _ _ _ _ _ _ (table_sane cs rg F R) A H H' ltac:(discriminate) ltac:(discriminate)). congruence.
Qed.

Lemma one_table : forall cs rg F R, ~ in_class cs rg F -> ~ in_class cs rg R -> F <> R -> forall rows rows', is_table cs rg rows -> is_table cs rg rows' ->
  table_text F R rows = table_text F R rows' -> rows = rows'.
Proof.
  intros cs rg F R NF NR FR rows rows' T T' E.
  pose proof (table_run cs rg F R NF NR FR rows [] T (conj (conj I I) I)) as H.
  pose proof (table_run cs rg F R NF NR FR rows' [] T' (conj (conj I I) I)) as H'. cbv zeta in *. rewrite E in H.
  pose proof (pege_det _ _ _ _ H _ H') as D. apply (table_tree_inj by_chars F R by_chars_inj). congruence.
Qed.
