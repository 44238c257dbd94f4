(** The layout of the pretty output. *)
From Verif Require Import Base ModelAst ModelParser ModelPeg ModelDebug ModelPretty SpecRust SpecLayout ProofParser ProofEngine ProofAst ProofGcode ProofDebug ProofPretty.

Lemma moved_app : forall k a b, moved k (a ++ b) = moved k a ++ moved k b.
Proof. intros k a b. unfold moved. apply flat_map_app. Qed.

Definition flat_text (s : str) : Prop := Forall (fun c => c <> ch_nl) s.

Lemma flat_moved : forall k s, flat_text s -> moved k s = s.
Proof.
  intros k s H. induction H as [|c s C H IH]; [reflexivity|]. cbn [moved flat_map]. destruct (N.eqb_spec c ch_nl) as [E|_]; [contradiction|].
  cbn [app]. f_equal. exact IH.
Qed.

Lemma flat_app : forall a b, flat_text a -> flat_text b -> flat_text (a ++ b).
Proof. intros a b A B. apply Forall_app. auto. Qed.

Lemma letters_flat : forall s, letters s = true -> flat_text s.
Proof.
  induction s as [|c s IH]; intros H; constructor.
  - intros ->. cbn in H. discriminate.
  - apply IH. cbn in H. apply andb_true_iff in H. apply H.
Qed.

Lemma dec_flat : forall n, flat_text (dec n).
Proof. intros n. eapply Forall_impl; [|apply dec_digits]. intros c D ->. unfold digit, ch_nl in D. lia. Qed.

Lemma hex_short_flat : forall c, (c < 256)%N -> flat_text (hex_short c).
Proof.
  assert (H : forall n, ModelAst.hex_digit n <> ch_nl).
  { intros n. unfold ModelAst.hex_digit, ch_nl. destruct (N.ltb_spec n 10); lia. }
  intros c _. unfold hex_short. destruct (N.ltb c 16); repeat constructor; apply H.
Qed.

Lemma escape_flat : forall c, flat_text (escape_plain c).
Proof.
  intros c. unfold escape_plain. destruct (N.eqb_spec c ch_nl) as [_|E]; [repeat constructor; discriminate|].
  destruct (N.eqb c ch_cr); [repeat constructor; discriminate|]. destruct (N.eqb c ch_tab); [repeat constructor; discriminate|].
  destruct (N.eqb c 0); [repeat constructor; discriminate|].
  destruct (N.ltb_spec c 32); [|destruct (N.leb_spec 127 c), (N.leb_spec c 160), (N.eqb_spec c 173)]; cbn [orb andb];
    try (apply flat_app; [repeat constructor; discriminate|apply flat_app; [apply hex_short_flat; lia|repeat constructor; discriminate]]);
    repeat constructor; exact E.
Qed.

Lemma debug_str_flat : forall s, flat_text (debug_str s).
Proof.
  intros s. unfold debug_str. apply flat_app; [repeat constructor; discriminate|]. apply flat_app; [|repeat constructor; discriminate].
  induction s as [|c s IH]; [constructor|]. cbn [flat_map]. apply flat_app; [|exact IH].
  destruct (N.eqb c ch_dquote); [repeat constructor; discriminate|]. destruct (N.eqb c ch_bslash); [repeat constructor; discriminate|]. apply escape_flat.
Qed.

Lemma debug_char_flat : forall c, flat_text (debug_char c).
Proof.
  intros c. unfold debug_char. apply flat_app; [repeat constructor; discriminate|]. apply flat_app; [|repeat constructor; discriminate].
  destruct (N.eqb c ch_quote); [repeat constructor; discriminate|]. destruct (N.eqb c ch_bslash); [repeat constructor; discriminate|]. apply escape_flat.
Qed.

Lemma spaces_flat : forall k, flat_text (repeat 32%N k).
Proof. intros k. apply Forall_forall. intros c H. apply repeat_spec in H. subst. discriminate. Qed.

Lemma moved_line : forall k m, moved k (new_line m) = new_line (m + k).
Proof.
  intros k m. unfold new_line. change (moved k (ch_nl :: repeat 32%N m)) with ((ch_nl :: repeat 32%N k) ++ moved k (repeat 32%N m)).
  rewrite flat_moved by apply spaces_flat. cbn [app]. f_equal. rewrite <- repeat_app. f_equal. lia.
Qed.

Section Comma.
Variable comma : bool.

Lemma lines_moved : forall (A : Type) (f g : A -> str) k m l, Forall (fun x => moved k (f x) = g x) l ->
  moved k (lines comma m f l) = lines comma (m + k) g l.
Proof.
  intros A f g k m l H. induction H as [|x l X H IH]; [reflexivity|]. cbn [lines]. fold (lines comma m f l). fold (lines comma (m + k) g l).
  rewrite !moved_app, moved_line, X, IH. replace (m + 4 + k) with (m + k + 4) by lia. do 2 f_equal. f_equal.
  destruct l; [destruct comma|]; reflexivity.
Qed.

Lemma block_moved : forall (A : Type) (f g : A -> str) k m op cl l, flat_text op -> flat_text cl -> Forall (fun x => moved k (f x) = g x) l ->
  moved k (block comma m op f l cl) = block comma (m + k) op g l cl.
Proof.
  intros A f g k m op cl l O C H. unfold block. rewrite !moved_app, (flat_moved k op O), (flat_moved k cl C). f_equal. f_equal.
  destruct l as [|x l]; [reflexivity|]. rewrite moved_app, moved_line. f_equal. apply lines_moved, H.
Qed.

Lemma pretty_moved : forall d, named d -> forall m k, moved k (pretty comma m d) = pretty comma (m + k) d.
Proof.
  induction d as [s|c|n|n|n l IH|n l IH|l IH|l IH] using shown_ind'; intros N m k; cbn [pretty].
  - apply flat_moved, debug_str_flat.
  - apply flat_moved, debug_char_flat.
  - apply flat_moved, dec_flat.
  - apply flat_moved, letters_flat, N.
  - destruct N as [N1 N2]. rewrite moved_app, (flat_moved k n (letters_flat n N1)). f_equal. apply fold_all in N2.
    apply block_moved; [repeat constructor; discriminate|repeat constructor; discriminate|].
    rewrite Forall_forall in *. intros x X. rewrite (IH x X (N2 x X)). f_equal. lia.
  - destruct N as [N1 N2]. rewrite moved_app, (flat_moved k n (letters_flat n N1)). f_equal.
    apply block_moved; [repeat constructor; discriminate|repeat constructor; discriminate|].
    clear N1. induction IH as [|[a x] l X IH IHl]; constructor.
    + cbn in N2. destruct N2 as [[A B] _]. rewrite !moved_app, (flat_moved k a (letters_flat a A)). cbn [snd] in X. rewrite (X B).
      f_equal. f_equal. f_equal. lia.
    + apply IHl. cbn in N2. apply N2.
  - cbn [named] in N. apply fold_all in N. apply block_moved; [repeat constructor; discriminate|repeat constructor; discriminate|].
    rewrite Forall_forall in *. intros x X. rewrite (IH x X (N x X)). f_equal. lia.
  - apply block_moved; [repeat constructor; discriminate|repeat constructor; discriminate|].
    cbn [named] in N. induction IH as [|[a x] l X IH IHl]; constructor.
    + cbn in N. destruct N as [B _]. rewrite !moved_app, (flat_moved k (debug_str a) (debug_str_flat a)). cbn [snd] in X. rewrite (X B).
      f_equal. f_equal. f_equal. lia.
    + apply IHl. cbn in N. apply N.
Qed.

Lemma lines_listed : forall (A : Type) (f h : A -> str) k l, Forall (fun x => f x = moved (k + 4) (h x)) l ->
  lines comma k f l = listed comma (k + 4) (map h l).
Proof.
  intros A f h k l H. induction H as [|x l X H IH]; [reflexivity|]. cbn [lines map]. fold (lines comma k f l). rewrite X, IH.
  unfold new_line. destruct l as [|y l].
  - cbn [map listed lines]. unfold under, last_comma. rewrite moved_app, app_nil_r, <- app_comm_cons. do 3 f_equal. destruct comma; reflexivity.
  - change (listed comma (k + 4) (h x :: map h (y :: l))) with (under (k + 4) (h x ++ s_ ",") ++ listed comma (k + 4) (map h (y :: l))).
    generalize (listed comma (k + 4) (map h (y :: l))). intros L. unfold under. rewrite moved_app. cbn [app]. rewrite <- !app_assoc. reflexivity.
Qed.

Lemma under_flat : forall k s, flat_text s -> under k s = new_line k ++ s.
Proof. intros k s H. unfold under, new_line. rewrite (flat_moved k s H). reflexivity. Qed.

Lemma last_comma_flat : flat_text (last_comma comma).
Proof. destruct comma; repeat constructor; discriminate. Qed.

Lemma value_layout : forall v, pretty comma 0 (show_node (Val v)) = s_ "Val(" ++ under 4 (debug_str v ++ last_comma comma) ++ under 0 (s_ ")").
Proof.
  intros v. rewrite !under_flat by (try apply flat_app; try apply debug_str_flat; try apply last_comma_flat; repeat constructor; discriminate).
  cbn [show_node pretty]. unfold block. cbn [lines]. unfold last_comma. rewrite <- !app_assoc. reflexivity.
Qed.

Lemma block_listed : forall (A : Type) (f h : A -> str) k op cl l, l <> [] -> Forall (fun x => f x = moved (k + 4) (h x)) l ->
  block comma k op f l cl = op ++ listed comma (k + 4) (map h l) ++ new_line k ++ cl.
Proof.
  intros A f h k op cl l NE H. unfold block. rewrite <- (lines_listed A f h k l H). destruct l as [|x l]; [contradiction|]. rewrite <- app_assoc. reflexivity.
Qed.

Lemma rule_layout : forall n l, l <> [] -> pretty comma 0 (show_node (Rule n l)) =
  s_ "Rule(" ++ under 4 (s_ "(") ++ under 8 (debug_str n ++ s_ ",") ++ under 8 (s_ "[") ++
  listed comma 12 (map (fun t => pretty comma 0 (show_node t)) l) ++
  under 8 (s_ "]" ++ last_comma comma) ++ under 4 (s_ ")" ++ last_comma comma) ++ under 0 (s_ ")").
Proof.
  intros n l NE.
  repeat (rewrite under_flat by (try apply flat_app; try apply debug_str_flat; try apply last_comma_flat; repeat constructor; discriminate)).
  assert (B : pretty comma 8 (ShList (map show_node l)) = s_ "[" ++ listed comma 12 (map (fun t => pretty comma 0 (show_node t)) l) ++ new_line 8 ++ s_ "]").
  { cbn [pretty]. rewrite (block_listed shown _ (pretty comma 0)).
    - rewrite map_map. reflexivity.
    - intros E. apply map_eq_nil in E. contradiction.
    - apply Forall_forall. intros d D. apply in_map_iff in D. destruct D as (t & <- & _). rewrite (pretty_moved _ (named_node t) 0). reflexivity. }
  change (show_node (Rule n l)) with (ShTuple (s_ "Rule") [ShTuple [] [ShStr n; ShList (map show_node l)]]).
  change (pretty comma 0 (ShTuple (s_ "Rule") [ShTuple [] [ShStr n; ShList (map show_node l)]])) with
    (s_ "Rule" ++ s_ "(" ++ ((new_line 4 ++ ([] ++ s_ "(" ++ ((new_line 8 ++ debug_str n ++ s_ "," ++ new_line 8 ++ pretty comma 8 (ShList (map show_node l)) ++
      last_comma comma ++ []) ++ new_line 4) ++ s_ ")") ++ last_comma comma ++ []) ++ new_line 0) ++ s_ ")").
  rewrite B. generalize (listed comma 12 (map (fun t => pretty comma 0 (show_node t)) l)). intros L.
  rewrite !app_nil_r. cbn [app]. rewrite <- !app_assoc. change (s_ "Rule(") with (s_ "Rule" ++ s_ "("). rewrite <- !app_assoc. reflexivity.
Qed.

Lemma rules_layout : forall l, l <> [] -> pretty comma 0 (show_rules l) =
  s_ "SetOfRules(" ++ under 4 (s_ "{") ++
  listed comma 8 (map (fun p => debug_str (fst p) ++ s_ ": " ++ pretty comma 0 (show_expr (snd p))) l) ++
  under 4 (s_ "}" ++ last_comma comma) ++ under 0 (s_ ")").
Proof.
  intros l NE.
  repeat (rewrite under_flat by (try apply flat_app; try apply debug_str_flat; try apply last_comma_flat; repeat constructor; discriminate)).
  set (M := map (fun p : str * expr => (fst p, show_expr (snd p))) l).
  assert (B : pretty comma 4 (ShMap M) = s_ "{" ++ listed comma 8 (map (fun p => debug_str (fst p) ++ s_ ": " ++ pretty comma 0 (show_expr (snd p))) l) ++ new_line 4 ++ s_ "}").
  { cbn [pretty]. rewrite (block_listed (str * shown) _ (fun p => match p with (a, d) => debug_str a ++ s_ ": " ++ pretty comma 0 d end)).
    - unfold M. rewrite map_map. reflexivity.
    - intros E. apply map_eq_nil in E. contradiction.
    - apply Forall_forall. intros d D. apply in_map_iff in D. destruct D as ([a e] & <- & _). cbn [fst snd].
      rewrite !moved_app, (flat_moved _ _ (debug_str_flat a)), (pretty_moved _ (named_expr e) 0). reflexivity. }
  change (pretty comma 0 (show_rules l)) with (s_ "SetOfRules" ++ s_ "(" ++ ((new_line 4 ++ pretty comma 4 (ShMap M) ++ last_comma comma ++ []) ++ new_line 0) ++ s_ ")").
  rewrite B. generalize (listed comma 8 (map (fun p => debug_str (fst p) ++ s_ ": " ++ pretty comma 0 (show_expr (snd p))) l)). intros L.
  rewrite !app_nil_r. rewrite <- !app_assoc. change (s_ "SetOfRules(") with (s_ "SetOfRules" ++ s_ "("). rewrite <- !app_assoc. reflexivity.
Qed.

Lemma many_layout : forall c es, es <> [] -> letters c = true -> pretty comma 0 (ShTuple c [ShTuple (s_ "MultiExpr") [ShList (map show_expr es)]]) =
  c ++ s_ "(" ++ under 4 (s_ "MultiExpr(") ++ under 8 (s_ "[") ++ listed comma 12 (map (fun e => pretty comma 0 (show_expr e)) es) ++
  under 8 (s_ "]" ++ last_comma comma) ++ under 4 (s_ ")" ++ last_comma comma) ++ under 0 (s_ ")").
Proof.
  intros c es NE _.
  repeat (rewrite under_flat by (try apply flat_app; try apply debug_str_flat; try apply last_comma_flat; repeat constructor; discriminate)).
  assert (B : pretty comma 8 (ShList (map show_expr es)) = s_ "[" ++ listed comma 12 (map (fun t => pretty comma 0 (show_expr t)) es) ++ new_line 8 ++ s_ "]").
  { cbn [pretty]. rewrite (block_listed shown _ (pretty comma 0)).
    - rewrite map_map. reflexivity.
    - intros E. apply map_eq_nil in E. contradiction.
    - apply Forall_forall. intros d D. apply in_map_iff in D. destruct D as (t & <- & _). rewrite (pretty_moved _ (named_expr t) 0). reflexivity. }
  change (pretty comma 0 (ShTuple c [ShTuple (s_ "MultiExpr") [ShList (map show_expr es)]])) with
    (c ++ s_ "(" ++ ((new_line 4 ++ (s_ "MultiExpr" ++ s_ "(" ++ ((new_line 8 ++ pretty comma 8 (ShList (map show_expr es)) ++
      last_comma comma ++ []) ++ new_line 4) ++ s_ ")") ++ last_comma comma ++ []) ++ new_line 0) ++ s_ ")").
  rewrite B. generalize (listed comma 12 (map (fun t => pretty comma 0 (show_expr t)) es)). intros L.
  rewrite !app_nil_r. change (s_ "MultiExpr(") with (s_ "MultiExpr" ++ s_ "("). rewrite <- !app_assoc. reflexivity.
Qed.

Lemma not_layout : forall e, pretty comma 0 (show_expr (Not e)) = s_ "Not(" ++ under 4 (pretty comma 0 (show_expr e) ++ last_comma comma) ++ under 0 (s_ ")").
Proof.
  intros e. rewrite (under_flat 0) by (repeat constructor; discriminate). unfold under. rewrite moved_app, (pretty_moved _ (named_expr e) 0), (flat_moved 4 _ last_comma_flat).
  change (pretty comma 0 (show_expr (Not e))) with (s_ "Not" ++ s_ "(" ++ ((new_line 4 ++ pretty comma 4 (show_expr e) ++ last_comma comma ++ []) ++ new_line 0) ++ s_ ")").
  rewrite !app_nil_r. change (s_ "Not(") with (s_ "Not" ++ s_ "("). unfold new_line. cbn [app Nat.add]. rewrite <- !app_assoc. reflexivity.
Qed.

Ltac flat_lit := unfold flat_text; repeat (constructor; [discriminate|]); constructor.

Lemma repeat_layout : forall e mn mx, pretty comma 0 (show_expr (Repeat e mn mx)) =
  s_ "Repeat(" ++ under 4 (s_ "RepInfo {") ++ under 8 (s_ "expression: " ++ pretty comma 0 (show_expr e) ++ s_ ",") ++
  under 8 (s_ "min: NRep(" ++ under 4 (dec mn ++ last_comma comma) ++ under 0 (s_ "),")) ++
  under 8 (s_ "max: " ++ max_text comma mx ++ last_comma comma) ++
  under 4 (s_ "}" ++ last_comma comma) ++ under 0 (s_ ")").
Proof.
  intros e mn mx.
  assert (F : flat_text (last_comma comma)) by apply last_comma_flat.
  assert (N : forall k m, pretty comma k (show_nrep m) = s_ "NRep(" ++ new_line (4 + k) ++ dec m ++ last_comma comma ++ new_line k ++ s_ ")").
  { intros k m. replace (4 + k) with (k + 4) by lia. change (pretty comma k (show_nrep m)) with (s_ "NRep" ++ s_ "(" ++ ((new_line (k + 4) ++ dec m ++ last_comma comma ++ []) ++ new_line k) ++ s_ ")").
    rewrite !app_nil_r. change (s_ "NRep(") with (s_ "NRep" ++ s_ "("). rewrite <- !app_assoc. reflexivity. }
  assert (U : forall k s, under k s = new_line k ++ moved k s) by (intros; reflexivity).
  assert (L : forall k m s, moved k (new_line m ++ s) = new_line (m + k) ++ moved k s) by (intros; rewrite moved_app, moved_line; reflexivity).
  assert (D : forall k s, flat_text s -> moved k s = s) by (intros; apply flat_moved; assumption).
  change (pretty comma 0 (show_expr (Repeat e mn mx))) with
    (s_ "Repeat" ++ s_ "(" ++ ((new_line 4 ++ (s_ "RepInfo" ++ s_ " {" ++ ((new_line 8 ++ (s_ "expression" ++ s_ ": " ++ pretty comma 8 (show_expr e)) ++ s_ "," ++
      new_line 8 ++ (s_ "min" ++ s_ ": " ++ pretty comma 8 (show_nrep mn)) ++ s_ "," ++
      new_line 8 ++ (s_ "max" ++ s_ ": " ++ pretty comma 8 (show_option show_nrep mx)) ++ last_comma comma ++ []) ++ new_line 4) ++ s_ "}") ++ last_comma comma ++ []) ++ new_line 0) ++ s_ ")").
  assert (O : pretty comma 8 (show_option show_nrep mx) = moved 8 (max_text comma mx)).
  { destruct mx as [m|]; [|reflexivity]. cbn [show_option max_text].
    change (pretty comma 8 (ShTuple (s_ "Some") [show_nrep m])) with (s_ "Some" ++ s_ "(" ++ ((new_line 12 ++ pretty comma 12 (show_nrep m) ++ last_comma comma ++ []) ++ new_line 8) ++ s_ ")").
    rewrite N. rewrite !U. repeat rewrite ?moved_app, ?moved_line. rewrite !(D _ (last_comma comma) F), !(D _ (dec m) (dec_flat m)).
    rewrite ?(fun k => D k (s_ "Some(") ltac:(flat_lit)), ?(fun k => D k (s_ "NRep(") ltac:(flat_lit)), ?(fun k => D k (s_ ")") ltac:(flat_lit)).
    rewrite !app_nil_r. change (s_ "Some(") with (s_ "Some" ++ s_ "("). rewrite <- !app_assoc. reflexivity. }
  rewrite O, N. clear O.
  generalize (max_text comma mx). intros X.
  rewrite !U. repeat rewrite ?moved_app, ?moved_line. rewrite !(D _ (last_comma comma) F), !(D _ (dec mn) (dec_flat mn)), !(pretty_moved _ (named_expr e) 0).
  rewrite ?(fun k => D k (s_ "RepInfo {") ltac:(flat_lit)), ?(fun k => D k (s_ "expression: ") ltac:(flat_lit)), ?(fun k => D k (s_ ",") ltac:(flat_lit)),
    ?(fun k => D k (s_ "min: NRep(") ltac:(flat_lit)), ?(fun k => D k (s_ "),") ltac:(flat_lit)), ?(fun k => D k (s_ "max: ") ltac:(flat_lit)),
    ?(fun k => D k (s_ "}") ltac:(flat_lit)), ?(fun k => D k (s_ ")") ltac:(flat_lit)).
  rewrite !app_nil_r. change (s_ "Repeat(") with (s_ "Repeat" ++ s_ "("). change (s_ "RepInfo {") with (s_ "RepInfo" ++ s_ " {").
  change (s_ "expression: ") with (s_ "expression" ++ s_ ": "). change (s_ "min: NRep(") with (s_ "min" ++ s_ ": " ++ s_ "NRep("). change (s_ "max: ") with (s_ "max" ++ s_ ": ").
  change (s_ "),") with (s_ ")" ++ s_ ","). rewrite <- !app_assoc. reflexivity.
Qed.

(* ---- lines ----------------------------------------------------------------------------------- *)

Definition breaks (s : str) : nat := count_occ N.eq_dec s ch_nl.

Lemma breaks_app : forall a b, breaks (a ++ b) = breaks a + breaks b.
Proof. intros a b. apply count_occ_app. Qed.

Lemma breaks_flat : forall s, flat_text s -> breaks s = 0.
Proof.
  intros s H. unfold breaks. apply count_occ_not_In. intros I. unfold flat_text in H. rewrite Forall_forall in H. exact (H _ I eq_refl).
Qed.

Lemma breaks_moved : forall k s, breaks (moved k s) = breaks s.
Proof.
  intros k. induction s as [|c s IH]; [reflexivity|]. change (c :: s) with ([c] ++ s). rewrite moved_app, !breaks_app, IH. f_equal.
  cbn [moved flat_map]. destruct (N.eqb_spec c ch_nl) as [->|E].
  - rewrite app_nil_r. change (ch_nl :: repeat 32%N k) with ([ch_nl] ++ repeat 32%N k). rewrite breaks_app, (breaks_flat _ (spaces_flat k)). reflexivity.
  - reflexivity.
Qed.

Lemma breaks_under : forall k s, breaks (under k s) = S (breaks s).
Proof.
  intros k s. unfold under. change (ch_nl :: repeat 32%N k ++ moved k s) with ([ch_nl] ++ repeat 32%N k ++ moved k s).
  rewrite !breaks_app, breaks_moved, (breaks_flat _ (spaces_flat k)). reflexivity.
Qed.

Lemma breaks_listed : forall k l, breaks (listed comma k l) = fold_right (fun x n => lines_of x + n) 0 l.
Proof.
  intros k. induction l as [|x l IH]; [reflexivity|]. cbn [fold_right]. rewrite <- IH. unfold lines_of. fold (breaks x). destruct l as [|y l].
  - cbn [listed]. rewrite breaks_under, breaks_app, (breaks_flat _ last_comma_flat). cbn [breaks count_occ]. lia.
  - change (listed comma k (x :: y :: l)) with (under k (x ++ s_ ",") ++ listed comma k (y :: l)).
    rewrite breaks_app, breaks_under, breaks_app, (breaks_flat (s_ ",")) by (repeat constructor; discriminate). lia.
Qed.

Lemma tree_breaks : forall t, lines_of (pretty comma 0 (show_node t)) = tree_lines t.
Proof.
  induction t as [v|n l IH|] using node_ind'.
  - rewrite value_layout. unfold lines_of. fold (breaks (s_ "Val(" ++ under 4 (debug_str v ++ last_comma comma) ++ under 0 (s_ ")"))).
    rewrite !breaks_app, !breaks_under, !breaks_app, (breaks_flat _ (debug_str_flat v)), (breaks_flat _ last_comma_flat). reflexivity.
  - destruct l as [|x l].
    + cbn [tree_lines fold_right Nat.add].
      change (pretty comma 0 (show_node (Rule n []))) with
        (s_ "Rule" ++ s_ "(" ++ ((new_line 4 ++ ([] ++ s_ "(" ++ ((new_line 8 ++ debug_str n ++ s_ "," ++ new_line 8 ++ s_ "[]" ++
          last_comma comma ++ []) ++ new_line 4) ++ s_ ")") ++ last_comma comma ++ []) ++ new_line 0) ++ s_ ")").
      unfold lines_of. match goal with |- S (count_occ N.eq_dec ?s ch_nl) = _ => fold (breaks s) end.
      rewrite !breaks_app, (breaks_flat _ (debug_str_flat n)), (breaks_flat _ last_comma_flat). reflexivity.
    + rewrite rule_layout by discriminate. unfold lines_of.
      match goal with |- S (count_occ N.eq_dec ?s ch_nl) = _ => fold (breaks s) end.
      rewrite !breaks_app, breaks_listed, !breaks_under, !breaks_app, (breaks_flat _ (debug_str_flat n)), (breaks_flat _ last_comma_flat).
      change (tree_lines (Rule n (x :: l))) with (7 + fold_right (fun y m => tree_lines y + m) 0 (x :: l)).
      replace (fold_right (fun y m => lines_of y + m) 0 (map (fun t => pretty comma 0 (show_node t)) (x :: l))) with (fold_right (fun y m => tree_lines y + m) 0 (x :: l)).
      2:{ clear - IH. induction IH as [|y r Y IH IHr]; [reflexivity|]. cbn [map fold_right]. rewrite Y, IHr. reflexivity. }
      generalize (fold_right (fun y m => tree_lines y + m) 0 (x :: l)). intros a.
      rewrite !(breaks_flat (s_ _)) by (repeat constructor; discriminate). lia.
  - reflexivity.
Qed.
End Comma.
