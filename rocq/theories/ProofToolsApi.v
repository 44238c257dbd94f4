(** Cost of the tools for the trees that parsing gives. *)
From Verif Require Import Base ModelAst ModelParser ModelTools SpecPeg SpecPos SpecApi SpecWf SpecCost SpecTable SpecTools.
From Verif Require Import ProofAst ProofParser ProofEngine ProofApi ProofWf WfCheck ProofCost ProofTreeSize ProofTools ProofTill PegTools ProofPower.

Lemma weights_app : forall a b, weights (a ++ b) = weights a + weights b.
Proof. intros a b. induction a as [|x a IH]; [reflexivity|]. cbn [app]. rewrite !weights_cons, IH. lia. Qed.
Lemma heights_app : forall a b, heights (a ++ b) = Nat.max (heights a) (heights b).
Proof. intros a b. induction a as [|x a IH]; [reflexivity|]. cbn [app]. rewrite !heights_cons, IH. lia. Qed.

(** Chars in the literals of an expression, and in rules. *)
Fixpoint lit_chars (e : expr) : nat :=
  match e with
  | Simple (Literal l) => length l
  | And es | Or es => fold_right (fun x n => lit_chars x + n) 0 es
  | Not e1 | Repeat e1 _ _ => lit_chars e1
  | _ => 0
  end.
Definition rule_chars (rs : rules) : nat := 3 + fold_right (fun p n => length (fst p) + lit_chars (snd p) + n) 0 rs.

Lemma rule_chars_get : forall rs n e, rules_get rs n = Some e -> length n + lit_chars e <= rule_chars rs.
Proof.
  intros rs n e H. unfold rule_chars. enough (length n + lit_chars e <= fold_right (fun p n => length (fst p) + lit_chars (snd p) + n) 0 rs) by lia.
  induction rs as [|[k x] rs IH]; cbn [rules_get fold_right fst snd] in *; [discriminate|].
  destruct (str_eqb k n) eqn:E; [apply str_eqb_eq in E; injection H as <-; subst; lia|]. specialize (IH H). lia.
Qed.

Section Rules.
Variable rs : rules.
Let K := 1 + rule_chars rs.

Definition light (f : nat) (ts : list node) : Prop := heights ts <= f /\ weights ts <= K * count ts.

Lemma light_app : forall f a b, light f a -> light f b -> light f (a ++ b).
Proof. intros f a b [H1 W1] [H2 W2]. unfold light. rewrite heights_app, weights_app, count_app. split; [lia|nia]. Qed.
Lemma light_nil : forall f, light f [].
Proof. intro f. split; cbn; lia. Qed.
Lemma light_val : forall f v, length v <= rule_chars rs -> light (S f) [Val v].
Proof. intros f v L. unfold light. rewrite heights_cons, weights_cons. cbn [heights weights count fold_right node_count weight height]. unfold K. lia. Qed.

Lemma atom_light : forall st a st' nd f, parse_atom st a = Ok (st', nd) -> lit_chars (Simple a) <= rule_chars rs -> light (S f) [nd].
Proof.
  intros st a st' nd f H L. assert (T : 3 <= rule_chars rs) by (unfold rule_chars; lia). destruct a as [l|cs rg|m| |]; cbn [parse_atom lit_chars] in *.
  - unfold parse_literal in H. destruct (parse_literal_loop l st l); cbn in H; try discriminate. injection H as <- <-. apply light_val. exact L.
  - unfold parse_match, err_normal, err_status in H. destruct (get_char st) as [[st1 ch]|st1]; [destruct (match_char cs rg ch)|]; try (destruct (from_status st1 _ _); discriminate).
    injection H as <- <-. apply light_val. cbn. lia.
  - unfold parse_error, err_status in H. destruct (from_status st m Critical); discriminate.
  - unfold parse_dot, err_normal, err_status in H. destruct (get_char st) as [[st1 ch]|st1]; [|destruct (from_status st1 _ _); discriminate].
    injection H as <- <-. apply light_val. cbn. lia.
  - unfold parse_eof, err_normal, err_status in H. destruct (get_char st) as [[st1 ch]|st1]; [destruct (from_status st1 _ _); discriminate|].
    injection H as <- <-. apply light_val. cbn. lia.
Qed.

Lemma light_up : forall f ts, light f ts -> light (S f) ts.
Proof. intros f ts [H W]. split; [lia|exact W]. Qed.

Definition lit_sum (es : list expr) : nat := fold_right (fun x n => lit_chars x + n) 0 es.

Lemma and_light : forall (pe : status -> expr -> result_expr) f, (forall st e st' ts, pe st e = Ok (st', ts) -> lit_chars e <= rule_chars rs -> light f ts) ->
  forall es st acc st' ts, light f acc -> lit_sum es <= rule_chars rs -> parse_and pe st es acc = Ok (st', ts) -> light f ts.
Proof.
  intros pe f IH es. induction es as [|e es IHe]; intros st acc st' ts A L H; cbn [parse_and lit_sum fold_right] in *; [injection H as <- <-; exact A|].
  fold (lit_sum es) in L. destruct (pe st e) as [[st1 vs]| | |] eqn:E; try discriminate. eapply IHe; [|lia|exact H]. apply light_app; [exact A|]. eapply IH; [exact E|lia].
Qed.

Lemma or_light : forall (pe : status -> expr -> result_expr) f, (forall st e st' ts, pe st e = Ok (st', ts) -> lit_chars e <= rule_chars rs -> light f ts) ->
  forall es st oe st' ts, lit_sum es <= rule_chars rs -> parse_or pe st es oe = Ok (st', ts) -> light f ts.
Proof.
  intros pe f IH es. induction es as [|e es IHe]; intros st oe st' ts L H; cbn [parse_or lit_sum fold_right] in *.
  - destruct oe; [discriminate|]. unfold err_normal, err_status in H. destruct (from_status _ _ _); discriminate.
  - fold (lit_sum es) in L. destruct (pe st e) as [[st1 vs]|er| |] eqn:E; try discriminate.
    + injection H as <- <-. eapply IH; [exact E|lia].
    + destruct (is_critical (e_priority er)); [discriminate|]. eapply IHe; [|exact H]. lia.
Qed.

Lemma rep_light : forall (pe : status -> expr -> result_expr) f, (forall st e st' ts, pe st e = Ok (st', ts) -> lit_chars e <= rule_chars rs -> light f ts) ->
  forall g e mn mx st n acc st' ts, light f acc -> lit_chars e <= rule_chars rs -> parse_repeat g pe st e mn mx n acc = Ok (st', ts) -> light f ts.
Proof.
  intros pe f IH g. induction g as [|g IHg]; intros e mn mx st n acc st' ts A L H; cbn [parse_repeat] in H; [discriminate|].
  destruct (pe st e) as [[st1 vs]|er| |] eqn:E; try discriminate.
  - assert (B : light f (acc ++ vs)) by (apply light_app; [exact A|eapply IH; [exact E|exact L]]).
    destruct (touch_max_bound mx n); [injection H as <- <-; exact B|]. eapply IHg; [exact B|exact L|exact H].
  - destruct (big_min_bound mn n); [|discriminate]. destruct (is_critical (e_priority er)); [discriminate|]. injection H as <- <-. exact A.
Qed.

Lemma rule_light : forall (pe : status -> expr -> result_expr) f, (forall st e st' ts, pe st e = Ok (st', ts) -> lit_chars e <= rule_chars rs -> light f ts) ->
  forall st n st' nd, parse_rule_name pe rs st n = Ok (st', nd) -> light (S f) [nd].
Proof.
  intros pe f IH st n st' nd H. unfold parse_rule_name in H. destruct (rules_get rs n) as [e|] eqn:E; [|unfold err_status in H; destruct (from_status _ _ _); discriminate].
  pose proof (rule_chars_get rs n e E) as L. destruct (pe _ e) as [[st1 vs]| | |] eqn:P; cbn in H; try discriminate. injection H as <- <-.
  destruct (IH _ _ _ _ P) as [H1 W1]; [lia|]. split.
  - rewrite heights_cons, height_rule. cbn [heights fold_right]. lia.
  - rewrite weights_cons, weight_rule. cbn [count fold_right node_count weights]. fold (count vs). unfold K in *. nia.
Qed.

Lemma expr_light : forall f st e st' ts, parse_expr rs f st e = Ok (st', ts) -> lit_chars e <= rule_chars rs -> light f ts.
Proof.
  induction f as [|f IH]; intros st e st' ts H L; cbn [parse_expr] in H; [discriminate|]. destruct e as [a|es|es|e|e mn mx|n].
  - destruct (parse_atom st a) as [[st1 nd]| | |] eqn:E; cbn in H; try discriminate. injection H as <- <-. eapply atom_light; [exact E|exact L].
  - apply light_up. eapply and_light; [exact IH|apply light_nil|exact L|exact H].
  - apply light_up. eapply or_light; [exact IH|exact L|exact H].
  - unfold parse_not, err_normal, err_status in H. destruct (parse_expr rs f st e); try discriminate; [destruct (from_status _ _ _); discriminate|]. injection H as <- <-. apply light_nil.
  - apply light_up. cbn [lit_chars] in L. eapply rep_light; [exact IH|apply light_nil|exact L|exact H].
  - destruct (parse_rule_name (parse_expr rs f) rs st n) as [[st1 nd]| | |] eqn:E; cbn in H; try discriminate. injection H as <- <-. eapply rule_light; [exact IH|exact E].
Qed.

Lemma parse_light : forall fuel s d ast, parse_with_debug fuel s rs d = Ok ast -> height ast <= fuel + 1 /\ weight ast <= K * node_count ast.
Proof.
  intros fuel s d ast H. unfold parse_with_debug in H.
  assert (E : exists st st', parse_rule_name (parse_expr rs fuel) rs st main = Ok (st', ast)).
  { unfold expression_parse in H. change (s_ "main") with main in H.
    destruct d; [exists (status_init_debug s true)|exists (status_init s)];
      (destruct (parse_rule_name _ _ _ _) as [[st1 nd]| | |]; cbn in H; try discriminate; exists st1;
       destruct (pn (st_pos st1) =? byte_len s); [injection H as ->; reflexivity|]; destruct (potential_error st1); [discriminate|];
       unfold err_normal, err_status in H; destruct (from_status _ _ _); discriminate). }
  destruct E as (st & st' & E). destruct (rule_light _ fuel (expr_light fuel) _ _ _ _ E) as [Hh W].
  rewrite heights_cons in Hh. rewrite weights_cons in W. cbn [heights fold_right count weights] in *. lia.
Qed.
End Rules.

(** The height does not depend on the fuel. *)
Lemma parse_height : forall rs, well_formed (grammar_of rs) -> forall fuel s d ast, parse_with_debug fuel s rs d = Ok ast ->
  height ast <= depth_factor rs * (length s + 1) + 1.
Proof.
  intros rs W fuel s d ast H. set (f0 := depth_factor rs * (length s + 1)).
  pose proof (parse_bound rs s d f0 W (le_n _)) as N.
  assert (E : parse_with_debug f0 s rs d = Ok ast).
  { destruct (Nat.le_ge_cases f0 fuel) as [L|L].
    - destruct (parse_with_debug_mono _ _ s rs d L) as [E|E]; [contradiction|]. rewrite E. exact H.
    - destruct (parse_with_debug_mono _ _ s rs d L) as [E|E]; [rewrite H in E; discriminate|]. rewrite <- E. exact H. }
  exact (proj1 (parse_light rs f0 s d ast E)).
Qed.

Lemma tools_bound : forall rs, well_formed (grammar_of rs) -> exists c, forall fuel s d ast names, parse_with_debug fuel s rs d = Ok ast ->
  let n := length s + 1 in
  work (snd (t_prune names ast)) <= c * n /\ work (snd (t_flatten ast)) <= c * n /\
  work (snd (t_pass_through_except names ast)) <= c * (n * n) /\ work (snd (t_compact ast)) <= c * (n * n) /\
  nest (snd (t_prune names ast)) <= c * n /\ nest (snd (t_flatten ast)) <= c * n /\
  nest (snd (t_pass_through_except names ast)) <= c * n /\ nest (snd (t_compact ast)) <= c * n.
Proof.
  intros rs W. destruct W as [NLR NEL] eqn:EW. clear EW.
  assert (TS : exists c, forall fuel s d ast, parse_with_debug fuel s rs d = Ok ast -> node_count ast <= c * (length s + 1))
    by (eexists; intros fuel s d ast H; exact (tree_size rs NLR NEL fuel s d ast H)).
  destruct TS as [c1 T]. set (w := (1 + rule_chars rs) * c1). set (h := depth_factor rs + 1).
  exists (4 * (w * w) + 3 * w + 2 * w * h + h). intros fuel s d ast names H. cbv zeta. set (n := length s + 1).
  assert (n1 : 1 <= n) by (unfold n; lia).
  assert (WT : weight ast <= w * n).
  { pose proof (proj2 (parse_light rs fuel s d ast H)). pose proof (T fuel s d ast H) as C. fold n in C. unfold w.
    apply (Nat.mul_le_mono_l _ _ (1 + rule_chars rs)) in C. rewrite Nat.mul_assoc in C. lia. }
  assert (HT : height ast <= h * n).
  { pose proof (parse_height rs W fuel s d ast H) as C. fold n in C. unfold h. lia. }
  pose proof (prune_work names ast) as P1. pose proof (flatten_work ast []) as P2. pose proof (pass_work names ast) as P3. pose proof (compact_work ast) as P4.
  pose proof (prune_nest names ast) as Q1. pose proof (flatten_nest ast []) as Q2. pose proof (pass_nest names ast) as Q3. pose proof (proj1 (compact_nest ast)) as Q4.
  assert (PH : height (prune names ast) <= height ast).
  { clear. induction ast as [v|m k IH|] using node_ind'; [cbn; lia| |cbn; lia]. rewrite prune_unfold, !height_rule. apply le_n_S.
    unfold prune_list. induction k as [|y k IHk]; [cbn; lia|]. cbn [flat_map]. rewrite heights_app, heights_cons.
    specialize (IHk (Forall_inv_tail IH)). pose proof (Forall_inv IH) as Y. cbn beta in Y. destruct (node2prune names y); cbn [heights fold_right]; lia. }
  assert (WW : weight ast * weight ast <= w * w * (n * n)) by nia.
  assert (WH : weight ast * height ast <= w * h * (n * n)) by nia.
  unfold t_flatten. repeat split; nia.
Qed.

(** * Lower bounds *)

Fixpoint chain_tree (n : nat) : node :=
  match n with 0 => Rule main [Val (s_ "b")] | S m => Rule main [Val (s_ "a"); chain_tree m] end.

Lemma chain_peg : forall n, peg (grammar_of chain_rules) (RuleName main) (chain_text n) (PMatch [chain_tree n] []).
Proof.
  induction n as [|n IH]; (eapply mk_rule; [reflexivity|]).
  - apply peg_or_next; [apply mk_and_fail1; apply peg_lit_fail; intros r E; discriminate|]. apply mk_or1. apply mk_lit. reflexivity.
  - apply mk_or1. change (chain_text (S n)) with (s_ "a" ++ chain_text n).
    eapply (mk_and _ _ _ _ [Val (s_ "a")]); [apply mk_lit; reflexivity|]. eapply (mk_and _ _ _ _ [chain_tree n]); [exact IH|apply peg_and_nil].
Qed.

Lemma chain_sane : sane_rules chain_rules.
Proof. apply (one_sane (Or [And [lit (s_ "a"); ref_rule main]; lit (s_ "b")])). cbn. tauto. Qed.

Lemma chain_ascii : forall n, ascii (chain_text n).
Proof. intro n. unfold chain_text. apply Forall_app. split; [|repeat constructor]. apply Forall_forall. intros c I. apply repeat_spec in I. subst. reflexivity. Qed.

Lemma chain_length : forall n, length (chain_text n) = n + 1.
Proof. intro n. unfold chain_text. rewrite app_length, repeat_length. reflexivity. Qed.

Lemma chain_parse : forall n d, exists fuel, parse_with_debug fuel (chain_text n) chain_rules d = Ok (chain_tree n).
Proof. intros n d. apply (parse_accepts_iff (chain_text n) chain_rules d chain_sane (chain_ascii n)). exact (chain_peg n). Qed.

Lemma chain_height : forall n, height (chain_tree n) = n + 2.
Proof. induction n as [|n IH]; [reflexivity|]. cbn [chain_tree]. rewrite height_rule, !heights_cons, IH. cbn [height heights fold_right]. lia. Qed.

Lemma chain_flat : forall names n, name_in names main = false -> length (pthr names (chain_tree n)) = n + 1.
Proof.
  intros names n E. induction n as [|n IH]; cbn [chain_tree]; rewrite pthr_rule, E; rewrite !pthr_vn_cons; [reflexivity|].
  rewrite !app_length, IH. change (pthr_vn names []) with (@nil node). cbn [pthr length]. lia.
Qed.

Lemma t_pthr_rule : forall names n l, snd (t_pthr names (Rule n l)) =
  let r := t_fold (fun acc x => (acc ++ fst (t_pthr names x), snd (t_pthr names x))) [] c_none l in
  if name_in names n then c_call (c_seq (snd r) (c_pay (length n + 1))) else c_call (c_seq (snd r) (c_pay (length (fst r)))).
Proof. intros names n l. cbn [t_pthr node2keep]. destruct (name_in names n); reflexivity. Qed.

Lemma compact_chars : forall s u c, work c + length s * length s + 2 * length s * length u <= work (snd (t_fold (t_concat_nodes t_compact) [Val u] c (by_chars s))).
Proof.
  induction s as [|x s IH]; intros u c; [cbn; lia|]. change (by_chars (x :: s)) with (Val [x] :: by_chars s). cbn [t_fold]. unfold t_concat_nodes at 2 3. cbn [last_val fst snd removelast app].
  eapply Nat.le_trans; [|apply IH]. costs. rewrite app_length. cbn [length]. nia.
Qed.

Lemma compact_any : forall s, length s * length s <= work (snd (t_compact (Rule main (by_chars s)))).
Proof.
  intros [|x s]; [cbn; lia|]. cbn [t_compact snd]. costs. change (by_chars (x :: s)) with (Val [x] :: by_chars s).
  change (fun acc x => t_concat_nodes t_compact acc x) with (t_concat_nodes t_compact). cbn [t_fold]. unfold t_concat_nodes at 2 3. cbn [last_val fst snd app].
  pose proof (compact_chars s [x] (c_seq c_none (c_pay (0 + length [x] + 1)))) as L. costs. cbn [length] in *. nia.
Qed.

Lemma any_sane : sane_rules any_rules.
Proof. apply (one_sane (rep0 dot_ 0)). cbn. tauto. Qed.

Lemma any_parse : forall s d, ascii s -> exists fuel, parse_with_debug fuel s any_rules d = Ok (Rule main (by_chars s)).
Proof.
  intros s d A. apply (parse_accepts_iff s any_rules d any_sane A). unfold peg_main. eapply mk_rule; [reflexivity|]. apply all_chars.
Qed.

Lemma chain_prune : forall names n, name_in names main = false -> prune names (chain_tree n) = chain_tree n.
Proof.
  intros names n E. induction n as [|n IH]; [reflexivity|]. cbn [chain_tree]. rewrite prune_unfold. unfold prune_list. cbn [flat_map node2prune prune app].
  assert (X : node2prune names (chain_tree n) = false) by (destruct n; exact E). rewrite X, IH. reflexivity.
Qed.

Lemma chain_pthr_exact : forall names n, name_in names main = false -> 2 * work (snd (t_pthr names (chain_tree n))) = n * n + 11 * n + 10.
Proof.
  intros names n E. induction n as [|n IH]; cbn [chain_tree]; rewrite t_pthr_rule, E; cbv zeta; costs; rewrite pthr_fold_eq, !pthr_vn_cons, ?app_length.
  - cbn [t_fold snd]. costs. cbn [t_pthr snd pthr length]. costs. cbn. lia.
  - rewrite (chain_flat names n E). cbn [t_fold snd]. costs. cbn [t_pthr snd pthr length]. costs. change (pthr_vn names []) with (@nil node). cbn [length s_ String.length]. change (length (s_ "a")) with 1. lia.
Qed.

Lemma chain_exact : forall names n, name_in names main = false -> 2 * work (snd (t_pass_through_except names (chain_tree n))) = n * n + 9 * n + 16.
Proof.
  intros names [|n] E; [reflexivity|]. cbn [chain_tree t_pass_through_except snd t_fold]. costs. pose proof (chain_pthr_exact names n E). change (length main) with 4.
  cbn [t_pthr snd]. costs. change (length (s_ "a")) with 1. lia.
Qed.

Lemma compact_chars_exact : forall s u c, 2 * work (snd (t_fold (t_concat_nodes t_compact) [Val u] c (by_chars s))) =
  2 * work c + 6 * length u * length s + 3 * length s * length s + 3 * length s.
Proof.
  induction s as [|x s IH]; intros u c; [cbn; lia|]. change (by_chars (x :: s)) with (Val [x] :: by_chars s). cbn [t_fold]. unfold t_concat_nodes at 2 3. cbn [last_val fst snd removelast app].
  rewrite IH. costs. rewrite app_length. cbn [length]. lia.
Qed.

Lemma compact_any_exact : forall s, s <> [] -> 2 * work (snd (t_compact (Rule main (by_chars s)))) = 3 * length s * length s + 3 * length s + 8.
Proof.
  intros [|x s] N; [congruence|]. clear N. cbn [t_compact snd]. costs. change (by_chars (x :: s)) with (Val [x] :: by_chars s).
  change (fun acc x => t_concat_nodes t_compact acc x) with (t_concat_nodes t_compact). cbn [t_fold]. unfold t_concat_nodes at 2 3. cbn [last_val fst snd app].
  pose proof (compact_chars_exact s [x] (c_seq c_none (c_pay (0 + length [x] + 1)))) as L. costs. cbn [length] in *. change (length main) with 4. lia.
Qed.
