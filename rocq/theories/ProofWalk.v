(** The counted walk over the tokens of a grammar text (ModelWalk): it returns what the walk returns, and its tally is linear. *)
From Verif Require Import Base ModelAst ModelParser ModelPegRules ModelPeg ModelWalk.

Section Walk.
Variable op : nat -> nat -> nat.

(** ** Same results *)

Lemma er_bind : forall A B (m : walk A) (k : A -> walk B) m' k', fst m = m' -> (forall a, fst (k a) = k' a) ->
  fst (w_bind op m k) = bind m' k'.
Proof. intros A B [o t] k m' k' <- H. unfold w_bind. cbn [fst]. destruct o; cbn [fst bind]; auto. Qed.

Lemma er_push : forall A d (m : walk A) m', fst m = m' -> fst (w_push_err d m) = push_err d m'.
Proof. intros A d m m' <-. reflexivity. Qed.

Definition same {A} (w : walker A) (c : consumer A) := forall nodes ctx, fst (w nodes ctx) = c nodes ctx.

Lemma er_rule : forall A n nodes ctx (w : walker A) c, same w c ->
  fst (w_consuming_rule op n nodes ctx w) = consuming_rule n nodes ctx c.
Proof.
  intros A n nodes ctx w c H. unfold w_consuming_rule, consuming_rule, called. cbn [fst]. apply er_push.
  apply er_bind; [reflexivity|]. intro l. apply er_bind; [apply H|]. intros [[r l2] c2]. apply er_bind; [reflexivity|].
  intro l3. reflexivity.
Qed.

Ltac er :=
  repeat first
    [ match goal with |- fst (w_consuming_rule _ _ _ _ _) = consuming_rule _ _ _ _ => apply er_rule; intros ? ?; cbv beta end
    | match goal with |- fst (w_push_err _ _) = push_err _ _ => apply er_push end
    | match goal with |- fst (w_bind _ _ _) = bind _ _ => apply er_bind; [|intro; cbv beta] end
    | match goal with |- fst (called _) = _ => unfold called; cbn [fst] end
    | match goal with H : same ?w _ |- fst (?w _ _) = _ => apply H end
    | reflexivity
    | match goal with
      | |- context [match ?x with (_, _) => _ end] => is_var x; destruct x
      | |- context [if ?x then _ else _] => destruct x
      | |- context [match ?x with _ => _ end] => destruct x
      end ].

Lemma e_symbol : same (w_consume_symbol op) consume_symbol.
Proof. intros nodes ctx. unfold w_consume_symbol, consume_symbol. er. Qed.

Lemma e_mod_name : same (w_consume_mod_name op) consume_mod_name.
Proof. intros nodes ctx. pose proof e_symbol. unfold w_consume_mod_name, consume_mod_name. er. Qed.

Lemma e_dots : forall f acc, same (w_rec_consume_dot_symbol op f acc) (rec_consume_dot_symbol f acc).
Proof.
  pose proof e_symbol. induction f as [|f IH]; intros acc nodes ctx; [reflexivity|].
  cbn [w_rec_consume_dot_symbol rec_consume_dot_symbol]. er. apply IH.
Qed.

Lemma e_rule_name : forall f, same (w_consume_rule_name op f) (consume_rule_name f).
Proof.
  intros f nodes ctx. pose proof e_symbol. pose proof (e_dots f []). unfold w_consume_rule_name, consume_rule_name.
  unfold w_get_dot_or_empty, get_dot_or_empty. er.
Qed.

Lemma e_quote : same (w_consume_quote op) consume_quote.
Proof. intros nodes ctx. unfold w_consume_quote, consume_quote. er. Qed.
Lemma e_single_quote : same (w_consume_single_quote op) consume_single_quote.
Proof. intros nodes ctx. unfold w_consume_single_quote, consume_single_quote. er. Qed.
Lemma e_esc_char : same (w_consume_esc_char op) consume_esc_char.
Proof. intros nodes ctx. unfold w_consume_esc_char, consume_esc_char. er. Qed.
Lemma e_hex_char : same (w_consume_hex_char op) consume_hex_char.
Proof. intros nodes ctx. unfold w_consume_hex_char, consume_hex_char. er. Qed.

Lemma e_element : same (w_consume_element op) consume_element.
Proof. intros nodes ctx. pose proof e_esc_char. pose proof e_hex_char. unfold w_consume_element, consume_element. er. Qed.

Lemma e_chars : forall f s, same (w_rec_consume_lit_esc_ch op f s) (rec_consume_lit_esc_ch f s).
Proof.
  pose proof e_element. induction f as [|f IH]; intros s nodes ctx; [reflexivity|].
  cbn [w_rec_consume_lit_esc_ch rec_consume_lit_esc_ch]. er; apply IH.
Qed.

Lemma e_literal_esc : forall f, same (w_consume_literal_esc op f) (consume_literal_esc f).
Proof.
  intros f nodes ctx. pose proof e_quote. pose proof (e_chars f []). unfold w_consume_literal_esc, consume_literal_esc. er.
Qed.

Lemma e_literal_no_esc : same (w_consume_literal_no_esc op) consume_literal_no_esc.
Proof. intros nodes ctx. pose proof e_single_quote. unfold w_consume_literal_no_esc, consume_literal_no_esc. er. Qed.

Lemma e_literal : forall f, same (w_consume_literal_string op f) (consume_literal_string f).
Proof.
  intros f nodes ctx. pose proof e_literal_no_esc. pose proof (e_literal_esc f).
  unfold w_consume_literal_string, consume_literal_string. er.
Qed.

Lemma e_literal_expr : forall f, same (w_consume_literal_expr op f) (consume_literal_expr f).
Proof. intros f nodes ctx. pose proof (e_literal f). unfold w_consume_literal_expr, consume_literal_expr. er. Qed.

Lemma e_dot : same (w_consume_dot op) consume_dot.
Proof. intros nodes ctx. unfold w_consume_dot, consume_dot. er. Qed.

Lemma e_rule_ref : forall f, same (w_consume_rule_ref op f) (consume_rule_ref f).
Proof. intros f nodes ctx. pose proof (e_rule_name f). unfold w_consume_rule_ref, consume_rule_ref. er. Qed.

Lemma e_mchars : same (w_consume_mchars op) consume_mchars.
Proof. intros nodes ctx. unfold w_consume_mchars, consume_mchars. er. Qed.
Lemma e_mbetween : same (w_consume_mbetween op) consume_mbetween.
Proof. intros nodes ctx. unfold w_consume_mbetween, consume_mbetween. er. Qed.

Lemma e_betweens : forall f acc, same (w_rec_consume_mbetween op f acc) (rec_consume_mbetween f acc).
Proof.
  pose proof e_mbetween. induction f as [|f IH]; intros acc nodes ctx; [reflexivity|].
  cbn [w_rec_consume_mbetween rec_consume_mbetween]. er; apply IH.
Qed.

Lemma e_match : forall f, same (w_consume_match op f) (consume_match f).
Proof.
  intros f nodes ctx. pose proof e_mchars. pose proof (e_betweens f []). unfold w_consume_match, consume_match. er.
Qed.

Lemma e_parenth : forall w c, same w c -> same (w_consume_parenth op w) (consume_parenth c).
Proof. intros w c H nodes ctx. unfold w_consume_parenth, consume_parenth. er. Qed.

Lemma e_atom : forall f, same (w_consume_atom op f) (consume_atom f).
Proof.
  intros f nodes ctx. pose proof (e_literal_expr f). pose proof (e_rule_ref f). pose proof e_dot. pose proof (e_match f).
  unfold w_consume_atom, consume_atom. er.
Qed.

Lemma e_atom_or_par : forall f w c, same w c -> same (w_consume_atom_or_par op f w) (consume_atom_or_par f c).
Proof.
  intros f w c H nodes ctx. pose proof (e_atom f). pose proof (e_parenth w c H). unfold w_consume_atom_or_par, consume_atom_or_par. er.
Qed.

Lemma e_rep_or_neg : forall w c, same w c -> same (w_consume_rep_or_neg op w) (consume_rep_or_neg c).
Proof.
  intros w c H nodes ctx. unfold w_consume_rep_or_neg, consume_rep_or_neg, w_neg_and_atom, neg_and_atom, w_atom_and_rep, atom_and_rep. er.
Qed.

Lemma e_error : forall f, same (w_consume_error op f) (consume_error f).
Proof. intros f nodes ctx. pose proof (e_literal f). unfold w_consume_error, consume_error. er. Qed.

Lemma e_rec_and : forall f w1 c1 w2 c2 acc, same w1 c1 -> same w2 c2 ->
  same (w_rec_consume_and op f w1 w2 acc) (rec_consume_and f c1 c2 acc).
Proof.
  induction f as [|f IH]; intros w1 c1 w2 c2 acc H1 H2 nodes ctx; [reflexivity|].
  cbn [w_rec_consume_and rec_consume_and]. er; apply IH; assumption.
Qed.

Lemma e_and : forall f w1 c1 w2 c2, same w1 c1 -> same w2 c2 -> same (w_consume_and op f w1 w2) (consume_and f c1 c2).
Proof.
  intros f w1 c1 w2 c2 H1 H2 nodes ctx. pose proof (e_rec_and f w1 c1 w2 c2 EovNone H1 H2). unfold w_consume_and, consume_and. er.
Qed.

Lemma e_rec_or : forall f w c acc, same w c -> same (w_rec_consume_or op f w acc) (rec_consume_or f c acc).
Proof.
  induction f as [|f IH]; intros w c acc H nodes ctx; [reflexivity|].
  cbn [w_rec_consume_or rec_consume_or]. er; apply IH; assumption.
Qed.

Lemma e_or : forall f w c, same w c -> same (w_consume_or op f w) (consume_or f c).
Proof.
  intros f w c H nodes ctx. pose proof (e_rec_or f w c EovNone H). unfold w_consume_or, consume_or. er.
Qed.

Lemma e_expr : forall f, same (w_consume_peg_expr op f) (consume_peg_expr f).
Proof.
  induction f as [|f IH]; intros nodes ctx; [reflexivity|]. cbn [w_consume_peg_expr consume_peg_expr].
  apply er_rule. intros n c. apply e_or, e_and; [|apply e_error]. apply e_rep_or_neg, e_atom_or_par, IH.
Qed.

Lemma e_rule : forall f, same (w_consume_rule op f) (consume_rule f).
Proof.
  intros f nodes ctx. pose proof (e_rule_name f). pose proof (e_expr f). unfold w_consume_rule, consume_rule. er.
Qed.

Lemma e_module : forall w c, same w c -> same (w_consume_module op w) (consume_module c).
Proof. intros w c H nodes ctx. pose proof e_mod_name. unfold w_consume_module, consume_module. er. Qed.

Lemma e_defs : forall f w1 c1 w2 c2 rs, same w1 c1 -> same w2 c2 ->
  same (w_rec_consume_rules_or_modules op f w1 w2 rs) (rec_consume_rules_or_modules f c1 c2 rs).
Proof.
  induction f as [|f IH]; intros w1 c1 w2 c2 rs H1 H2 nodes ctx; [reflexivity|].
  cbn [w_rec_consume_rules_or_modules rec_consume_rules_or_modules]. er; apply IH; assumption.
Qed.

Lemma e_grammar : forall f, same (w_consume_grammar op f) (consume_grammar f).
Proof.
  induction f as [|f IH]; intros nodes ctx; [reflexivity|]. cbn [w_consume_grammar consume_grammar].
  apply er_rule. intros n c. apply e_defs; [apply e_rule|apply e_module, IH].
Qed.

Lemma walk_same : forall f nodes, fst (w_rules_from_flat_ast op f nodes) = rules_from_flat_ast f nodes.
Proof.
  intros f nodes. unfold w_rules_from_flat_ast, rules_from_flat_ast. apply er_bind.
  - unfold w_consume_main, consume_main. apply er_rule. intros n c. apply e_grammar.
  - intros [[rs l] c]. destruct l; reflexivity.
Qed.

(** ** The tally is linear *)

Variable OP : forall a b, op a b <= a + b.

(** Within the budget [b]; a token left over is worth 10. *)
Definition within {A} (b : nat) (w : wres A) : Prop :=
  match fst w with Ok (_, rest, _) => snd w + 10 * length rest <= b | _ => snd w <= b end.

(** A walker that reads a token before it calls anything. *)
Definition tight {A} (w : walker A) : Prop := forall nodes ctx,
  match fst (w nodes ctx) with
  | Ok (_, rest, _) => snd (w nodes ctx) + 10 * length rest + 10 <= 10 * length nodes
  | _ => snd (w nodes ctx) <= 10 * length nodes + 2
  end.

(** A walker that may start with a call. *)
Definition loose {A} (w : walker A) : Prop := forall nodes ctx, within (10 * length nodes + 3) (w nodes ctx).

Lemma tight_loose : forall A (w : walker A), tight w -> loose w.
Proof.
  intros A w H nodes ctx. specialize (H nodes ctx). unfold within. destruct (fst (w nodes ctx)) as [[[v r] c]| | |]; lia.
Qed.

Lemma in_free : forall A X (o : pres X) (k : X -> wres A) b, (forall a, o = Ok a -> within b (k a)) ->
  within b (w_bind op (free o) k).
Proof.
  intros A X o k b H. unfold w_bind, free. cbn [fst snd]. destruct o as [a|e| |]; try (unfold within; cbn [fst snd]; lia).
  specialize (H a eq_refl). unfold within in *. cbn [fst snd]. pose proof (OP 0 (snd (k a))). destruct (fst (k a)) as [[[v r] c]| | |]; lia.
Qed.

Lemma in_tight : forall A X (w : walker X) nodes ctx (k : X * list fnode * context -> wres A) b, tight w ->
  10 * length nodes + 2 <= b ->
  (forall v rest c t, t + 10 * length rest + 10 <= 10 * length nodes -> within (b - t) (k (v, rest, c))) ->
  within b (w_bind op (w nodes ctx) k).
Proof.
  intros A X w nodes ctx k b T L H. specialize (T nodes ctx). unfold w_bind. destruct (fst (w nodes ctx)) as [[[v r] c]| | |] eqn:E;
    try (unfold within; cbn [fst snd]; lia).
  specialize (H v r c _ T). unfold within in *. cbn [fst snd]. pose proof (OP (snd (w nodes ctx)) (snd (k (v, r, c)))).
  destruct (fst (k (v, r, c))) as [[[v' r'] c']| | |]; lia.
Qed.

Lemma in_loose : forall A X (w : walker X) nodes ctx (k : X * list fnode * context -> wres A) b, loose w ->
  10 * length nodes + 3 <= b ->
  (forall v rest c t, t + 10 * length rest <= 10 * length nodes + 3 -> within (b - t) (k (v, rest, c))) ->
  within b (w_bind op (w nodes ctx) k).
Proof.
  intros A X w nodes ctx k b T L H. specialize (T nodes ctx). unfold within in T. unfold w_bind. destruct (fst (w nodes ctx)) as [[[v r] c]| | |] eqn:E;
    try (unfold within; cbn [fst snd]; lia).
  specialize (H v r c _ T). unfold within in *. cbn [fst snd]. pose proof (OP (snd (w nodes ctx)) (snd (k (v, r, c)))).
  destruct (fst (k (v, r, c))) as [[[v' r'] c']| | |]; lia.
Qed.

Lemma in_end : forall A (w : walker A) nodes ctx b, tight w -> 10 * length nodes + 2 <= b -> within b (w nodes ctx).
Proof. intros A w nodes ctx b T L. specialize (T nodes ctx). unfold within. destruct (fst (w nodes ctx)) as [[[v r] c]| | |]; lia. Qed.

Lemma in_end_loose : forall A (w : walker A) nodes ctx b, loose w -> 10 * length nodes + 3 <= b -> within b (w nodes ctx).
Proof. intros A w nodes ctx b T L. specialize (T nodes ctx). unfold within in *. destruct (fst (w nodes ctx)) as [[[v r] c]| | |]; lia. Qed.

Lemma in_ret : forall A (v : A) rest ctx b, 10 * length rest <= b -> within b (ret (v, rest, ctx)).
Proof. intros. unfold within. cbn [fst snd ret free]. lia. Qed.
Lemma in_fail : forall A e b, within b (@fail (A * list fnode * context) e).
Proof. intros. unfold within. cbn [fst snd fail free]. lia. Qed.
Lemma in_push : forall A d (w : wres A) b, within b w -> within b (w_push_err d w).
Proof. intros A d w b H. unfold within, w_push_err, push_err in *. cbn [fst snd]. destruct (fst w); cbn [map_err]; exact H. Qed.
Lemma in_called : forall A (w : wres A) b, 1 <= b -> within (b - 1) w -> within b (called w).
Proof. intros A w b L H. unfold within, called in *. cbn [fst snd]. destruct (fst w) as [[[v r] c]| | |]; lia. Qed.

Lemma start_length : forall n l r, ast_ (fconsume_node_start_rule_name n l) = Ok r -> length l = S (length r).
Proof.
  intros n l r H. unfold ast_ in H. destruct l as [|x l]; [discriminate|]. unfold fconsume_node_start_rule_name, fsplit_first_nodes in H. cbn [bind] in H.
  destruct x; cbn [bind map_err] in H; try discriminate. destruct (str_eqb name n); cbn [map_err] in H; [injection H as <-; reflexivity|discriminate].
Qed.
Lemma end_length : forall n l r, ast_ (fconsume_node_end_rule_name n l) = Ok r -> length l = S (length r).
Proof.
  intros n l r H. unfold ast_ in H. destruct l as [|x l]; [discriminate|]. unfold fconsume_node_end_rule_name, fsplit_first_nodes in H. cbn [bind] in H.
  destruct x; cbn [bind map_err] in H; try discriminate. destruct (str_eqb name n); cbn [map_err] in H; [injection H as <-; reflexivity|discriminate].
Qed.
Lemma this_length : forall v l r, ast_ (fconsume_this_value v l) = Ok r -> length l = S (length r).
Proof.
  intros v l r H. unfold ast_ in H. destruct l as [|x l]; [discriminate|]. unfold fconsume_this_value, fsplit_first_nodes in H. cbn [bind] in H.
  destruct x; cbn [fget_node_val bind map_err] in H; try discriminate. destruct (str_eqb v0 v); cbn [map_err] in H; [injection H as <-; reflexivity|discriminate].
Qed.
Lemma val_length : forall l v r, ast_ (fconsume_val l) = Ok (v, r) -> length l = S (length r).
Proof.
  intros l v r H. unfold ast_ in H. destruct l as [|x l]; [discriminate|]. unfold fconsume_val, fsplit_first_nodes in H. cbn [bind] in H.
  destruct x; cbn [map_err] in H; try discriminate. injection H as <- <-. reflexivity.
Qed.

Lemma tight_rule : forall A n (w : walker A), (forall nodes ctx, within (10 * length nodes + 9) (w nodes ctx)) ->
  tight (fun nodes ctx => w_consuming_rule op n nodes ctx w).
Proof.
  intros A n w H nodes ctx. unfold w_consuming_rule, called, w_push_err, push_err. cbn [fst snd].
  set (W := w_bind op (free_ast (fconsume_node_start_rule_name n nodes)) _).
  assert (Q : match fst W with
              | Ok (_, rest, _) => snd W + 10 * length rest + 11 <= 10 * length nodes
              | _ => snd W <= 10 * length nodes
              end).
  { unfold W, w_bind, free_ast, free. cbn [fst snd].
    destruct (ast_ (fconsume_node_start_rule_name n nodes)) as [l|e| |] eqn:E; cbn [fst snd]; try lia.
    apply start_length in E. specialize (H l ctx). unfold within in H.
    destruct (fst (w l ctx)) as [[[v r] c]|e| |] eqn:F; cbn [fst snd] in *; try (pose proof (OP 0 (snd (w l ctx))); lia).
    destruct (ast_ (fconsume_node_end_rule_name n r)) as [r2|e| |] eqn:G; cbn [fst snd ret free].
    - apply end_length in G. pose proof (OP 0 0). pose proof (OP (snd (w l ctx)) (op 0 0)). pose proof (OP 0 (op (snd (w l ctx)) (op 0 0))). lia.
    - pose proof (OP (snd (w l ctx)) 0). pose proof (OP 0 (op (snd (w l ctx)) 0)). lia.
    - pose proof (OP (snd (w l ctx)) 0). pose proof (OP 0 (op (snd (w l ctx)) 0)). lia.
    - pose proof (OP (snd (w l ctx)) 0). pose proof (OP 0 (op (snd (w l ctx)) 0)). lia. }
  destruct (fst W) as [[[v r] c]|e| |]; cbn [map_err]; lia.
Qed.

Ltac lens :=
  repeat match goal with
    | H : ast_ (fconsume_val _) = Ok ?p |- _ => is_var p; destruct p
    | H : ast_ (fconsume_val _) = Ok (_, _) |- _ => apply val_length in H
    | H : ast_ (fconsume_this_value _ _) = Ok _ |- _ => apply this_length in H
    end.

Ltac wk :=
  repeat first
    [ match goal with
      | |- within _ (w_bind _ (free_ast _) _) => apply in_free; intros ? ?; lens; cbv beta iota
      | |- within _ (w_bind _ (free _) _) => apply in_free; intros ? ?; lens; cbv beta iota
      | |- within _ (w_bind _ (ret _) _) => apply in_free; intros ? [= <-]; cbv beta iota
      | |- within _ (w_bind _ (fail _) _) => apply in_free; intros ? [=]
      | H : tight ?w |- within _ (w_bind _ (?w _ _) _) => apply (in_tight _ _ _ _ _ _ _ H); [lia|intros; cbv beta iota]
      | H : loose ?w |- within _ (w_bind _ (?w _ _) _) => apply (in_loose _ _ _ _ _ _ _ H); [lia|intros; cbv beta iota]
      | H : tight ?w |- within _ (?w _ _) => apply (in_end _ _ _ _ _ H); lia
      | H : loose ?w |- within _ (?w _ _) => apply (in_end_loose _ _ _ _ _ H); lia
      | |- within _ (ret _) => apply in_ret; lia
      | |- within _ (fail _) => apply in_fail
      | |- within _ (free Fuel) => unfold within; cbn [fst snd free]; lia
      | |- within _ (free Panic) => unfold within; cbn [fst snd free]; lia
      | |- within _ (w_push_err _ _) => apply in_push
      | |- within _ (called _) => apply in_called; [lia|]
      end
    | match goal with
      | |- context [match ?x with (_, _) => _ end] => is_var x; destruct x
      | |- context [if ?x then _ else _] => destruct x
      | |- context [match ?x with _ => _ end] => destruct x
      end ].

Lemma k_symbol : tight (w_consume_symbol op).
Proof. unfold w_consume_symbol. apply tight_rule. intros nodes ctx. wk. Qed.

Lemma k_mod_name : tight (w_consume_mod_name op).
Proof. pose proof k_symbol. unfold w_consume_mod_name. apply tight_rule. intros nodes ctx. wk. Qed.

Lemma k_dots : forall f acc, loose (w_rec_consume_dot_symbol op f acc).
Proof.
  pose proof k_symbol. induction f as [|f IH]; intros acc nodes ctx; cbn [w_rec_consume_dot_symbol]; wk.
  eapply in_end_loose; [apply IH|lia].
Qed.

Lemma k_get_dot : loose (w_get_dot_or_empty op).
Proof. intros nodes ctx. unfold w_get_dot_or_empty. wk. Qed.

Lemma k_rule_name : forall f, tight (w_consume_rule_name op f).
Proof.
  intros f. pose proof k_get_dot. pose proof k_symbol. pose proof (k_dots f []). unfold w_consume_rule_name. apply tight_rule.
  intros nodes ctx. wk.
Qed.

Lemma k_quote : tight (w_consume_quote op).
Proof. unfold w_consume_quote. apply tight_rule. intros nodes ctx. wk. Qed.
Lemma k_single_quote : tight (w_consume_single_quote op).
Proof. unfold w_consume_single_quote. apply tight_rule. intros nodes ctx. wk. Qed.
Lemma k_esc_char : tight (w_consume_esc_char op).
Proof. unfold w_consume_esc_char. apply tight_rule. intros nodes ctx. wk. Qed.
Lemma k_hex_char : tight (w_consume_hex_char op).
Proof. unfold w_consume_hex_char. apply tight_rule. intros nodes ctx. wk. Qed.

Lemma k_element : tight (w_consume_element op).
Proof.
  intros nodes ctx. destruct nodes as [|x l]; [cbn; lia|].
  assert (Q : match x with
              | FVal v => w_consume_element op (x :: l) ctx = (Ok (v, l, ctx), op 0 (op 0 0))
              | FBegin n =>
                  if str_eqb n (s_ "esc_char") then
                    w_consume_element op (x :: l) ctx = (fst (w_consume_esc_char op (x :: l) ctx), op 0 (snd (w_consume_esc_char op (x :: l) ctx)))
                  else if str_eqb n (s_ "hex_char") then
                    w_consume_element op (x :: l) ctx = (fst (w_consume_hex_char op (x :: l) ctx), op 0 (snd (w_consume_hex_char op (x :: l) ctx)))
                  else exists e, w_consume_element op (x :: l) ctx = (Err e, op 0 0)
              | _ => exists e, w_consume_element op (x :: l) ctx = (Err e, op 0 0)
              end).
  { assert (P : forall A B (a : A) (k : A -> walk B), w_bind op (free (Ok a)) k = (fst (k a), op 0 (snd (k a)))) by reflexivity.
    unfold w_consume_element. change (free_ast (fpeek_first_node (x :: l))) with (@free fnode (Ok x)). rewrite P. cbv beta.
    destruct x as [v|n|n|]; [reflexivity| |eexists; reflexivity|eexists; reflexivity].
    destruct (str_eqb n (s_ "esc_char")); [reflexivity|]. destruct (str_eqb n (s_ "hex_char")); [reflexivity|eexists; reflexivity]. }
  pose proof (k_esc_char (x :: l) ctx) as E. pose proof (k_hex_char (x :: l) ctx) as X. pose proof (OP 0 0). destruct x as [v|n|n|].
  - rewrite Q. cbn [fst snd length]. pose proof (OP 0 (op 0 0)). lia.
  - destruct (str_eqb n (s_ "esc_char")).
    + rewrite Q. cbn [fst snd]. pose proof (OP 0 (snd (w_consume_esc_char op (FBegin n :: l) ctx))).
      destruct (fst (w_consume_esc_char op (FBegin n :: l) ctx)) as [[[v r] c]| | |]; lia.
    + destruct (str_eqb n (s_ "hex_char")).
      * rewrite Q. cbn [fst snd]. pose proof (OP 0 (snd (w_consume_hex_char op (FBegin n :: l) ctx))).
        destruct (fst (w_consume_hex_char op (FBegin n :: l) ctx)) as [[[v r] c]| | |]; lia.
      * destruct Q as [e ->]. cbn [fst snd]. lia.
  - destruct Q as [e ->]. cbn [fst snd]. lia.
  - destruct Q as [e ->]. cbn [fst snd]. lia.
Qed.

Lemma k_chars : forall f s, loose (w_rec_consume_lit_esc_ch op f s).
Proof.
  pose proof k_element. induction f as [|f IH]; intros s nodes ctx; cbn [w_rec_consume_lit_esc_ch]; wk; (eapply in_end_loose; [apply IH|lia]).
Qed.

Lemma k_literal_esc : forall f, tight (w_consume_literal_esc op f).
Proof.
  intros f. pose proof k_quote. pose proof (k_chars f []). unfold w_consume_literal_esc. apply tight_rule. intros nodes ctx. wk.
Qed.

Lemma k_literal_no_esc : tight (w_consume_literal_no_esc op).
Proof. pose proof k_single_quote. unfold w_consume_literal_no_esc. apply tight_rule. intros nodes ctx. wk. Qed.

Lemma k_literal : forall f, tight (w_consume_literal_string op f).
Proof.
  intros f. pose proof k_literal_no_esc. pose proof (k_literal_esc f). unfold w_consume_literal_string. apply tight_rule. intros nodes ctx. wk.
Qed.

(** A tight walker followed by free steps that read nothing. *)
Lemma tight_map : forall A B (w : walker A) (g : A -> B), tight w ->
  tight (fun nodes ctx => w_bind op (w nodes ctx) (fun '(v, nodes, ctx) => ret (g v, nodes, ctx))).
Proof.
  intros A B w g H nodes ctx. specialize (H nodes ctx). unfold w_bind. destruct (fst (w nodes ctx)) as [[[v r] c]|e| |]; cbn [fst snd ret free]; try lia.
  pose proof (OP (snd (w nodes ctx)) 0). lia.
Qed.

Lemma tight_push : forall A d (w : walker A), tight w -> tight (fun nodes ctx => w_push_err d (w nodes ctx)).
Proof.
  intros A d w H nodes ctx. specialize (H nodes ctx). unfold w_push_err, push_err. cbn [fst snd].
  destruct (fst (w nodes ctx)) as [[[v r] c]|e| |]; cbn [map_err]; lia.
Qed.

Lemma k_literal_expr : forall f, tight (w_consume_literal_expr op f).
Proof. intro f. apply (tight_map _ _ _ lit (k_literal f)). Qed.

Lemma k_dot : tight (w_consume_dot op).
Proof. unfold w_consume_dot. apply tight_rule. intros nodes ctx. wk. Qed.

Lemma k_rule_ref : forall f, tight (w_consume_rule_ref op f).
Proof. intro f. apply tight_push. apply (tight_map _ _ _ ref_rule (k_rule_name f)). Qed.

Lemma k_mchars : tight (w_consume_mchars op).
Proof. unfold w_consume_mchars. apply tight_rule. intros nodes ctx. wk. Qed.
Lemma k_mbetween : tight (w_consume_mbetween op).
Proof. unfold w_consume_mbetween. apply tight_rule. intros nodes ctx. wk. Qed.

Lemma k_betweens : forall f acc, loose (w_rec_consume_mbetween op f acc).
Proof.
  pose proof k_mbetween. induction f as [|f IH]; intros acc nodes ctx; cbn [w_rec_consume_mbetween]; wk; (eapply in_end_loose; [apply IH|lia]).
Qed.

Lemma k_match : forall f, tight (w_consume_match op f).
Proof.
  intro f. pose proof (tight_map _ _ _ Some k_mchars) as M. pose proof (k_betweens f []). unfold w_consume_match. apply tight_rule.
  intros nodes ctx. wk.
  all: match goal with |- within _ (w_bind _ (w_bind _ (w_consume_mchars _ ?n ?c) _) _) => apply (in_tight _ _ _ n c _ _ M) end; [lia|intros; cbv beta iota].
  all: wk.
Qed.

Lemma k_parenth : forall w, tight w -> tight (w_consume_parenth op w).
Proof. intros w H. unfold w_consume_parenth. apply tight_rule. intros nodes ctx. wk. Qed.

Lemma k_atom : forall f, tight (w_consume_atom op f).
Proof.
  intro f. pose proof (k_literal_expr f). pose proof (k_rule_ref f). pose proof k_dot. pose proof (k_match f).
  unfold w_consume_atom. apply tight_rule. intros nodes ctx. wk.
Qed.

Lemma k_atom_or_par : forall f w, tight w -> tight (w_consume_atom_or_par op f w).
Proof.
  intros f w H. pose proof (k_atom f). pose proof (k_parenth w H). unfold w_consume_atom_or_par. apply tight_rule. intros nodes ctx. wk.
Qed.

Lemma k_rep_or_neg : forall w, tight w -> tight (w_consume_rep_or_neg op w).
Proof.
  intros w H. unfold w_consume_rep_or_neg. apply tight_rule. intros nodes ctx. unfold w_neg_and_atom, w_atom_and_rep. wk.
Qed.

Lemma k_error : forall f, tight (w_consume_error op f).
Proof.
  intro f. pose proof (k_literal f). unfold w_consume_error.
  apply (tight_map _ _ (fun nodes ctx => w_consuming_rule op (s_ "error") nodes ctx _) error_). apply tight_rule. intros nodes ctx. wk.
Qed.

Lemma called_tight : forall A (w : walker A) nodes ctx, tight w -> within (10 * length nodes + 3) (called (w nodes ctx)).
Proof.
  intros A w nodes ctx H. specialize (H nodes ctx). unfold within, called. cbn [fst snd]. destruct (fst (w nodes ctx)) as [[[v r] c]|e| |]; lia.
Qed.

Lemma k_rec_and : forall f w1 w2 acc, tight w1 -> tight w2 -> loose (w_rec_consume_and op f w1 w2 acc).
Proof.
  induction f as [|f IH]; intros w1 w2 acc H1 H2 nodes ctx; cbn [w_rec_consume_and]; [wk|].
  apply (called_tight _ (fun nodes ctx => w_consuming_rule op (s_ "and") nodes ctx _)). apply tight_rule. intros nodes' ctx'. wk.
  eapply in_end_loose; [apply IH; assumption|lia].
Qed.

Lemma k_and : forall f w1 w2, tight w1 -> tight w2 -> loose (w_consume_and op f w1 w2).
Proof.
  intros f w1 w2 H1 H2 nodes ctx. pose proof (k_rec_and f w1 w2 EovNone H1 H2). unfold w_consume_and. wk.
Qed.

Lemma k_rec_or : forall f w acc, loose w -> loose (w_rec_consume_or op f w acc).
Proof.
  induction f as [|f IH]; intros w acc H nodes ctx; cbn [w_rec_consume_or]; [wk|].
  apply (called_tight _ (fun nodes ctx => w_consuming_rule op (s_ "or") nodes ctx _)). apply tight_rule. intros nodes' ctx'. wk.
  all: eapply in_end_loose; [apply IH; assumption|lia].
Qed.

Lemma k_or : forall f w, loose w -> loose (w_consume_or op f w).
Proof. intros f w H nodes ctx. pose proof (k_rec_or f w EovNone H). unfold w_consume_or. wk. Qed.

Lemma k_expr : forall f, tight (w_consume_peg_expr op f).
Proof.
  induction f as [|f IH]; [intros nodes ctx; cbn; lia|]. intros nodes ctx. cbn [w_consume_peg_expr].
  apply (tight_rule _ (s_ "expr")). intros n c. eapply in_end_loose; [|lia].
  apply k_or, k_and; [|apply k_error]. apply k_rep_or_neg, k_atom_or_par, IH.
Qed.

Lemma k_rule : forall f, tight (w_consume_rule op f).
Proof.
  intro f. pose proof (k_rule_name f). pose proof (k_expr f). unfold w_consume_rule. apply tight_rule. intros nodes ctx. wk.
Qed.

Lemma k_module : forall w, tight w -> tight (w_consume_module op w).
Proof. intros w H. pose proof k_mod_name. unfold w_consume_module. apply tight_rule. intros nodes ctx. wk. Qed.

Lemma k_defs : forall f w1 w2 rs, tight w1 -> tight w2 -> loose (w_rec_consume_rules_or_modules op f w1 w2 rs).
Proof.
  induction f as [|f IH]; intros w1 w2 rs H1 H2 nodes ctx; cbn [w_rec_consume_rules_or_modules]; wk.
  - apply (in_tight _ _ _ _ _ _ _ (tight_map _ _ _ (fun ne => rules_add rs (fst ne) (snd ne)) H1)); [lia|]. intros. eapply in_end_loose; [apply IH; assumption|lia].
  - apply (in_tight _ _ _ _ _ _ _ (tight_map _ _ _ (fun m => rules_merge rs m) H2)); [lia|]. intros. eapply in_end_loose; [apply IH; assumption|lia].
Qed.

Lemma k_grammar : forall f, tight (w_consume_grammar op f).
Proof.
  induction f as [|f IH]; [intros nodes ctx; cbn; lia|]. intros nodes ctx. cbn [w_consume_grammar].
  apply (tight_rule _ (s_ "grammar")). intros n c. eapply in_end_loose; [|lia]. apply k_defs; [apply k_rule|apply k_module, IH].
Qed.

Lemma walk_linear : forall f nodes, snd (w_rules_from_flat_ast op f nodes) <= 10 * length nodes + 2.
Proof.
  intros f nodes. unfold w_rules_from_flat_ast.
  assert (T : tight (w_consume_main op f)).
  { unfold w_consume_main. apply tight_rule. intros n c. eapply in_end; [apply k_grammar|lia]. }
  specialize (T nodes context_new). unfold w_bind. destruct (fst (w_consume_main op f nodes context_new)) as [[[v r] c]|e| |]; cbn [snd]; try lia.
  pose proof (OP (snd (w_consume_main op f nodes context_new)) 0). destruct r; cbn [snd ret fail free]; lia.
Qed.
End Walk.
