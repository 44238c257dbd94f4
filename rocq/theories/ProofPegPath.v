(** Errors of the token consumer name the constructs that are open where it stopped. *)
From Verif Require Import Base ModelAst ModelParser ModelPegRules ModelPeg SpecPos SpecSyntax SpecPegApi ProofParser ProofConsume.

(** [pre] opens exactly the constructs [p], whatever was open before. *)
Definition opens (pre : list fnode) (p : list str) : Prop := forall st, open_from st pre = st ++ p.

Definition step (nodes rest : list fnode) : Prop := exists pre, nodes = pre ++ rest /\ opens pre [].

Definition located (nodes : list fnode) (e : peg_error) : Prop :=
  exists pre post p, nodes = pre ++ post /\ opens pre p /\
    (constructs e = p \/ exists r, constructs e = p ++ [r] /\ hd_error post <> Some (FBegin r)).

Definition tracks {A} (nodes : list fnode) (m : cres A) : Prop :=
  match m with Ok (_, rest, _) => step nodes rest | Err e => located nodes e | _ => True end.

Definition good {A} (c : consumer A) : Prop := forall nodes ctx, tracks nodes (c nodes ctx).

Lemma open_app : forall a b st, open_from st (a ++ b) = open_from (open_from st a) b.
Proof. induction a as [|[v|n|n|] a IH]; intros b st; cbn; auto. Qed.

Lemma step_refl : forall l, step l l.
Proof. intro l. exists []. split; [reflexivity|]. intro st. cbn. rewrite app_nil_r. reflexivity. Qed.

Lemma step_trans : forall a b c, step a b -> step b c -> step a c.
Proof.
  intros a b c (p & -> & P) (q & -> & Q). exists (p ++ q). split; [apply app_assoc|].
  intro st. rewrite open_app, P, Q, !app_nil_r. reflexivity.
Qed.

Lemma step_val : forall v l, step (FVal v :: l) l.
Proof. intros v l. exists [FVal v]. split; [reflexivity|]. intro st. cbn. rewrite app_nil_r. reflexivity. Qed.

Lemma located_leaf : forall nodes e, descriptions e = [] -> located nodes e.
Proof.
  intros nodes e D. exists [], nodes, []. split; [reflexivity|]. split; [intro st; cbn; rewrite app_nil_r; reflexivity|].
  left. unfold constructs. rewrite D. reflexivity.
Qed.

Lemma located_step : forall a b e, step a b -> located b e -> located a e.
Proof.
  intros a b e (p & -> & P) (pre & post & q & -> & Q & C). exists (p ++ pre), post, q. split; [apply app_assoc|]. split; [|exact C].
  intro st. rewrite open_app, P, Q, app_nil_r. reflexivity.
Qed.

(** Composition. *)
Lemma tracks_bind : forall A B nodes (m : cres A) (k : A * list fnode * context -> cres B),
  tracks nodes m -> (forall a n c, step nodes n -> tracks n (k (a, n, c))) -> tracks nodes (bind m k).
Proof.
  intros A B nodes m k M K. destruct m as [[[a n] c]|e| |]; cbn in *; try exact I; [|exact M].
  specialize (K a n c M). destruct (k (a, n, c)) as [[[b n2] c2]|e| |]; cbn in *; try exact I.
  - eapply step_trans; eassumption.
  - eapply located_step; eassumption.
Qed.

Lemma tracks_pure : forall A B nodes (m : pres A) (k : A -> cres B),
  (forall e, m = Err e -> descriptions e = []) -> (forall a, m = Ok a -> tracks nodes (k a)) -> tracks nodes (bind m k).
Proof.
  intros A B nodes m k E K. destruct m as [a|e| |]; cbn; try exact I; [apply K; reflexivity|].
  apply located_leaf. apply E. reflexivity.
Qed.

Lemma tracks_nodes : forall B nodes (m : pres (list fnode)) (k : list fnode -> cres B),
  (forall e, m = Err e -> descriptions e = []) -> (forall n, m = Ok n -> step nodes n) ->
  (forall n, step nodes n -> tracks n (k n)) -> tracks nodes (bind m k).
Proof.
  intros B nodes m k E S K. destruct m as [n|e| |]; cbn; try exact I; [|apply located_leaf; apply E; reflexivity].
  specialize (S n eq_refl). specialize (K n S). destruct (k n) as [[[b n2] c2]|e| |]; cbn in *; try exact I.
  - eapply step_trans; eassumption.
  - eapply located_step; eassumption.
Qed.

Lemma tracks_val : forall A B nodes (m : pres (A * list fnode)) (k : A * list fnode -> cres B),
  (forall e, m = Err e -> descriptions e = []) -> (forall a n, m = Ok (a, n) -> step nodes n) ->
  (forall a n, step nodes n -> tracks n (k (a, n))) -> tracks nodes (bind m k).
Proof.
  intros A B nodes m k E S K. destruct m as [[a n]|e| |]; cbn; try exact I; [|apply located_leaf; apply E; reflexivity].
  specialize (S a n eq_refl). specialize (K a n S). destruct (k (a, n)) as [[[b n2] c2]|e| |]; cbn in *; try exact I.
  - eapply step_trans; eassumption.
  - eapply located_step; eassumption.
Qed.

Lemma ast_leaf : forall A (m : outcome ast_error A) e, ast_ m = Err e -> descriptions e = [].
Proof. intros A m e H. destruct m; cbn in H; try discriminate. injection H as <-. reflexivity. Qed.

Lemma val_step : forall nodes v n, ast_ (fconsume_val nodes) = Ok (v, n) -> step nodes n.
Proof.
  intros nodes v n H. destruct nodes as [|[x|x|x|] nodes]; cbn in H; try discriminate. injection H as <- <-. apply step_val.
Qed.

Lemma this_step : forall t nodes n, ast_ (fconsume_this_value t nodes) = Ok n -> step nodes n.
Proof.
  intros t nodes n H. destruct nodes as [|[x|x|x|] nodes]; cbn in H; try discriminate.
  destruct (str_eqb x t); cbn in H; [|discriminate]. injection H as <-. apply step_val.
Qed.

Lemma push_note : forall A d nodes (m : cres A), construct d = None -> tracks nodes m -> tracks nodes (push_err d m).
Proof.
  intros A d nodes m D M. destruct m as [[[a n] c]|e| |]; cbn in *; try exact I; [exact M|].
  destruct M as (pre & post & p & E & O & C). exists pre, post, p. split; [exact E|]. split; [exact O|].
  unfold constructs in *. cbn [descriptions map err_ipush some_only]. rewrite D. exact C.
Qed.

Lemma note_head : forall c s, c <> 99%N -> construct (c :: s) = None.
Proof.
  intros c s N. unfold construct. cbn [firstn]. change (s_ "consuming ") with (99%N :: s_ "onsuming ").
  cbn [str_eqb]. destruct (N.eqb_spec c 99); [contradiction|]. reflexivity.
Qed.

Lemma construct_rule : forall n, str_eqb n (s_ "symbol rule_ref") = false -> construct (s_ "consuming " ++ n) = Some n.
Proof.
  intros n H. unfold construct.
  change (firstn 10 (s_ "consuming " ++ n)) with (s_ "consuming ").
  change (skipn 10 (s_ "consuming " ++ n)) with n.
  change (str_eqb (s_ "consuming ") (s_ "consuming ")) with true.
  change (str_eqb (s_ "consuming " ++ n) (s_ "consuming symbol rule_ref")) with (str_eqb n (s_ "symbol rule_ref")).
  rewrite H. reflexivity.
Qed.

Lemma tracks_rule : forall A n nodes ctx (c : consumer A), str_eqb n (s_ "symbol rule_ref") = false -> good c ->
  tracks nodes (consuming_rule n nodes ctx c).
Proof.
  intros A n nodes ctx c N G. unfold consuming_rule.
  assert (P : forall e, constructs (err_ipush e (s_ "consuming " ++ n)) = n :: constructs e).
  { intro e. unfold constructs. cbn [descriptions map err_ipush some_only]. rewrite construct_rule by exact N. reflexivity. }
  destruct (fconsume_node_start_rule_name n nodes) as [rest|e| |] eqn:S; cbn [ast_ map_err bind push_err]; try exact I.
  2:{ exists [], nodes, []. split; [reflexivity|]. split; [intro st; cbn; rewrite app_nil_r; reflexivity|]. right. exists n.
      split; [rewrite P; reflexivity|]. intro H. destruct nodes as [|x nodes]; [discriminate|]. cbn in H. injection H as ->.
      cbn in S. rewrite (proj2 (str_eqb_eq n n) eq_refl) in S. discriminate. }
  assert (E : nodes = FBegin n :: rest).
  { destruct nodes as [|[x|x|x|] nodes]; cbn in S; try discriminate. destruct (str_eqb x n) eqn:Q; [|discriminate].
    apply str_eqb_eq in Q. subst x. injection S as <-. reflexivity. }
  subst nodes. specialize (G rest ctx). destruct (c rest ctx) as [[[a n2] c2]|e| |]; cbn [bind map_err] in *; try exact I.
  - destruct G as (pre & -> & O). destruct (fconsume_node_end_rule_name n n2) as [n3|e| |] eqn:F; cbn [ast_ map_err bind]; try exact I.
    + assert (E : n2 = FEnd n :: n3).
      { destruct n2 as [|[x|x|x|] n2]; cbn in F; try discriminate. destruct (str_eqb x n) eqn:Q; [|discriminate].
        apply str_eqb_eq in Q. subst x. injection F as <-. reflexivity. }
      subst n2. exists (FBegin n :: pre ++ [FEnd n]). split; [cbn; rewrite <- app_assoc; reflexivity|].
      intro st. cbn [open_from]. rewrite open_app, O, app_nil_r. cbn. rewrite removelast_last, app_nil_r. reflexivity.
    + exists (FBegin n :: pre), n2, [n]. split; [reflexivity|]. split; [intro st; cbn; rewrite O, app_nil_r; reflexivity|].
      left. rewrite P. reflexivity.
  - destruct G as (pre & post & p & -> & O & C). exists (FBegin n :: pre), post, (n :: p). split; [reflexivity|].
    split; [intro st; cbn; rewrite O, <- app_assoc; reflexivity|]. rewrite P.
    destruct C as [->|(r & -> & H)]; [left; reflexivity|right; exists r; split; [reflexivity|exact H]].
Qed.

Lemma tracks_ok : forall A nodes (a : A) n c, step nodes n -> tracks nodes (Ok (a, n, c)).
Proof. intros; assumption. Qed.

Lemma tracks_err : forall A nodes s, @tracks A nodes (Err (error_peg_s s)).
Proof. intros. apply located_leaf. reflexivity. Qed.

Ltac leaf := let e := fresh in let X := fresh in intros e X; exact (ast_leaf _ _ _ X).

Ltac trk1 := cbv beta iota; match goal with
  | H : good ?c |- tracks _ (?c _ _) => apply H
  | |- tracks _ (Ok (_, _, _)) => apply tracks_ok; apply step_refl
  | |- tracks _ (Err (error_peg_s _)) => apply tracks_err
  | |- tracks _ Panic => exact I
  | |- tracks _ Fuel => exact I
  | |- tracks _ (consuming_rule _ _ _ _) => apply tracks_rule; [reflexivity|intros ? ?]
  | |- tracks _ (push_err _ _) => apply push_note; [apply note_head; discriminate|]
  | |- tracks _ (bind (ast_ (fconsume_val _)) _) =>
      apply tracks_val; [leaf|intros ? ?; apply val_step|intros ? ? _]
  | |- tracks _ (bind (ast_ (fconsume_this_value _ _)) _) =>
      apply tracks_nodes; [leaf|intros ?; apply this_step|intros ? _]
  | |- tracks _ (bind (ast_ _) _) => apply tracks_pure; [leaf|intros ? _]
  | |- tracks _ (bind _ _) => apply tracks_bind; [|intros ? ? ? _]
  | |- tracks _ (if ?b then _ else _) => destruct b
  | |- tracks _ (match ?x with _ => _ end) => destruct x
  end.
Ltac trk := repeat trk1.

Lemma good_symbol : good consume_symbol.
Proof. intros nodes ctx. unfold consume_symbol. trk. Qed.

Lemma good_mod_name : good consume_mod_name.
Proof. intros nodes ctx. unfold consume_mod_name. apply tracks_rule; [reflexivity|exact good_symbol]. Qed.

Lemma good_dot_symbol : forall f a, good (rec_consume_dot_symbol f a).
Proof.
  pose proof good_symbol. induction f as [|f IH]; intros a nodes ctx; [exact I|]. cbn [rec_consume_dot_symbol]. trk. apply IH.
Qed.

Lemma good_dot_or_empty : good get_dot_or_empty.
Proof. intros nodes ctx. unfold get_dot_or_empty. trk. Qed.

Lemma good_rule_name : forall f, good (consume_rule_name f).
Proof.
  intros f nodes ctx. pose proof good_dot_or_empty. pose proof good_symbol. pose proof (good_dot_symbol f []).
  unfold consume_rule_name. trk.
Qed.

Lemma good_quote : good consume_quote.
Proof. intros nodes ctx. unfold consume_quote. trk. Qed.
Lemma good_single_quote : good consume_single_quote.
Proof. intros nodes ctx. unfold consume_single_quote. trk. Qed.

Lemma good_esc_char : good consume_esc_char.
Proof.
  intros nodes ctx. unfold consume_esc_char. trk1. trk1. apply tracks_pure.
  - intros e H. repeat match type of H with (if ?b then _ else _) = _ => destruct b; [discriminate|] end. injection H as <-. reflexivity.
  - intros v _. trk.
Qed.

Lemma good_hex_char : good consume_hex_char.
Proof.
  intros nodes ctx. unfold consume_hex_char. trk1. trk1. cbv beta iota. destruct (slice_from _ 3) as [v|]; [|exact I]. apply tracks_pure.
  - intros e H. destruct (u8_from_str_radix_16 v); [discriminate|]. destruct (slice_from v 2); [|discriminate]. injection H as <-. reflexivity.
  - intros c _. trk.
Qed.

Lemma good_element : good consume_element.
Proof. intros nodes ctx. pose proof good_esc_char. pose proof good_hex_char. unfold consume_element. trk. Qed.

Lemma good_lit_esc_ch : forall f s, good (rec_consume_lit_esc_ch f s).
Proof.
  pose proof good_element. induction f as [|f IH]; intros s nodes ctx; [exact I|]. cbn [rec_consume_lit_esc_ch]. trk; apply IH.
Qed.

Lemma good_literal_esc : forall f, good (consume_literal_esc f).
Proof.
  intros f nodes ctx. pose proof good_quote. pose proof (good_lit_esc_ch f []). unfold consume_literal_esc. trk.
Qed.

Lemma good_literal_no_esc : good consume_literal_no_esc.
Proof. intros nodes ctx. pose proof good_single_quote. unfold consume_literal_no_esc. trk. Qed.

Lemma good_literal_string : forall f, good (consume_literal_string f).
Proof.
  intros f nodes ctx. pose proof (good_literal_esc f). pose proof good_literal_no_esc. unfold consume_literal_string. trk.
Qed.

Lemma good_dot : good consume_dot.
Proof. intros nodes ctx. unfold consume_dot. trk. Qed.

Lemma good_rule_ref : forall f, good (consume_rule_ref f).
Proof.
  intros f nodes ctx. pose proof (good_rule_name f). unfold consume_rule_ref. apply push_note; [reflexivity|]. trk.
Qed.

Lemma good_mchars : good consume_mchars.
Proof. intros nodes ctx. unfold consume_mchars. trk. Qed.

Lemma char_leaf : forall m s e, consume_char_or m s = Err e -> descriptions e = [].
Proof. intros m s e H. destruct s; cbn in H; [|discriminate]. injection H as <-. reflexivity. Qed.

Lemma good_mbetween : good consume_mbetween.
Proof.
  intros nodes ctx. unfold consume_mbetween. trk1. trk1. cbv beta iota.
  apply tracks_pure; [apply char_leaf|intros [x1 r1] _]. apply tracks_pure; [apply char_leaf|intros [x2 r2] _].
  apply tracks_pure; [apply char_leaf|intros [x3 r3] _]. trk.
Qed.

Lemma good_mbetweens : forall f a, good (rec_consume_mbetween f a).
Proof.
  pose proof good_mbetween. induction f as [|f IH]; intros s nodes ctx; [exact I|]. cbn [rec_consume_mbetween]. trk; apply IH.
Qed.

Lemma good_match : forall f, good (consume_match f).
Proof.
  intros f nodes ctx. pose proof good_mchars. pose proof (good_mbetweens f []). unfold consume_match.
  trk1. trk1. trk1. trk1. trk1; [trk|]. trk1; [trk|]. cbv beta iota.
  match goal with |- tracks _ (bind ?m _) => assert (L : forall e, m = Err e -> descriptions e = []) end.
  { intros e X. repeat match type of X with match ?x with _ => _ end = _ => destruct x end; try discriminate. injection X as <-. reflexivity. }
  apply tracks_pure; [exact L|intros e _]. trk.
Qed.

Lemma good_parenth : forall c, good c -> good (consume_parenth c).
Proof. intros c G nodes ctx. unfold consume_parenth. trk. Qed.

Lemma good_atom : forall f, good (consume_atom f).
Proof.
  intros f nodes ctx. pose proof (good_literal_string f). pose proof (good_rule_ref f). pose proof good_dot. pose proof (good_match f).
  unfold consume_atom, consume_literal_expr. trk.
Qed.

Lemma good_atom_or_par : forall f c, good c -> good (consume_atom_or_par f c).
Proof.
  intros f c G nodes ctx. pose proof (good_atom f). pose proof (good_parenth c G). unfold consume_atom_or_par. trk.
Qed.

Lemma good_rep_or_neg : forall c, good c -> good (consume_rep_or_neg c).
Proof.
  intros c G nodes ctx. unfold consume_rep_or_neg, atom_and_rep, neg_and_atom. trk.
  all: apply tracks_pure; [|intros ? _; trk].
  all: intros e H; unfold process_repetition_indicator in H;
    repeat match type of H with (if ?b then _ else _) = _ => destruct b; [discriminate|] end; injection H as <-; reflexivity.
Qed.

Lemma good_error : forall f, good (consume_error f).
Proof. intros f nodes ctx. pose proof (good_literal_string f). unfold consume_error. trk. Qed.

Lemma good_ands : forall f c e a, good c -> good e -> good (rec_consume_and f c e a).
Proof.
  induction f as [|f IH]; intros c e a Gc Ge nodes ctx; [exact I|]. cbn [rec_consume_and]. trk. apply IH; assumption.
Qed.

Lemma good_and : forall f c e, good c -> good e -> good (consume_and f c e).
Proof. intros f c e Gc Ge nodes ctx. pose proof (good_ands f c e EovNone Gc Ge). unfold consume_and. trk. Qed.

Lemma good_ors : forall f c a, good c -> good (rec_consume_or f c a).
Proof.
  induction f as [|f IH]; intros c a Gc nodes ctx; [exact I|]. cbn [rec_consume_or]. trk. apply IH; assumption.
Qed.

Lemma good_or : forall f c, good c -> good (consume_or f c).
Proof. intros f c Gc nodes ctx. pose proof (good_ors f c EovNone Gc). unfold consume_or. trk. Qed.

Lemma good_expr : forall f, good (consume_peg_expr f).
Proof.
  induction f as [|f IH]; intros nodes ctx; [exact I|]. cbn [consume_peg_expr]. apply tracks_rule; [reflexivity|].
  apply good_or. apply good_and; [|apply good_error]. apply good_rep_or_neg. apply good_atom_or_par. exact IH.
Qed.

Lemma good_rule : forall f, good (consume_rule f).
Proof. intros f nodes ctx. pose proof (good_rule_name f). pose proof (good_expr f). unfold consume_rule. trk. Qed.

Lemma good_module : forall c, good c -> good (consume_module c).
Proof.
  intros c G nodes ctx. pose proof good_mod_name. unfold consume_module. trk1. trk1; [trk|]. trk1. trk1; [trk|]. trk1. cbv beta iota.
  apply tracks_pure; [|intros x _; trk]. intros e X. match type of X with remove_module ?k _ = _ => destruct k end; cbn in X; [|discriminate].
  injection X as <-. reflexivity.
Qed.

Lemma good_defs : forall f cr cm rs, good cr -> good cm -> good (rec_consume_rules_or_modules f cr cm rs).
Proof.
  induction f as [|f IH]; intros cr cm rs Gr Gm nodes ctx; [exact I|]. cbn [rec_consume_rules_or_modules]. trk; apply IH; assumption.
Qed.

Lemma good_grammar : forall f, good (consume_grammar f).
Proof.
  induction f as [|f IH]; intros nodes ctx; [exact I|]. cbn [consume_grammar]. apply tracks_rule; [reflexivity|].
  apply good_defs; [apply good_rule|apply good_module; exact IH].
Qed.

(** Errors of the token consumer as a whole. *)
Lemma flat_ast_path : forall f nodes e, rules_from_flat_ast f nodes = Err e ->
  e = error_peg_s (s_ "expected empty nodes after processing main") \/
  (hd_error (descriptions e) = Some (s_ "consuming main") /\
   exists pre post, nodes = pre ++ post /\
     (constructs e = open pre \/ exists r, constructs e = open pre ++ [r] /\ hd_error post <> Some (FBegin r))).
Proof.
  intros f nodes e H. unfold rules_from_flat_ast in H.
  pose proof (tracks_rule _ (s_ "main") nodes context_new (consume_grammar f) eq_refl (good_grammar f)) as T.
  change (consuming_rule (s_ "main") nodes context_new (consume_grammar f)) with (consume_main f nodes context_new) in T.
  destruct (consume_main f nodes context_new) as [[[rs n] c]|e1| |] eqn:M; cbn in H; try discriminate.
  - left. destruct n; [discriminate|]. injection H as <-. reflexivity.
  - injection H as ->. right. split.
    + unfold consume_main, consuming_rule, push_err in M. destruct (bind _ _) as [x|e0| |]; cbn in M; try discriminate.
      injection M as <-. reflexivity.
    + destruct T as (pre & post & p & E & O & C). exists pre, post. split; [exact E|]. unfold open. rewrite (O []). exact C.
Qed.

(** Displaying an error. *)
Lemma display_path : forall dp da e,
  display_peg_error dp da e = flat_map (fun d => d ++ s_ " > ") (descriptions e) ++ display_peg_error dp da (root_cause e).
Proof.
  intros dp da. fix IH 1. intros [s [b|]|p|a]; cbn [display_peg_error descriptions root_cause flat_map app]; try reflexivity.
  rewrite IH. rewrite <- !app_assoc. reflexivity.
Qed.
