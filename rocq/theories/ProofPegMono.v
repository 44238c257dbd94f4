(** More fuel never changes an answer of the token consumer or of [rules_from_peg]. *)
From Verif Require Import Base ModelAst ModelParser ModelPegRules ModelPeg ProofEngine.

Lemma le_map_err : forall E F A (g : E -> F) (m m' : outcome E A), le_out m m' -> le_out (map_err g m) (map_err g m').
Proof. intros E F A g m m' [H|H]; subst; [left; reflexivity|right; reflexivity]. Qed.

Definition le_cons {A} (c c' : consumer A) : Prop := forall nodes ctx, le_out (c nodes ctx) (c' nodes ctx).

Lemma le_consuming : forall A n nodes ctx (c c' : consumer A), le_cons c c' ->
  le_out (consuming_rule n nodes ctx c) (consuming_rule n nodes ctx c').
Proof.
  intros A n nodes ctx c c' H. unfold consuming_rule, push_err. apply le_map_err.
  apply le_bind; [apply le_out_refl|]. intro x. apply le_bind; [apply H|].
  intros [[r x2] c2]. apply le_out_refl.
Qed.

Create HintDb mono discriminated.
Ltac mono := repeat (first
  [ apply le_out_refl
  | match goal with |- le_out (?c _ _) (?d _ _) => let H := fresh in assert (H : le_cons c d) by (auto with mono nocore; fail); apply H end
  | assumption
  | match goal with H : le_cons ?c ?c' |- le_out (?c _ _) (?c' _ _) => apply H end
  | match goal with H : forall _, _ |- _ => apply H; solve [lia|assumption] end
  | apply le_consuming; intros ? ?
  | unfold push_err; apply le_map_err
  | apply le_bind; [|intros]
  | match goal with
    | |- context [match ?x with _ => _ end] => destruct x
    end ]).

Lemma dot_symbol_mono : forall f f' a, f <= f' -> le_cons (rec_consume_dot_symbol f a) (rec_consume_dot_symbol f' a).
Proof.
  induction f as [|f IH]; intros f' a L nodes ctx; [left; reflexivity|]. destruct f' as [|f']; [lia|].
  cbn [rec_consume_dot_symbol]. mono; apply IH; (lia || assumption).
Qed.
Local Hint Resolve dot_symbol_mono : mono.

Lemma rule_name_mono : forall f f', f <= f' -> le_cons (consume_rule_name f) (consume_rule_name f').
Proof. intros f f' L nodes ctx. unfold consume_rule_name. mono. Qed.
Local Hint Resolve rule_name_mono : mono.

Lemma lit_esc_ch_mono : forall f f' s, f <= f' -> le_cons (rec_consume_lit_esc_ch f s) (rec_consume_lit_esc_ch f' s).
Proof.
  induction f as [|f IH]; intros f' a L nodes ctx; [left; reflexivity|]. destruct f' as [|f']; [lia|].
  cbn [rec_consume_lit_esc_ch]. mono; apply IH; (lia || assumption).
Qed.
Local Hint Resolve lit_esc_ch_mono : mono.

Lemma literal_esc_mono : forall f f', f <= f' -> le_cons (consume_literal_esc f) (consume_literal_esc f').
Proof. intros f f' L nodes ctx. unfold consume_literal_esc. mono. Qed.
Local Hint Resolve literal_esc_mono : mono.

Lemma literal_string_mono : forall f f', f <= f' -> le_cons (consume_literal_string f) (consume_literal_string f').
Proof. intros f f' L nodes ctx. unfold consume_literal_string. mono. Qed.
Local Hint Resolve literal_string_mono : mono.

Lemma mbetween_mono : forall f f' a, f <= f' -> le_cons (rec_consume_mbetween f a) (rec_consume_mbetween f' a).
Proof.
  induction f as [|f IH]; intros f' a L nodes ctx; [left; reflexivity|]. destruct f' as [|f']; [lia|].
  cbn [rec_consume_mbetween]. mono; apply IH; (lia || assumption).
Qed.
Local Hint Resolve mbetween_mono : mono.

Lemma match_mono : forall f f', f <= f' -> le_cons (consume_match f) (consume_match f').
Proof.
  intros f f' L nodes ctx. unfold consume_match. apply le_consuming. intros n c.
  apply le_bind; [apply le_out_refl|intro n1]. apply le_bind; [apply le_out_refl|intro nd].
  apply le_bind; [apply le_out_refl|intro nm]. apply le_bind; [apply le_out_refl|intros [[om n2] c2]].
  apply le_bind; [apply mbetween_mono; assumption|intros [[vs n3] c3]]. apply le_out_refl.
Qed.
Local Hint Resolve match_mono : mono.

Lemma atom_mono : forall f f', f <= f' -> le_cons (consume_atom f) (consume_atom f').
Proof.
  intros f f' L nodes ctx. unfold consume_atom, consume_literal_expr, consume_rule_ref. mono.
Qed.
Local Hint Resolve atom_mono : mono.

Lemma atom_or_par_mono : forall f f' c c', f <= f' -> le_cons c c' ->
  le_cons (consume_atom_or_par f c) (consume_atom_or_par f' c').
Proof.
  intros f f' c c' L H nodes ctx. unfold consume_atom_or_par, consume_parenth. mono.
Qed.
Local Hint Resolve atom_or_par_mono : mono.

Lemma rep_or_neg_mono : forall c c', le_cons c c' -> le_cons (consume_rep_or_neg c) (consume_rep_or_neg c').
Proof. intros c c' H nodes ctx. unfold consume_rep_or_neg, atom_and_rep, neg_and_atom. mono. Qed.
Local Hint Resolve rep_or_neg_mono : mono.

Lemma error_mono : forall f f', f <= f' -> le_cons (consume_error f) (consume_error f').
Proof. intros f f' L nodes ctx. unfold consume_error. mono. Qed.
Local Hint Resolve error_mono : mono.

Lemma rec_and_mono : forall f f' c c' e e' a, f <= f' -> le_cons c c' -> le_cons e e' ->
  le_cons (rec_consume_and f c e a) (rec_consume_and f' c' e' a).
Proof.
  induction f as [|f IH]; intros f' c c' e e' a L Hc He nodes ctx; [left; reflexivity|]. destruct f' as [|f']; [lia|].
  cbn [rec_consume_and]. mono; apply IH; (lia || assumption).
Qed.
Local Hint Resolve rec_and_mono : mono.

Lemma rec_or_mono : forall f f' c c' a, f <= f' -> le_cons c c' ->
  le_cons (rec_consume_or f c a) (rec_consume_or f' c' a).
Proof.
  induction f as [|f IH]; intros f' c c' a L Hc nodes ctx; [left; reflexivity|]. destruct f' as [|f']; [lia|].
  cbn [rec_consume_or]. mono; apply IH; (lia || assumption).
Qed.
Local Hint Resolve rec_or_mono : mono.

Lemma expr_mono : forall f f', f <= f' -> le_cons (consume_peg_expr f) (consume_peg_expr f').
Proof.
  induction f as [|f IH]; intros f' L nodes ctx; [left; reflexivity|]. destruct f' as [|f']; [lia|].
  cbn [consume_peg_expr]. apply le_consuming. intros n1 c1. unfold consume_or. apply le_map_err.
  apply le_bind; [|intros [[x n2] c2]; apply le_out_refl].
  apply rec_or_mono; [lia|]. intros n2 c2. unfold consume_and.
  apply le_bind; [|intros [[x n3] c3]; apply le_out_refl].
  apply rec_and_mono; [lia| |apply error_mono; lia].
  apply rep_or_neg_mono. apply atom_or_par_mono; [lia|]. apply IH. lia.
Qed.
Local Hint Resolve expr_mono : mono.

Lemma rule_mono : forall f f', f <= f' -> le_cons (consume_rule f) (consume_rule f').
Proof.
  intros f f' L nodes ctx. unfold consume_rule. mono.
Qed.
Local Hint Resolve rule_mono : mono.

Lemma defs_mono : forall f f' c c' m m' rs, f <= f' -> le_cons c c' -> le_cons m m' ->
  le_cons (rec_consume_rules_or_modules f c m rs) (rec_consume_rules_or_modules f' c' m' rs).
Proof.
  induction f as [|f IH]; intros f' c c' m m' rs L Hc Hm nodes ctx; [left; reflexivity|]. destruct f' as [|f']; [lia|].
  cbn [rec_consume_rules_or_modules]. mono; apply IH; (lia || assumption).
Qed.
Local Hint Resolve defs_mono : mono.

Lemma module_mono : forall c c', le_cons c c' -> le_cons (consume_module c) (consume_module c').
Proof. intros c c' H nodes ctx. unfold consume_module. mono. Qed.
Local Hint Resolve module_mono : mono.

Lemma grammar_mono : forall f f', f <= f' -> le_cons (consume_grammar f) (consume_grammar f').
Proof.
  induction f as [|f IH]; intros f' L nodes ctx; [left; reflexivity|]. destruct f' as [|f']; [lia|].
  cbn [consume_grammar]. apply le_consuming. apply defs_mono; [lia|apply rule_mono; lia|].
  apply module_mono. apply IH. lia.
Qed.
Local Hint Resolve grammar_mono : mono.

Lemma flat_ast_mono : forall f f' nodes, f <= f' -> le_out (rules_from_flat_ast f nodes) (rules_from_flat_ast f' nodes).
Proof.
  intros f f' nodes L. unfold rules_from_flat_ast, consume_main. apply le_bind.
  - apply le_consuming. apply grammar_mono. assumption.
  - intros [[rs n] c]. apply le_out_refl.
Qed.

Lemma rules_from_peg_mono : forall f f' s, f <= f' -> le_out (rules_from_peg f s) (rules_from_peg f' s).
Proof.
  intros f f' s L. unfold rules_from_peg. apply le_bind.
  - apply le_map_err. apply parse_with_debug_mono. assumption.
  - intro a. apply flat_ast_mono. assumption.
Qed.
