(** Every text of the written syntax is parsed, in the contexts where it may occur, to a tree with its meaning. *)
From Verif Require Import Base ModelAst ModelParser ModelPegRules ModelPeg SpecPeg SpecSyntax ProofParser ProofEngine ProofAst ProofConsume PegTools PegNames PegLeaf ProofPegInv.

Scheme unit_text_mut := Induction for unit_text Sort Prop
  with item_text_mut := Induction for item_text Sort Prop
  with seq_text_mut := Induction for seq_text Sort Prop
  with choice_text_mut := Induction for choice_text Sort Prop
  with expr_text_mut := Induction for expr_text Sort Prop.
Combined Scheme expr_text_ind5 from unit_text_mut, item_text_mut, seq_text_mut, choice_text_mut, expr_text_mut.
Scheme def_text_mut := Induction for def_text Sort Prop
  with defs_text_mut := Induction for defs_text Sort Prop.
Combined Scheme def_text_ind2 from def_text_mut, defs_text_mut.

(* ------------------------------------------------------------------------------------------- *)
(** * First chars *)

Definition expr_head (c : char) : Prop := In c [39%N; 34%N; 91%N; 40%N; 33%N; 46%N] \/ sym_start c.

Lemma atom_head : forall t e, atom_text t e -> exists c r, t = c :: r /\ expr_head c.
Proof.
  intros t e H. destruct H as [t v L|cs rg t (-> & _)|t N|].
  - destruct (lit_head t v L) as (c & r & -> & [->| ->]); eexists _, _; (split; [reflexivity|]); left; cbn; auto.
  - eexists _, _. split; [reflexivity|]. left. cbn. auto.
  - destruct (name_head t N) as (c & r & -> & [S| ->]); eexists _, _; (split; [reflexivity|]); [right; exact S|left; cbn; auto 10].
  - eexists _, _. split; [reflexivity|]. left. cbn. auto 10.
Qed.
Lemma unit_head : forall t e, unit_text t e -> exists c r, t = c :: r /\ expr_head c.
Proof. intros t e H. destruct H as [t e H|b1 t b2 e B1 H B2]; [eapply atom_head; exact H|]. eexists _, _. split; [reflexivity|]. left. cbn. auto. Qed.
Lemma item_head : forall t e, item_text t e -> exists c r, t = c :: r /\ expr_head c.
Proof.
  intros t e H. destruct H as [t e H|t e H|t e H|t e H|t e H]; try (destruct (unit_head t e H) as (c & r & -> & E); eexists _, _; split; [reflexivity|exact E]).
  eexists _, _. split; [reflexivity|]. left. cbn. auto 10.
Qed.
Lemma seq_head : forall t es, seq_text t es -> exists c r, t = c :: r /\ expr_head c.
Proof.
  intros t es H. destruct H as [t v (b1 & b2 & l & b3 & _ & _ & _ & _ & ->)|t e H _|t e sp r es H _ _ _].
  - eexists _, _. split; [reflexivity|]. right. right. left. split; discriminate.
  - eapply item_head; exact H.
  - destruct (item_head t e H) as (c & y & -> & E). eexists _, _. split; [reflexivity|exact E].
Qed.
Lemma choice_head : forall t es, choice_text t es -> exists c r, t = c :: r /\ expr_head c.
Proof.
  intros t es H. destruct H as [t es H|t es b1 b2 r xs H _ _ _ _]; destruct (seq_head t es H) as (c & y & -> & E); eexists _, _; (split; [reflexivity|exact E]).
Qed.
Lemma expr_text_head : forall t e, expr_text t e -> exists c r, t = c :: r /\ expr_head c.
Proof. intros t e H. destruct H as [t xs H]. eapply choice_head; exact H. Qed.

Lemma sym_start_no : forall c, sym_start c -> c <> 32%N /\ c <> 13%N /\ c <> 10%N /\ c <> 47%N /\ c <> 40%N /\ c <> 61%N /\ c <> 123%N /\ c <> 41%N /\ c <> 125%N /\ c <> 45%N /\ c <> 42%N /\ c <> 43%N /\ c <> 63%N /\ c <> 46%N /\ c <> 33%N /\ c <> 91%N /\ c <> 34%N /\ c <> 39%N.
Proof. intros c H. unfold sym_start, between in H. repeat split; intro E; subst c; lia. Qed.

Lemma expr_head_no : forall c, expr_head c -> c <> 32%N /\ c <> 13%N /\ c <> 10%N /\ c <> 47%N /\ c <> 61%N /\ c <> 123%N /\ c <> 42%N.
Proof.
  intros c [I|S]; [|apply sym_start_no in S; tauto]. cbn in I. repeat split; intro E; subst c; repeat (destruct I as [I|I]; [discriminate|]); exact I.
Qed.

Lemma expr_head_clean : forall c r, expr_head c -> clean (c :: r).
Proof. intros c r H. apply expr_head_no in H. destruct H as (H1 & H2 & H3 & H4 & _). apply clean_char; assumption. Qed.
Lemma sym_head_clean : forall c r, sym_start c \/ c = 46%N -> clean (c :: r).
Proof. intros c r [H|H]; [|subst; apply clean_char; discriminate]. apply sym_start_no in H. apply clean_char; tauto. Qed.

Lemma sym_char_no : forall c, sym_char c -> c <> 32%N /\ c <> 13%N /\ c <> 10%N /\ c <> 47%N /\ c <> 61%N /\ c <> 123%N /\ c <> 40%N /\ c <> 41%N /\ c <> 42%N /\ c <> 43%N /\ c <> 63%N /\ c <> 45%N.
Proof. intros c [H|[H|H]]; [apply sym_start_no in H; tauto| |]; subst; repeat split; discriminate. Qed.

(* ------------------------------------------------------------------------------------------- *)
(** * Contexts *)

Lemma blank_unique : forall b z b' z', blank b -> clean z -> blank b' -> clean z' -> b ++ z = b' ++ z' -> b = b' /\ z = z'.
Proof.
  intros b z b' z' B C B' C' E. destruct (blank_bwd b z B C) as [k M]. destruct (blank_bwd b' z' B' C') as [k' M']. rewrite E in M.
  pose proof (peg_det _ _ _ _ M _ M') as Q. injection Q as _ ->. split; [|reflexivity]. apply app_inv_tail in E. exact E.
Qed.

Lemma end_blank : forall r, rule_end r -> blank r.
Proof.
  intros r R. induction R as [e E|r R IH|c r C R IH _].
  - rewrite <- (app_nil_r e). constructor; [exact E|constructor].
  - constructor. exact IH.
  - constructor; assumption.
Qed.

(** First chars of what may follow an item. *)
Definition stop_head (c : char) : Prop := c = 32%N \/ c = 13%N \/ c = 10%N \/ c = 47%N \/ c = 41%N.

Lemma blank_stop : forall b c r, blank b -> b = c :: r -> stop_head c.
Proof. intros b c r B E. unfold stop_head. destruct (blank_head b c r B E) as [->|[[->| ->]| ->]]; cbn; auto. Qed.

Definition unit_follow (rest : str) : Prop := name_stop rest /\ hd_error rest <> Some 45%N.
Definition item_follow (rest : str) : Prop := exists c r, rest = c :: r /\ stop_head c.

Lemma stop_name : forall c r, stop_head c \/ c = 42%N \/ c = 43%N \/ c = 63%N \/ c = 40%N \/ c = 61%N \/ c = 123%N -> unit_follow (c :: r).
Proof.
  intros c r H. split; [split|].
  - intros d x E S. injection E as <- _. apply sym_char_no in S. unfold stop_head in H. intuition congruence.
  - intros d x E. injection E as E _. subst c. unfold stop_head in H. exfalso. intuition discriminate.
  - intro E. injection E as E. subst c. unfold stop_head in H. intuition discriminate.
Qed.
Lemma item_unit_follow : forall rest, item_follow rest -> unit_follow rest.
Proof. intros rest (c & r & -> & S). apply stop_name. auto. Qed.
Lemma sep_follow : forall sp rest, separator sp -> item_follow (sp ++ rest).
Proof.
  intros sp rest H. destruct (sep_head sp H) as (c & r & -> & K). exists c, (r ++ rest). split; [reflexivity|]. unfold stop_head.
  destruct K as [->|[->| ->]]; cbn; auto.
Qed.

(** What may follow a choice (without [slash]) or a sequence, after blanks. *)
Inductive goes_on (slash : bool) : str -> Prop :=
| go_par r : goes_on slash (41%N :: r)
| go_slash r : slash = true -> hd_error r <> Some 47%N -> hd_error r <> Some 42%N -> goes_on slash (47%N :: r)
| go_brace r : goes_on slash (125%N :: r)
| go_end : goes_on slash []
| go_header z ts r : peg PG header z (PMatch ts r) -> goes_on slash z.

Lemma header_head : forall z ts r, peg PG header z (PMatch ts r) -> exists c y, z = c :: y /\ (sym_start c \/ c = 46%N).
Proof.
  intros z ts r H. unfold header in H. apply inv_and_cons in H. destruct H as (t1 & s1 & t2 & -> & M & _). apply name_fwd in M.
  destruct M as (n & x & _ & _ & W & -> & _). destruct (name_head n W) as (c & y & -> & K). eexists _, _. split; [reflexivity|exact K].
Qed.

Lemma goes_clean : forall b z, goes_on b z -> clean z.
Proof.
  intros b z H. destruct H as [r|r _ N1 N2|r| |z ts r H].
  - apply clean_char; discriminate.
  - apply clean_slash; assumption.
  - apply clean_char; discriminate.
  - apply clean_nil.
  - destruct (header_head z ts r H) as (c & y & -> & K). apply sym_head_clean. exact K.
Qed.

Lemma goes_hd : forall b z c, goes_on b z -> hd_error z = Some c -> c <> 40%N /\ c <> 61%N /\ c <> 123%N /\ (b = false -> c <> 47%N).
Proof.
  intros b z c H E. destruct H as [r|r Q N1 N2|r| |z ts r H]; try (injection E as <-); try (repeat split; try discriminate; intros; congruence).
  destruct (header_head z ts r H) as (d & y & -> & K). injection E as <-. destruct K as [K|K]; [apply sym_start_no in K; tauto|subst; repeat split; discriminate].
Qed.

Definition follow (slash : bool) (rest : str) : Prop :=
  exists b z, rest = b ++ z /\ blank b /\ goes_on slash z /\ item_follow rest.

Lemma follow_item : forall b rest, follow b rest -> item_follow rest.
Proof. intros b rest (b0 & z & _ & _ & _ & H). exact H. Qed.

Lemma follow_weaken : forall rest, follow false rest -> follow true rest.
Proof.
  intros rest (b & z & E & B & K & F). exists b, z. split; [exact E|]. split; [exact B|]. split; [|exact F].
  destruct K as [r|r Q N1 N2|r| |z ts r H]; try discriminate; try (econstructor; eassumption); constructor.
Qed.

Lemma follow_blank_char : forall sl rest b c r, follow sl rest -> blank b -> clean (c :: r) -> rest = b ++ c :: r -> goes_on sl (c :: r).
Proof.
  intros sl rest b c r (b0 & z & E & B0 & K & _) B C E2. rewrite E in E2.
  destruct (blank_unique b0 z b (c :: r) B0 (goes_clean _ _ K) B C E2) as [_ <-]. exact K.
Qed.

Lemma decid_header : decid header.
Proof. apply decid_and. fa; [apply decid_name|apply decid_blank|]. apply decid_or. fa; apply decid_lit. Qed.
Lemma decid_one : decid (RuleName (s_ "_1")).
Proof. eapply decid_rule; [exact g_one|]. apply decid_or. fa; [apply decid_lit|apply decid_eol]. Qed.

Definition LF : nat := 40.

Lemma and_fails_on : forall sl z, goes_on sl z -> (exists ts r, peg PG header z (PMatch ts r)) \/ peg PG (RuleName (s_ "and")) z PFail.
Proof.
  intros sl z H. destruct H as [r|r _ _ _|r| |z ts r H]; [right|right|right|right|left; eauto].
  - apply (looks_fail PG LF _ (Some 41%N)); [reflexivity|vm_compute; reflexivity].
  - apply (looks_fail PG LF _ (Some 47%N)); [reflexivity|vm_compute; reflexivity].
  - apply (looks_fail PG LF _ (Some 125%N)); [reflexivity|vm_compute; reflexivity].
  - apply (looks_fail PG LF _ None); [reflexivity|vm_compute; reflexivity].
Qed.

Lemma cont_fails : forall sl rest, follow sl rest -> peg PG cont rest PFail.
Proof.
  intros sl rest (b & z & -> & B & K & _). unfold cont. destruct (decid_one (b ++ z)) as [F|(t1 & s1 & M1)]; [apply mk_and_fail1; exact F|].
  eapply mk_and_fail; [exact M1|]. destruct (decid_blank s1) as [F|(t2 & s2 & M2)]; [apply mk_and_fail1; exact F|].
  eapply mk_and_fail; [exact M2|]. destruct (sep_fwd _ _ _ _ _ M1 M2) as (sp & k1 & k2 & Sp & E & _ & _ & C).
  destruct (blank_unique b z sp s2 B (goes_clean _ _ K) (sep_blank sp Sp) C E) as [_ <-].
  destruct (and_fails_on _ _ K) as [(ts & r & Mh)|Fa].
  - apply mk_and_fail1. eapply peg_not_fail. exact Mh.
  - destruct (decid_header z) as [Fh|(ts & r & Mh)].
    + eapply mk_and_fail; [apply mk_not; exact Fh|]. apply mk_and_fail1. exact Fa.
    + apply mk_and_fail1. eapply peg_not_fail. exact Mh.
Qed.

Definition chain : expr := And [RuleName (s_ "_"); Simple (Literal (s_ "/")); RuleName (s_ "_"); RuleName (s_ "or")].

Lemma chain_fails : forall rest, follow false rest -> peg PG chain rest PFail.
Proof.
  intros rest (b & z & -> & B & K & _). destruct (blank_bwd b z B (goes_clean _ _ K)) as [k M]. eapply mk_and_fail; [exact M|].
  apply mk_and_fail1. apply peg_lit_fail. intros r ->. destruct (goes_hd _ _ 47%N K eq_refl) as (_ & _ & _ & N). apply N; reflexivity.
Qed.

(* ------------------------------------------------------------------------------------------- *)
(** * One step for each rule *)

Definition built_as {A} (nm : str) (T : node -> option A -> Prop) (s : str) (v : A) (rest : str) : Prop :=
  exists x, peg PG (RuleName nm) s (PMatch [x] rest) /\ T x (Some v).

Lemma atom_build : forall t e rest, atom_text t e -> unit_follow rest -> built_as (s_ "atom") t_atom (t ++ rest) e rest.
Proof.
  intros t e rest H [NS ND]. destruct H as [t v L|cs rg t C|t N|].
  - destruct (lit_bwd t v rest L) as (x & M & T). exists (Rule (s_ "atom") [x]). split; [|apply (ta_lit x (Some v)); exact T].
    eapply mk_rule; [exact g_atom|]. apply mk_or1. exact M.
  - destruct (class_bwd cs rg t rest C ND) as (x & M & T). exists (Rule (s_ "atom") [x]). split; [|apply ta_class; exact T].
    eapply mk_rule; [exact g_atom|]. cbn. destruct C as (-> & _). apply peg_or_next; [apply (looks_fail PG LF _ (Some 91%N)); [reflexivity|vm_compute; reflexivity]|].
    apply mk_or1. exact M.
  - destruct (name_bwd t rest N NS) as (x & M & T). exists (Rule (s_ "atom") [x]). split; [|apply ta_name; exact T].
    eapply mk_rule; [exact g_atom|]. cbn. destruct (name_head t N) as (c & r & -> & K).
    apply peg_or_next; [|apply peg_or_next; [|apply mk_or1; exact M]].
    + apply nomatch_fails; [apply decid_literal|]. intros ts r' M'. apply lit_fwd in M'. destruct M' as (y & o & _ & _ & Q).
      assert (X : c = ch_quote \/ c = ch_dquote).
      { destruct o as [v|]; [destruct Q as (t' & L & E); destruct (lit_head t' v L) as (d & z & -> & D); injection E as -> _; exact D|injection Q as -> _; auto]. }
      destruct K as [K|K]; [apply sym_start_no in K; unfold ch_quote, ch_dquote in X; intuition congruence|subst; destruct X; discriminate].
    + apply nomatch_fails; [apply decid_class_rule|]. intros ts r' M'. apply class_fwd in M'. destruct M' as (y & cs & rg & t' & _ & _ & (-> & _) & E).
      injection E as -> _. destruct K as [K|K]; [apply sym_start_no in K; tauto|discriminate].
  - exists (Rule (s_ "atom") [Rule (s_ "dot") [Val (s_ ".")]]). split; [|apply ta_dot].
    eapply mk_rule; [exact g_atom|]. cbn. apply peg_or_next; [apply (looks_fail PG LF _ (Some 46%N)); [reflexivity|vm_compute; reflexivity]|].
    apply peg_or_next; [apply (looks_fail PG LF _ (Some 46%N)); [reflexivity|vm_compute; reflexivity]|].
    apply peg_or_next; [|apply mk_or1; eapply mk_rule; [exact g_dot|]; apply mk_lit; reflexivity].
    apply nomatch_fails; [apply decid_name|]. intros ts r' M'. apply name_fwd in M'. destruct M' as (n & y & _ & _ & W & E & _).
    destruct W as [D|(r & -> & D)].
    + destruct (dotted_head n D) as (c & z & -> & S). injection E as <- _. apply sym_start_no in S. tauto.
    + destruct (dotted_head r D) as (c & z & -> & S). injection E as ->. destruct NS as [NS _]. apply (NS c (z ++ r') eq_refl). left. exact S.
Qed.

Lemma unit_atom : forall s e rest, built_as (s_ "atom") t_atom s e rest -> built_as (s_ "atom_or_par") t_unit s e rest.
Proof.
  intros s e rest (x & M & T). exists (Rule (s_ "atom_or_par") [x]). split; [|constructor; exact T].
  eapply mk_rule; [exact g_atom_or_par|]. apply mk_or1. exact M.
Qed.

Lemma unit_par : forall b1 t b2 e rest, blank b1 -> expr_text t e -> blank b2 ->
  built_as (s_ "expr") t_expr (t ++ b2 ++ s_ ")" ++ rest) e (b2 ++ s_ ")" ++ rest) ->
  built_as (s_ "atom_or_par") t_unit ((s_ "(" ++ b1 ++ t ++ b2 ++ s_ ")") ++ rest) e rest.
Proof.
  intros b1 t b2 e rest B1 W B2 (x & M & T). destruct (expr_text_head t e W) as (c & r & Et & Hc).
  destruct (blank_bwd b1 (t ++ b2 ++ s_ ")" ++ rest) B1) as [k1 M1]; [rewrite Et; apply expr_head_clean; exact Hc|].
  destruct (blank_bwd b2 (s_ ")" ++ rest) B2) as [k2 M2]; [apply clean_char; discriminate|].
  eexists. split; [|apply tu_par with (k1 := k1) (k2 := k2); exact T]. rewrite <- !app_assoc.
  eapply mk_rule; [exact g_atom_or_par|]. cbn. apply peg_or_next; [apply (looks_fail PG LF _ (Some 40%N)); [reflexivity|vm_compute; reflexivity]|].
  apply mk_or1. eapply mk_rule; [exact g_parenth|]. cbn.
  change ([Val ?a; ?b; ?c; ?d; ?e]) with ([Val a] ++ [b] ++ [c] ++ [d] ++ [e]).
  eapply mk_and; [apply mk_lit; reflexivity|]. eapply mk_and; [exact M1|]. eapply mk_and; [exact M|]. eapply mk_and; [exact M2|].
  apply peg_and_last. apply mk_or1. apply mk_lit. reflexivity.
Qed.

Definition suffix : expr := Or [Simple (Literal (s_ "*")); Simple (Literal (s_ "+")); Simple (Literal (s_ "?"))].

Lemma suffix_fails : forall rest, item_follow rest -> peg PG suffix rest PFail.
Proof.
  intros rest (c & r & -> & S). unfold suffix.
  repeat (apply peg_or_next; [apply peg_lit_fail; intros y E; injection E as E _; subst c; unfold stop_head in S; intuition discriminate|]). constructor.
Qed.

Lemma item_one : forall s e rest, built_as (s_ "atom_or_par") t_unit s e rest -> item_follow rest -> built_as (s_ "rep_or_neg") t_item s e rest.
Proof.
  intros s e rest (x & M & T) F. exists (Rule (s_ "rep_or_neg") [x]). split; [|constructor; exact T].
  eapply mk_rule; [exact g_rep_or_neg|]. cbn. apply mk_or1. change [x] with ([x] ++ []). eapply mk_and; [exact M|]. apply peg_and_last. apply mk_opt_none. apply suffix_fails. exact F.
Qed.

Lemma item_suffix : forall s e c rest f, built_as (s_ "atom_or_par") t_unit s e (c :: rest) ->
  (forall x, t_unit x (Some e) -> t_item (Rule (s_ "rep_or_neg") [x; Val [c]]) (Some (f e))) ->
  peg PG suffix (c :: rest) (PMatch [Val [c]] rest) -> built_as (s_ "rep_or_neg") t_item s (f e) rest.
Proof.
  intros s e c rest f (x & M & T) H S. exists (Rule (s_ "rep_or_neg") [x; Val [c]]). split; [|apply H; exact T].
  eapply mk_rule; [exact g_rep_or_neg|]. cbn. apply mk_or1. change [x; Val [c]] with ([x] ++ [Val [c]]). eapply mk_and; [exact M|].
  apply peg_and_last. apply mk_opt_some. exact S.
Qed.

Lemma item_not : forall s e rest, built_as (s_ "atom_or_par") t_unit s e rest -> built_as (s_ "rep_or_neg") t_item (s_ "!" ++ s) (Not e) rest.
Proof.
  intros s e rest (x & M & T). exists (Rule (s_ "rep_or_neg") [Val (s_ "!"); x]). split; [|apply (ti_not x (Some e)); exact T].
  eapply mk_rule; [exact g_rep_or_neg|]. cbn. apply peg_or_next; [apply (looks_fail PG LF _ (Some 33%N)); [reflexivity|vm_compute; reflexivity]|].
  apply mk_or1. change [Val (s_ "!"); x] with ([Val (s_ "!")] ++ [x]). eapply mk_and; [apply mk_lit; reflexivity|]. apply peg_and_last. exact M.
Qed.

Lemma seq_error : forall t v rest, error_text t v -> built_as (s_ "and") t_seq (t ++ rest) [Simple (AError v)] rest.
Proof.
  intros t v rest H. destruct (error_bwd t v rest H) as (x & M & T). exists (Rule (s_ "and") [x]). split; [|apply (tq_error x (Some v)); exact T].
  eapply mk_rule; [exact g_and|]. apply mk_or1. exact M.
Qed.

Lemma seq_one : forall s e rest, peg PG (RuleName (s_ "error")) s PFail -> built_as (s_ "rep_or_neg") t_item s e rest ->
  peg PG cont rest PFail -> built_as (s_ "and") t_seq s [e] rest.
Proof.
  intros s e rest F (x & M & T) C. exists (Rule (s_ "and") [x]). split; [|apply (tq_one x (Some e)); exact T].
  eapply mk_rule; [exact g_and|]. cbn. apply peg_or_next; [exact F|]. apply mk_or1. change [x] with ([x] ++ []). eapply mk_and; [exact M|].
  apply peg_and_last. change (@nil node) with (concat (@nil (list node))). apply mk_star; [constructor|exact C].
Qed.

Lemma seq_more : forall s e sp s2 es rest, peg PG (RuleName (s_ "error")) s PFail -> built_as (s_ "rep_or_neg") t_item s e (sp ++ s2) ->
  separator sp -> clean s2 -> peg PG header s2 PFail -> built_as (s_ "and") t_seq s2 es rest -> peg PG cont rest PFail -> built_as (s_ "and") t_seq s (e :: es) rest.
Proof.
  intros s e sp s2 es rest F (x & M & T) Sp Cl Fh (y & My & Ty) C. destruct (sep_bwd sp s2 Sp Cl) as (k1 & s1 & k2 & M1 & M2).
  exists (Rule (s_ "and") [x; b1_node k1; b_node k2; y]). split; [|apply (tq_more x e k1 k2 y (Some es)); assumption].
  eapply mk_rule; [exact g_and|]. cbn. fold header. fold cont. apply peg_or_next; [exact F|]. apply mk_or1. change ([x; ?a; ?b; ?c]) with ([x] ++ [a; b; c]). eapply mk_and; [exact M|].
  apply peg_and_last. replace [b1_node k1; b_node k2; y] with (concat [[b1_node k1] ++ [b_node k2] ++ [] ++ [y]]) by reflexivity.
  apply mk_star; [|exact C]. econstructor; [|constructor]. unfold cont. eapply mk_and; [exact M1|]. eapply mk_and; [exact M2|].
  eapply mk_and; [apply mk_not; exact Fh|]. apply peg_and_last. exact My.
Qed.

Lemma choice_one : forall s es rest, built_as (s_ "and") t_seq s es rest -> peg PG chain rest PFail -> built_as (s_ "or") t_choice s [seq_of es] rest.
Proof.
  intros s es rest (x & M & T) F. exists (Rule (s_ "or") [x]). split; [|apply (tch_one x (Some es)); exact T].
  eapply mk_rule; [exact g_or|]. cbn. change [x] with ([x] ++ []). eapply mk_and; [exact M|]. apply peg_and_last. apply mk_opt_none. exact F.
Qed.

Lemma choice_more : forall s es b1 b2 s2 xs rest, built_as (s_ "and") t_seq s es (b1 ++ s_ "/" ++ b2 ++ s2) -> blank b1 -> blank b2 ->
  clean (s_ "/" ++ b2 ++ s2) -> clean s2 -> built_as (s_ "or") t_choice s2 xs rest -> built_as (s_ "or") t_choice s (seq_of es :: xs) rest.
Proof.
  intros s es b1 b2 s2 xs rest (x & M & T) B1 B2 C1 C2 (y & My & Ty). destruct (blank_bwd b1 _ B1 C1) as [k1 M1]. destruct (blank_bwd b2 _ B2 C2) as [k2 M2].
  exists (Rule (s_ "or") [x; b_node k1; Val (s_ "/"); b_node k2; y]). split; [|apply (tch_more x es k1 k2 y (Some xs)); assumption].
  eapply mk_rule; [exact g_or|]. cbn. change ([x; ?a; ?b; ?c; ?d]) with ([x] ++ [a] ++ [b] ++ [c] ++ [d]). eapply mk_and; [exact M|].
  apply peg_and_last. apply mk_opt_some. eapply mk_and; [exact M1|]. eapply mk_and; [apply mk_lit; reflexivity|]. eapply mk_and; [exact M2|]. apply peg_and_last. exact My.
Qed.

Lemma expr_one : forall s xs rest, built_as (s_ "or") t_choice s xs rest -> built_as (s_ "expr") t_expr s (choice_of xs) rest.
Proof.
  intros s xs rest (x & M & T). exists (Rule (s_ "expr") [x]). split; [|apply (tx x (Some xs)); exact T].
  eapply mk_rule; [exact g_expr|]. exact M.
Qed.

Lemma par_follow : forall b r, blank b -> follow false (b ++ s_ ")" ++ r).
Proof.
  intros b r B. exists b, (41%N :: r). split; [reflexivity|]. split; [exact B|]. split; [constructor|].
  destruct b as [|c b]; [exists 41%N, r; split; [reflexivity|]; unfold stop_head; auto|]. exists c, (b ++ s_ ")" ++ r). split; [reflexivity|].
  exact (blank_stop _ _ _ B eq_refl).
Qed.

Lemma lit_expr : forall l v b rest, literal l v -> blank b -> exists x, peg PG (RuleName (s_ "expr")) (l ++ b ++ s_ ")" ++ rest) (PMatch [x] (b ++ s_ ")" ++ rest)).
Proof.
  intros l v b rest L B. pose proof (par_follow b rest B) as F. pose proof (follow_item _ _ F) as Fi.
  destruct (expr_one (l ++ b ++ s_ ")" ++ rest) [seq_of [Simple (Literal v)]] (b ++ s_ ")" ++ rest)) as (x & M & _); [|eauto].
  apply choice_one; [|apply chain_fails; exact F]. apply seq_one; [|apply item_one; [|exact Fi]|eapply cont_fails; exact F].
  - apply nomatch_fails; [apply decid_error|]. intros ts r M. eapply inv_nt in M; [|exact g_error]. destruct M as (k & -> & M). cbn in M.
    apply inv_and_cons in M. destruct M as (t1 & s1 & t2 & -> & M & _). apply inv_lit in M. destruct M as [_ E].
    destruct (lit_head l v L) as (c & y & -> & [->| ->]); discriminate.
  - apply unit_atom. apply atom_build; [constructor; exact L|apply item_unit_follow; exact Fi].
Qed.

(* ------------------------------------------------------------------------------------------- *)
(** * What a name at the start of an item is *)

Lemma name_item : forall t e rest, item_text t e -> item_follow rest -> forall ts rest', peg PG (RuleName (s_ "rule_name")) (t ++ rest) (PMatch ts rest') ->
  rest' = rest \/ exists c r, rest' = c :: r /\ (c = 42%N \/ c = 43%N \/ c = 63%N).
Proof.
  intros t e rest H F ts rest' M.
  assert (U : forall u x rest0, unit_text u x -> unit_follow rest0 -> peg PG (RuleName (s_ "rule_name")) (u ++ rest0) (PMatch ts rest') -> rest' = rest0).
  { clear. intros u x rest0 H [NS ND] M. destruct H as [u x A|b1 u b2 x B1 H B2].
    - destruct A as [u v L|cs rg u (-> & _)|u N|].
      + apply name_fwd in M. destruct M as (n & y & _ & _ & W & E & _). destruct (name_head n W) as (c & z & -> & K).
        destruct (lit_head u v L) as (d & w & -> & D). injection E as <- _. exfalso. unfold ch_quote, ch_dquote in D.
        destruct K as [K|K]; [apply sym_start_no in K; intuition congruence|subst; intuition discriminate].
      + apply name_fwd in M. destruct M as (n & y & _ & _ & W & E & _). destruct (name_head n W) as (c & z & -> & K). injection E as <- _. exfalso.
        destruct K as [K|K]; [apply sym_start_no in K; tauto|discriminate].
      + destruct (name_bwd u rest0 N NS) as (y & M2 & _). pose proof (peg_det _ _ _ _ M _ M2) as Q. injection Q as _ ->. reflexivity.
      + apply name_fwd in M. destruct M as (n & y & _ & _ & W & E & _). exfalso. destruct W as [D|(r & -> & D)].
        * destruct (dotted_head n D) as (c & z & -> & S). injection E as <- _. apply sym_start_no in S. tauto.
        * destruct (dotted_head r D) as (c & z & -> & S). injection E as ->. destruct NS as [NS _]. apply (NS c (z ++ rest') eq_refl). left. exact S.
    - apply name_fwd in M. destruct M as (n & y & _ & _ & W & E & _). destruct (name_head n W) as (c & z & -> & K). injection E as <- _. exfalso.
      destruct K as [K|K]; [apply sym_start_no in K; tauto|discriminate]. }
  destruct H as [t e H|t e H|t e H|t e H|t e H].
  - left. apply (U t e rest H (item_unit_follow _ F) M).
  - right. rewrite <- app_assoc in M. assert (Q : rest' = s_ "*" ++ rest) by (apply (U t e _ H); [apply stop_name; auto 10|exact M]). exists 42%N, rest. auto.
  - right. rewrite <- app_assoc in M. assert (Q : rest' = s_ "+" ++ rest) by (apply (U t e _ H); [apply stop_name; auto 10|exact M]). exists 43%N, rest. auto.
  - right. rewrite <- app_assoc in M. assert (Q : rest' = s_ "?" ++ rest) by (apply (U t e _ H); [apply stop_name; auto 10|exact M]). exists 63%N, rest. auto.
  - exfalso. apply name_fwd in M. destruct M as (n & y & _ & _ & W & E & _). destruct (name_head n W) as (c & z & -> & K). injection E as <- _.
    destruct K as [K|K]; [apply sym_start_no in K; tauto|discriminate].
Qed.

Lemma error_name_stop : forall b r, blank b -> unit_follow (b ++ 40%N :: r).
Proof.
  intros b r B. destruct b as [|c b]; [apply stop_name; auto 10|]. apply stop_name. left. exact (blank_stop _ _ _ B eq_refl).
Qed.

Lemma error_is_name : rule_name (s_ "error").
Proof.
  left. constructor. exists 101%N. eexists. split; [reflexivity|]. split; [right; left; split; discriminate|].
  repeat (apply Forall_cons; [left; right; left; split; discriminate|]). apply Forall_nil.
Qed.

(** If [error] matches at an item, then the item is the name [error] and what follows is the argument. *)
Lemma error_item : forall t e rest, item_text t e -> item_follow rest -> forall ts r, peg PG (RuleName (s_ "error")) (t ++ rest) (PMatch ts r) ->
  t = s_ "error" /\ exists b s, blank b /\ rest = b ++ 40%N :: s.
Proof.
  intros t e rest H F ts r M. eapply inv_nt in M; [|exact g_error]. destruct M as (k & -> & M). cbn in M.
  apply inv_and_cons in M. destruct M as (t1 & s1 & t2 & -> & M1 & M). apply inv_and_cons in M. destruct M as (t3 & s2 & t4 & -> & M2 & M).
  apply inv_and_cons in M. destruct M as (t5 & s3 & t6 & -> & M3 & _).
  apply inv_lit in M1. destruct M1 as [_ E]. apply blank_fwd in M2. destruct M2 as (b & k & B & -> & -> & _). apply inv_lit in M3. destruct M3 as [_ ->].
  destruct (name_bwd (s_ "error") (b ++ s_ "(" ++ s3) error_is_name (proj1 (error_name_stop b s3 B))) as (x & Mn & _). rewrite <- E in Mn.
  destruct (name_item t e rest H F _ _ Mn) as [Q|(c & y & Q & K)].
  - split; [|exists b, s3; auto]. rewrite <- Q in E. apply app_inv_tail in E. exact E.
  - exfalso. destruct b as [|d b]; [injection Q as <- _; intuition discriminate|]. injection Q as <- _. pose proof (blank_stop _ _ _ B eq_refl) as S.
    unfold stop_head in S. intuition congruence.
Qed.

Lemma header_item : forall t e rest, item_text t e -> item_follow rest ->
  (forall b c r, blank b -> (c = 61%N \/ c = 123%N) -> rest <> b ++ c :: r) -> peg PG header (t ++ rest) PFail.
Proof.
  intros t e rest H F N. apply nomatch_fails; [apply decid_header|]. intros ts r M. unfold header in M.
  apply inv_and_cons in M. destruct M as (t1 & s1 & t2 & -> & M1 & M). apply inv_and_cons in M. destruct M as (t3 & s2 & t4 & -> & M2 & M).
  apply inv_and_cons in M. destruct M as (t5 & s3 & t6 & -> & M3 & _).
  apply blank_fwd in M2. destruct M2 as (b & k & B & -> & -> & _).
  assert (X : exists c, (c = 61%N \/ c = 123%N) /\ s2 = c :: s3).
  { apply inv_or_cons in M3. destruct M3 as [M3|[_ M3]]; [apply inv_lit in M3; destruct M3 as [_ ->]; exists 61%N; auto|].
    apply inv_or_cons in M3. destruct M3 as [M3|[_ M3]]; [apply inv_lit in M3; destruct M3 as [_ ->]; exists 123%N; auto|destruct (inv_or_nil _ _ _ M3)]. }
  destruct X as (c & Hc & ->). destruct (name_item t e rest H F _ _ M1) as [Q|(d & y & Q & K)].
  - exact (N b c s3 B Hc (eq_sym Q)).
  - destruct b as [|x b]; [injection Q as <- _; intuition congruence|]. injection Q as <- _. pose proof (blank_stop _ _ _ B eq_refl) as S.
    unfold stop_head in S. intuition congruence.
Qed.

Lemma sep_item : forall sp s c r b, separator sp -> clean s -> blank b -> clean (c :: r) -> sp ++ s = b ++ c :: r -> sp = b /\ s = c :: r.
Proof. intros sp s c r b Sp C B C2 E. exact (blank_unique sp s b (c :: r) (sep_blank sp Sp) C B C2 E). Qed.

Lemma clean_eq_brace : forall c r, c = 61%N \/ c = 123%N -> clean (c :: r).
Proof. intros c r [->| ->]; apply clean_char; discriminate. Qed.

Lemma follow_no_eq : forall sl rest, follow sl rest -> forall b c r, blank b -> (c = 61%N \/ c = 123%N) -> rest <> b ++ c :: r.
Proof.
  intros sl rest F b c r B Hc E. pose proof (follow_blank_char sl rest b c r F B (clean_eq_brace c r Hc) E) as K.
  destruct (goes_hd _ _ c K eq_refl) as (_ & N1 & N2 & _). destruct Hc; contradiction.
Qed.

Lemma seq_no_header : forall r es rest, seq_text r es -> follow true rest -> peg PG header (r ++ rest) PFail.
Proof.
  intros r es rest H F. destruct H as [t v (b1 & b2 & l & b3 & B1 & B2 & L & B3 & ->)|t e H _|t e sp r es H Sp Hr _].
  - apply nomatch_fails; [apply decid_header|]. intros ts r M. unfold header in M.
    apply inv_and_cons in M. destruct M as (t1 & s1 & t2 & -> & M1 & M). apply inv_and_cons in M. destruct M as (t3 & s2 & t4 & -> & M2 & M).
    apply inv_and_cons in M. destruct M as (t5 & s3 & t6 & -> & M3 & _). rewrite <- !app_assoc in M1.
    destruct (name_bwd (s_ "error") (b1 ++ s_ "(" ++ b2 ++ l ++ b3 ++ s_ ")" ++ rest) error_is_name (proj1 (error_name_stop b1 _ B1))) as (x & Mn & _).
    pose proof (peg_det _ _ _ _ M1 _ Mn) as Q. injection Q as _ ->.
    destruct (blank_bwd b1 (s_ "(" ++ b2 ++ l ++ b3 ++ s_ ")" ++ rest) B1) as [k1 Mb]; [apply clean_char; discriminate|].
    pose proof (peg_det _ _ _ _ M2 _ Mb) as Q. injection Q as _ ->.
    apply inv_or_cons in M3. destruct M3 as [M3|[_ M3]]; [apply inv_lit in M3; destruct M3 as [_ M3]; discriminate|].
    apply inv_or_cons in M3. destruct M3 as [M3|[_ M3]]; [apply inv_lit in M3; destruct M3 as [_ M3]; discriminate|destruct (inv_or_nil _ _ _ M3)].
  - apply (header_item t e rest H (follow_item _ _ F)). exact (follow_no_eq true rest F).
  - rewrite <- !app_assoc. apply (header_item t e _ H); [apply sep_follow; exact Sp|].
    intros b c y B Hc E. destruct (seq_head r es Hr) as (d & w & -> & Hd).
    destruct (sep_item sp ((d :: w) ++ rest) c y b Sp (expr_head_clean d _ Hd) B (clean_eq_brace c y Hc) E) as [_ Q]. injection Q as -> _.
    apply expr_head_no in Hd. destruct Hc; intuition congruence.
Qed.

Lemma star_split : forall e s l r, star PG e s l r -> exists c, s = c ++ r.
Proof.
  intros e s l r St. induction St as [s|s t s1 ts r H1 H2 (c & ->)]; [exists []; reflexivity|]. apply peg_split in H1. destruct H1 as (d & ->). exists (d ++ c). apply app_assoc.
Qed.

(** An expression does not start with an empty literal. *)
Definition no_empty (t : str) : Prop := forall r, t = 39%N :: r -> exists c r', r = c :: r' /\ c <> 39%N.

Lemma no_empty_app : forall t r, t <> [] -> no_empty t -> no_empty (t ++ r).
Proof. intros t r N H y E. destruct t as [|c t]; [congruence|]. injection E as -> <-. destruct (H t eq_refl) as (d & z & -> & Q). exists d, (z ++ r). auto. Qed.
Lemma no_empty_hd : forall c r, c <> 39%N -> no_empty (c :: r).
Proof. intros c r N y E. injection E as E _. contradiction. Qed.
Lemma unit_no_empty : forall t e, unit_text t e -> no_empty t.
Proof.
  intros t e H. destruct H as [t e H|b1 t b2 e B1 H B2]; [|apply no_empty_hd; discriminate]. destruct H as [t v L|cs rg t (-> & _)|t N|].
  - destruct L as [body Nb Ni|t v D]; [|apply no_empty_hd; discriminate]. intros r E. injection E as <-. destruct body as [|c body]; [congruence|].
    exists c, (body ++ [ch_quote]). split; [reflexivity|]. intros ->. apply Ni. left. reflexivity.
  - apply no_empty_hd; discriminate.
  - destruct (name_head t N) as (c & r & -> & K). apply no_empty_hd. destruct K as [K|K]; [apply sym_start_no in K; tauto|subst; discriminate].
  - apply no_empty_hd; discriminate.
Qed.
Lemma item_no_empty : forall t e, item_text t e -> no_empty t.
Proof.
  intros t e H. destruct H as [t e H|t e H|t e H|t e H|t e H]; [eapply unit_no_empty; exact H| | | |apply no_empty_hd; discriminate];
  (apply no_empty_app; [destruct (unit_head t e H) as (c & r & -> & _); discriminate|eapply unit_no_empty; exact H]).
Qed.
Lemma seq_no_empty : forall t es, seq_text t es -> no_empty t.
Proof.
  intros t es H. destruct H as [t v (b1 & b2 & l & b3 & _ & _ & _ & _ & ->)|t e H _|t e sp r es H _ _ _].
  - apply no_empty_hd; discriminate.
  - eapply item_no_empty; exact H.
  - apply no_empty_app; [destruct (item_head t e H) as (c & y & -> & _); discriminate|eapply item_no_empty; exact H].
Qed.
Lemma expr_no_empty : forall t e, expr_text t e -> no_empty t.
Proof.
  intros t0 e0 H0. destruct H0 as [t' xs0 H]. destruct H as [t es H|t es b1 b2 r xs H _ _ _ _]; [eapply seq_no_empty; exact H|].
  apply no_empty_app; [destruct (seq_head t es H) as (c & y & -> & _); discriminate|eapply seq_no_empty; exact H].
Qed.

Lemma unit_paren : forall t e r, unit_text t e -> t = 40%N :: r -> exists b1 u b2 x, t = s_ "(" ++ b1 ++ u ++ b2 ++ s_ ")" /\ blank b1 /\ expr_text u x.
Proof.
  intros t e r H E. destruct H as [t e H|b1 t b2 e B1 H B2]; [|exists b1, t, b2, e; auto]. exfalso. destruct H as [t v L|cs rg t (-> & _)|t N|].
  - destruct (lit_head t v L) as (c & y & -> & [->| ->]); discriminate.
  - discriminate.
  - destruct (name_head t N) as (c & y & -> & K). injection E as -> _. destruct K as [K|K]; [apply sym_start_no in K; tauto|discriminate].
  - discriminate.
Qed.
Lemma seq_paren : forall t es r, seq_text t es -> t = 40%N :: r -> exists b1 u x w, t = s_ "(" ++ b1 ++ u ++ w /\ blank b1 /\ expr_text u x.
Proof.
  assert (I : forall t e r, item_text t e -> t = 40%N :: r -> exists b1 u x w, t = s_ "(" ++ b1 ++ u ++ w /\ blank b1 /\ expr_text u x).
  { intros t e r H E. destruct H as [t e H|t e H|t e H|t e H|t e H].
    - destruct (unit_paren t e r H E) as (b1 & u & b2 & x & -> & B & W). exists b1, u, x, (b2 ++ s_ ")"). auto.
    - destruct (unit_head t e H) as (c & y & Et & _). rewrite Et in E. injection E as -> _. destruct (unit_paren t e y H Et) as (b1 & u & b2 & x & -> & B & W).
      eexists b1, u, x, _. rewrite <- !app_assoc. split; [reflexivity|]. auto.
    - destruct (unit_head t e H) as (c & y & Et & _). rewrite Et in E. injection E as -> _. destruct (unit_paren t e y H Et) as (b1 & u & b2 & x & -> & B & W).
      eexists b1, u, x, _. rewrite <- !app_assoc. split; [reflexivity|]. auto.
    - destruct (unit_head t e H) as (c & y & Et & _). rewrite Et in E. injection E as -> _. destruct (unit_paren t e y H Et) as (b1 & u & b2 & x & -> & B & W).
      eexists b1, u, x, _. rewrite <- !app_assoc. split; [reflexivity|]. auto.
    - discriminate. }
  intros t es r H E. destruct H as [t v (b1 & b2 & l & b3 & _ & _ & _ & _ & ->)|t e H _|t e sp q es H _ _ _].
  - discriminate.
  - exact (I t e r H E).
  - destruct (item_head t e H) as (c & y & Et & _). rewrite Et in E. injection E as -> _. destruct (I t e y H Et) as (b1 & u & x & w & -> & B & W).
    eexists b1, u, x, _. rewrite <- !app_assoc. split; [reflexivity|]. auto.
Qed.

(** [error] does not match where the text is not an [error(..)]. *)
Lemma no_error_one : forall t e rest, item_text t e -> follow true rest -> peg PG (RuleName (s_ "error")) (t ++ rest) PFail.
Proof.
  intros t e rest H F. apply nomatch_fails; [apply decid_error|]. intros ts r M.
  destruct (error_item t e rest H (follow_item _ _ F) _ _ M) as (_ & b & s & B & E).
  assert (C : clean (40%N :: s)) by (apply clean_char; discriminate).
  pose proof (follow_blank_char true rest b 40%N s F B C E) as K. destruct (goes_hd _ _ 40%N K eq_refl) as (N & _). congruence.
Qed.

Lemma no_error_gen : forall t e sp r es rest, item_text t e -> separator sp -> seq_text r es -> ~ starts_with_error (t ++ sp ++ r) ->
  (forall y s7 w, r ++ rest = 40%N :: w -> peg PG (RuleName (s_ "atom_or_par")) (r ++ rest) (PMatch [y] s7) -> exists c, s7 = c ++ rest) ->
  peg PG (RuleName (s_ "error")) (t ++ sp ++ r ++ rest) PFail.
Proof.
  intros t e sp r es rest H Sp Hr NE X0. apply nomatch_fails; [apply decid_error|]. intros ts r0 M.
  destruct (error_item t e (sp ++ r ++ rest) H (sep_follow sp _ Sp) _ _ M) as (-> & _).
  destruct (seq_head r es Hr) as (d & w & Er & Hd).
  eapply inv_nt in M; [|exact g_error]. destruct M as (k & -> & M). cbn in M.
  apply inv_and_cons in M. destruct M as (t1 & s1 & t2 & -> & M1 & M). apply inv_and_cons in M. destruct M as (t3 & s2 & t4 & -> & M2 & M).
  apply inv_and_cons in M. destruct M as (t5 & s3 & t6 & -> & M3 & M). apply inv_and_cons in M. destruct M as (t7 & s4 & t8 & -> & M4 & M).
  apply inv_and_cons in M. destruct M as (t9 & s5 & t10 & -> & M5 & M). apply inv_and_cons in M. destruct M as (t11 & s6 & t12 & -> & M6 & M).
  apply inv_and_cons in M. destruct M as (t13 & s7 & t14 & -> & M7 & _).
  apply inv_lit in M1. destruct M1 as [_ E]. apply app_inv_head in E. subst s1.
  apply blank_fwd in M2. destruct M2 as (b1 & k1 & B1 & E & -> & C1). apply inv_lit in M3. destruct M3 as [_ ->].
  assert (Cr : clean (r ++ rest)) by (rewrite Er; apply expr_head_clean; exact Hd).
  destruct (blank_unique sp (r ++ rest) b1 _ (sep_blank sp Sp) Cr B1 C1 E) as [<- E2].
  apply blank_fwd in M4. destruct M4 as (b2 & k2 & B2 & -> & -> & C2). apply blank_fwd in M6. destruct M6 as (b3 & k3 & B3 & -> & -> & C3).
  apply inv_lit in M7. destruct M7 as [_ ->].
  apply lit_fwd in M5. destruct M5 as (y & o & -> & Tl & K).
  assert (Ml : exists y, peg PG (RuleName (s_ "atom_or_par")) (r ++ rest) (PMatch [y] s7)).
  { rewrite E2. assert (Mx : exists z, peg PG (RuleName (s_ "expr")) s4 (PMatch [z] (b3 ++ s_ ")" ++ s7))).
    { destruct o as [v|]; [destruct K as (l & L & ->); eapply lit_expr; eassumption|]. subst s4.
      pose proof (par_follow b3 s7 B3) as F. pose proof (follow_item _ _ F) as Fi.
      assert (M0 : exists z, peg PG (RuleName (s_ "literal")) ([ch_quote; ch_quote] ++ b3 ++ s_ ")" ++ s7) (PMatch [z] (b3 ++ s_ ")" ++ s7))).
      { eexists. eapply mk_rule; [exact g_literal|]. apply mk_or1. eapply mk_rule; [exact g_lit_noesc|]. cbn. eapply mk_and; [apply q1_bwd|].
        eapply mk_and; [|apply peg_and_last; apply q1_bwd]. apply mk_star; [constructor|]. apply mk_and_fail1. eapply peg_not_fail. apply q1_bwd. }
      destruct M0 as (z & M0). eexists. eapply mk_rule; [exact g_expr|]. cbn. eapply mk_rule; [exact g_or|]. cbn.
      eapply mk_and; [|apply peg_and_last; apply mk_opt_none; apply chain_fails; exact F].
      eapply mk_rule; [exact g_and|]. cbn. apply peg_or_next; [apply (looks_fail PG LF _ (Some 39%N)); [reflexivity|vm_compute; reflexivity]|]. apply mk_or1.
      eapply mk_and; [|apply peg_and_last; apply mk_star; [constructor|eapply cont_fails; exact F]].
      eapply mk_rule; [exact g_rep_or_neg|]. cbn. apply mk_or1. eapply mk_and; [|apply peg_and_last; apply mk_opt_none; apply suffix_fails; exact Fi].
      eapply mk_rule; [exact g_atom_or_par|]. cbn. apply mk_or1. eapply mk_rule; [exact g_atom|]. cbn. apply mk_or1. exact M0. }
    destruct Mx as (z & Mx). destruct (blank_bwd b2 s4 B2 C2) as [k4 M4]. destruct (blank_bwd b3 (s_ ")" ++ s7) B3) as [k5 M5]; [apply clean_char; discriminate|].
    eexists. eapply mk_rule; [exact g_atom_or_par|]. cbn. apply peg_or_next; [apply (looks_fail PG LF _ (Some 40%N)); [reflexivity|vm_compute; reflexivity]|].
    apply mk_or1. eapply mk_rule; [exact g_parenth|]. cbn. eapply mk_and; [apply mk_lit; reflexivity|].
    eapply mk_and; [exact M4|]. eapply mk_and; [exact Mx|]. eapply mk_and; [exact M5|]. apply peg_and_last. apply mk_or1. apply mk_lit. reflexivity. }
  destruct Ml as (z & Ml).
  pose proof (X0 _ _ _ E2 Ml) as X.
  destruct X as (c & ->). destruct o as [v|].
  - destruct K as (l & L & ->). apply NE. exists (s_ "error" ++ sp ++ s_ "(" ++ b2 ++ l ++ b3 ++ s_ ")"), v, c. split.
    + exists sp, b2, l, b3. repeat split; auto.
    + replace (s_ "(" ++ b2 ++ (l ++ b3 ++ s_ ")" ++ c ++ rest)) with ((s_ "(" ++ b2 ++ l ++ b3 ++ s_ ")" ++ c) ++ rest) in E2 by (rewrite <- !app_assoc; reflexivity).
      apply app_inv_tail in E2. rewrite E2, <- !app_assoc. reflexivity.
  - (* the parenthesis holds an empty literal: it is not an expression *)
    subst s4. destruct r as [|c0 r]; [discriminate|]. injection E2 as -> E2. destruct (seq_paren _ _ r Hr eq_refl) as (b & u & x0 & w0 & Eu & Bb & Wu).
    injection Eu as ->. destruct (expr_text_head u x0 Wu) as (h & y0 & Eh & Hh). rewrite <- !app_assoc in E2.
    assert (Cu : clean (u ++ w0 ++ rest)) by (rewrite Eh; apply expr_head_clean; exact Hh).
    destruct (blank_unique b (u ++ w0 ++ rest) b2 _ Bb Cu B2 C2 E2) as [_ Q].
    pose proof (no_empty_app u (w0 ++ rest) ltac:(rewrite Eh; discriminate) (expr_no_empty u x0 Wu)) as NEm.
    destruct (NEm _ Q) as (c1 & r1 & E1 & N1). injection E1 as <- _. apply N1. reflexivity.
Qed.

Lemma no_error_more : forall t e sp r es rest, item_text t e -> separator sp -> seq_text r es -> ~ starts_with_error (t ++ sp ++ r) ->
  (exists x, peg PG (RuleName (s_ "and")) (r ++ rest) (PMatch [x] rest)) -> peg PG (RuleName (s_ "error")) (t ++ sp ++ r ++ rest) PFail.
Proof.
  intros t e sp r es rest H Sp Hr NE (x & Mr). apply (no_error_gen t e sp r es rest H Sp Hr NE). intros z s7 w0 E2 Ml.
  eapply inv_nt in Mr; [|exact g_and]. destruct Mr as (k & _ & Mr). cbn in Mr. apply inv_or_cons in Mr. destruct Mr as [Mr|[_ Mr]].
    { exfalso. assert (Fe : peg PG (RuleName (s_ "error")) (r ++ rest) PFail) by (rewrite E2; apply (looks_fail PG LF _ (Some 40%N)); [reflexivity|vm_compute; reflexivity]).
      exact (fail_nomatch _ _ Fe _ _ Mr). }
    apply inv_or_cons in Mr. destruct Mr as [Mr|[_ Mr]]; [|destruct (inv_or_nil _ _ _ Mr)].
    apply inv_and_cons in Mr. destruct Mr as (u1 & v1' & u2 & -> & Mi & Mr). apply inv_and_cons in Mr. destruct Mr as (u3 & v2 & u4 & -> & Ms & Mr).
    apply inv_and_nil in Mr. destruct Mr as [-> <-]. apply inv_rep0 in Ms. destruct Ms as (ls & St & _ & _). destruct (star_split _ _ _ _ St) as (c1 & ->).
    eapply inv_nt in Mi; [|exact g_rep_or_neg]. destruct Mi as (k' & _ & Mi). cbn in Mi. apply inv_or_cons in Mi. destruct Mi as [Mi|[Fi Mi]].
    - apply inv_and_cons in Mi. destruct Mi as (w1 & v3 & w2 & -> & Ma & Mi). pose proof (peg_det _ _ _ _ Ml _ Ma) as Q. injection Q as _ ->.
      apply peg_split in Mi. destruct Mi as (c2 & ->). exists (c2 ++ c1). apply app_assoc.
    - exfalso. apply inv_or_cons in Mi. destruct Mi as [Mi|[_ Mi]]; [|destruct (inv_or_nil _ _ _ Mi)]. apply inv_and_cons in Mi. destruct Mi as (w1 & v3 & w2 & -> & Ma & _).
      apply inv_lit in Ma. destruct Ma as [_ Ma]. rewrite E2 in Ma. discriminate.
Qed.

(* ------------------------------------------------------------------------------------------- *)
(** * Expressions *)

Theorem expr_build :
  (forall t e, unit_text t e -> forall rest, unit_follow rest -> built_as (s_ "atom_or_par") t_unit (t ++ rest) e rest) /\
  (forall t e, item_text t e -> forall rest, item_follow rest -> built_as (s_ "rep_or_neg") t_item (t ++ rest) e rest) /\
  (forall t es, seq_text t es -> forall rest, follow true rest -> built_as (s_ "and") t_seq (t ++ rest) es rest) /\
  (forall t xs, choice_text t xs -> forall rest, follow false rest -> built_as (s_ "or") t_choice (t ++ rest) xs rest) /\
  (forall t e, expr_text t e -> forall rest, follow false rest -> built_as (s_ "expr") t_expr (t ++ rest) e rest).
Proof.
  apply expr_text_ind5.
  - intros t e H rest F. apply unit_atom. apply atom_build; assumption.
  - intros b1 t b2 e B1 W IH B2 rest F. apply unit_par; [exact B1|exact W|exact B2|]. apply IH. apply par_follow. exact B2.
  - intros t e H IH rest F. apply item_one; [|exact F]. apply IH. apply item_unit_follow. exact F.
  - intros t e H IH rest F. rewrite <- app_assoc. apply (item_suffix _ e 42%N rest (fun e => Repeat e 0 None)).
    + apply IH. apply stop_name. auto.
    + intros x T. apply (ti_star x (Some e) T).
    + apply mk_or1. apply mk_lit. reflexivity.
  - intros t e H IH rest F. rewrite <- app_assoc. apply (item_suffix _ e 43%N rest (fun e => Repeat e 1 None)).
    + apply IH. apply stop_name. auto.
    + intros x T. apply (ti_plus x (Some e) T).
    + apply peg_or_next; [apply peg_lit_fail; intros r E; discriminate|]. apply mk_or1. apply mk_lit. reflexivity.
  - intros t e H IH rest F. rewrite <- app_assoc. apply (item_suffix _ e 63%N rest (fun e => Repeat e 0 (Some 1))).
    + apply IH. apply stop_name. auto.
    + intros x T. apply (ti_opt x (Some e) T).
    + do 2 (apply peg_or_next; [apply peg_lit_fail; intros r E; discriminate|]). apply mk_or1. apply mk_lit. reflexivity.
  - intros t e H IH rest F. rewrite <- app_assoc. apply item_not. apply IH. apply item_unit_follow. exact F.
  - intros t v H rest F. apply seq_error. exact H.
  - intros t e H IH _ rest F. apply seq_one; [eapply no_error_one; eassumption|apply IH; eapply follow_item; exact F|eapply cont_fails; exact F].
  - intros t e sp r es H IH Sp Hr IHr NE rest F. pose proof (IHr rest F) as Br. rewrite <- !app_assoc.
    apply (seq_more _ e sp (r ++ rest) es rest).
    + eapply no_error_more; [exact H|exact Sp|exact Hr|exact NE|]. destruct Br as (x & M & _). eauto.
    + apply IH. apply sep_follow. exact Sp.
    + exact Sp.
    + destruct (seq_head r es Hr) as (c & y & -> & Hc). apply expr_head_clean. exact Hc.
    + eapply seq_no_header; eassumption.
    + exact Br.
    + eapply cont_fails; exact F.
  - intros t es H IH rest F. apply choice_one; [apply IH; apply follow_weaken; exact F|apply chain_fails; exact F].
  - intros t es b1 b2 r xs H IH B1 B2 N Hr IHr rest F. rewrite <- !app_assoc.
    destruct (choice_head r xs Hr) as (c & y & Er & Hc).
    assert (N1 : hd_error (b2 ++ r ++ rest) <> Some 47%N /\ hd_error (b2 ++ r ++ rest) <> Some 42%N).
    { destruct b2 as [|d b2]; [rewrite Er; cbn; apply expr_head_no in Hc; split; intro E; injection E as ->; intuition congruence|].
      split; [exact N|]. cbn. intro E. injection E as ->. pose proof (blank_stop _ _ _ B2 eq_refl) as S. unfold stop_head in S. intuition discriminate. }
    destruct N1 as [N1 N2]. apply (choice_more _ es b1 b2 (r ++ rest) xs rest).
    + apply IH. exists b1, (47%N :: b2 ++ r ++ rest). split; [reflexivity|]. split; [exact B1|]. split; [constructor; [reflexivity|exact N1|exact N2]|].
      destruct b1 as [|d b1]; [exists 47%N; eexists; split; [reflexivity|]; unfold stop_head; auto|].
      exists d; eexists; split; [reflexivity|]. exact (blank_stop _ _ _ B1 eq_refl).
    + exact B1.
    + exact B2.
    + apply clean_slash; assumption.
    + rewrite Er. apply expr_head_clean. exact Hc.
    + apply IHr. exact F.
  - intros t xs H IH rest F. apply expr_one. apply IH. exact F.
Qed.

(* ------------------------------------------------------------------------------------------- *)
(** * Definitions *)

(** What may follow a definition. *)
Inductive def_follow : str -> Prop :=
| dw_end : def_follow []
| dw_brace r : def_follow (125%N :: r)
| dw_header z ts r : peg PG header z (PMatch ts r) -> def_follow z.

Lemma def_follow_goes : forall z, def_follow z -> goes_on false z.
Proof. intros z H. destruct H as [|r|z ts r H]; [constructor|constructor|eapply go_header; exact H]. Qed.

Lemma def_header : forall t d z, def_text t d -> exists ts r, peg PG header (t ++ z) (PMatch ts r).
Proof.
  intros t d z H. destruct H as [n b1 b2 t e r b3 N B1 B2 W R B3|m b1 b2 t l r b3 S B1 B2 W R B3]; rewrite <- !app_assoc.
  - assert (F : unit_follow (b1 ++ s_ "=" ++ b2 ++ t ++ r ++ b3 ++ z)).
    { destruct b1 as [|c b1]; apply stop_name; [auto 10|]. left. exact (blank_stop _ _ _ B1 eq_refl). }
    destruct (name_bwd n _ N (proj1 F)) as (x & M & _). destruct (blank_bwd b1 (s_ "=" ++ b2 ++ t ++ r ++ b3 ++ z) B1) as [k M1]; [apply clean_char; discriminate|].
    eexists _, _. eapply mk_and; [exact M|]. eapply mk_and; [exact M1|]. apply peg_and_last. apply mk_or1. apply mk_lit. reflexivity.
  - assert (F : unit_follow (b1 ++ s_ "{" ++ b2 ++ t ++ s_ "}" ++ r ++ b3 ++ z)).
    { destruct b1 as [|c b1]; apply stop_name; [auto 10|]. left. exact (blank_stop _ _ _ B1 eq_refl). }
    destruct (name_bwd m _ (or_introl (dt_one m S)) (proj1 F)) as (x & M & _).
    destruct (blank_bwd b1 (s_ "{" ++ b2 ++ t ++ s_ "}" ++ r ++ b3 ++ z) B1) as [k M1]; [apply clean_char; discriminate|].
    eexists _, _. eapply mk_and; [exact M|]. eapply mk_and; [exact M1|]. apply peg_and_last. apply peg_or_next; [apply peg_lit_fail; intros y E; discriminate|].
    apply mk_or1. apply mk_lit. reflexivity.
Qed.

Lemma end_follow : forall r b z, rule_end r -> blank b -> def_follow z -> follow false (r ++ b ++ z).
Proof.
  intros r b z R B F. exists (r ++ b), z. split; [apply app_assoc|]. split; [apply blank_app; [apply end_blank; exact R|exact B]|].
  split; [apply def_follow_goes; exact F|]. destruct r as [|c r]; [destruct (end_nonempty [] R eq_refl)|]. exists c; eexists; split; [reflexivity|].
  exact (blank_stop _ _ _ (end_blank _ R) eq_refl).
Qed.

Lemma one_def_stops : forall z, z = [] \/ (exists r, z = 125%N :: r) -> peg PG one_def z PFail.
Proof.
  intros z [->|(r & ->)].
  - apply (looks_fail PG LF _ None); [reflexivity|vm_compute; reflexivity].
  - apply (looks_fail PG LF _ (Some 125%N)); [reflexivity|vm_compute; reflexivity].
Qed.

Theorem def_build :
  (forall t d, def_text t d -> forall b z, blank b -> def_follow z -> exists x, peg PG one_def (b ++ t ++ z) (PMatch [x] z) /\ t_def x (Some d)) /\
  (forall t l, defs_text t l -> forall b z, blank b -> z = [] \/ (exists r, z = 125%N :: r) ->
     exists x s1 ls, peg PG one_def (b ++ t ++ z) (PMatch [x] s1) /\ star PG one_def s1 ls z /\ t_defs (x :: concat ls) (Some l)).
Proof.
  destruct expr_build as (_ & _ & _ & _ & EB). apply def_text_ind2.
  - intros n b1 b2 t e r b3 N B1 B2 W R B3 b z B F. rewrite <- !app_assoc.
    destruct (name_head n N) as (c & y & En & Hc). destruct (expr_text_head t e W) as (c2 & y2 & Et & Hc2).
    destruct (blank_bwd b (n ++ b1 ++ s_ "=" ++ b2 ++ t ++ r ++ b3 ++ z) B) as [k0 M0]; [rewrite En; apply sym_head_clean; exact Hc|].
    assert (Fn : unit_follow (b1 ++ s_ "=" ++ b2 ++ t ++ r ++ b3 ++ z)).
    { destruct b1 as [|d b1]; apply stop_name; [auto 10|]. left. exact (blank_stop _ _ _ B1 eq_refl). }
    destruct (name_bwd n _ N (proj1 Fn)) as (xn & Mn & Tn).
    destruct (blank_bwd b1 (s_ "=" ++ b2 ++ t ++ r ++ b3 ++ z) B1) as [k1 M1]; [apply clean_char; discriminate|].
    destruct (blank_bwd b2 (t ++ r ++ b3 ++ z) B2) as [k2 M2]; [rewrite Et; apply expr_head_clean; exact Hc2|].
    destruct (EB t e W (r ++ b3 ++ z) (end_follow r b3 z R B3 F)) as (x & Mx & Tx).
    destruct (tail_bwd r b3 z R B3 (goes_clean _ _ (def_follow_goes z F))) as (k4 & s4 & k5 & M4 & M5).
    eexists. split; [|apply (tf_rule k0 xn n k1 k2 x (Some e) k4 k5); [exact Tn|exact Tx]].
    apply mk_or1. eapply mk_rule; [exact g_rule|]. cbn.
    change ([b_node k0; ?a; ?b; ?c; ?d; ?e; ?f; ?g]) with ([b_node k0] ++ [a] ++ [b] ++ [c] ++ [d] ++ [e] ++ [f] ++ [g]).
    eapply mk_and; [exact M0|]. eapply mk_and; [exact Mn|]. eapply mk_and; [exact M1|]. eapply mk_and; [apply mk_lit; reflexivity|].
    eapply mk_and; [exact M2|]. eapply mk_and; [exact Mx|]. eapply mk_and; [exact M4|]. apply peg_and_last. exact M5.
  - intros m b1 b2 t l r b3 S B1 B2 W IH R B3 b z B F. rewrite <- !app_assoc.
    pose proof S as (c & y & Em & Hc & _).
    destruct (blank_bwd b (m ++ b1 ++ s_ "{" ++ b2 ++ t ++ s_ "}" ++ r ++ b3 ++ z) B) as [k0 M0]; [rewrite Em; apply sym_head_clean; left; exact Hc|].
    assert (Fn : unit_follow (b1 ++ s_ "{" ++ b2 ++ t ++ s_ "}" ++ r ++ b3 ++ z)).
    { destruct b1 as [|d b1]; apply stop_name; [auto 10|]. left. exact (blank_stop _ _ _ B1 eq_refl). }
    destruct (symbol_bwd m _ S (proj1 (proj1 Fn))) as (xm & Mm & Tm).
    destruct (name_bwd m _ (or_introl (dt_one m S)) (proj1 Fn)) as (xn & Mn & _).
    destruct (blank_bwd b1 (s_ "{" ++ b2 ++ t ++ s_ "}" ++ r ++ b3 ++ z) B1) as [k1 M1]; [apply clean_char; discriminate|].
    assert (Ct : clean (t ++ s_ "}" ++ r ++ b3 ++ z)).
    { assert (Hd : exists c y, t = c :: y /\ (sym_start c \/ c = 46%N)).
      { clear - W. assert (D : forall t d, def_text t d -> exists c y, t = c :: y /\ (sym_start c \/ c = 46%N)).
        { clear. intros t d H. destruct H as [n b1 b2 t e r b3 N _ _ _ _ _|m b1 b2 t l r b3 (c & y & -> & S & _) _ _ _ _ _].
          - destruct (name_head n N) as (c & y & -> & K). eexists _, _. split; [reflexivity|exact K].
          - eexists _, _. split; [reflexivity|left; exact S]. }
        destruct W as [t d H|t d r l H _]; destruct (D t d H) as (c & y & -> & K); eexists _, _; (split; [reflexivity|exact K]). }
      destruct Hd as (c3 & y3 & -> & K3). apply sym_head_clean. exact K3. }
    destruct (blank_bwd b2 (t ++ s_ "}" ++ r ++ b3 ++ z) B2 Ct) as [k2 M2].
    destruct (IH [] (s_ "}" ++ r ++ b3 ++ z) bl_nil) as (x & s1 & ls & Mx & St & T); [right; eexists; reflexivity|]. cbn [app] in Mx.
    assert (Mg : peg PG (RuleName (s_ "grammar")) (t ++ s_ "}" ++ r ++ b3 ++ z) (PMatch [Rule (s_ "grammar") (x :: concat ls)] (s_ "}" ++ r ++ b3 ++ z))).
    { eapply mk_rule; [exact g_grammar|]. cbn. fold one_def. change (x :: concat ls) with ([x] ++ concat ls). eapply mk_plus; [exact Mx|exact St|].
      apply one_def_stops. right. eexists; reflexivity. }
    destruct (blank_bwd [] (s_ "}" ++ r ++ b3 ++ z) bl_nil) as [k3 M3]; [apply clean_char; discriminate|]. cbn [app] in M3.
    destruct (tail_bwd r b3 z R B3 (goes_clean _ _ (def_follow_goes z F))) as (k4 & s4 & k5 & M4 & M5).
    eexists. split; [|apply (tf_module k0 xm m k1 k2 (Rule (s_ "grammar") (x :: concat ls)) (Some l) k3 k4 k5); [exact Tm|constructor; exact T]].
    apply peg_or_next.
    { eapply mk_rule_fail; [exact g_rule|]. cbn. eapply mk_and_fail; [exact M0|]. eapply mk_and_fail; [exact Mn|]. eapply mk_and_fail; [exact M1|].
      apply mk_and_fail1. apply peg_lit_fail. intros ? E. discriminate. }
    apply mk_or1. eapply mk_rule; [exact g_module|]. cbn.
    change ([b_node k0; ?a; ?b; ?c; ?d; ?e; ?f; ?g; ?h; ?i]) with ([b_node k0] ++ [a] ++ [b] ++ [c] ++ [d] ++ [e] ++ [f] ++ [g] ++ [h] ++ [i]).
    eapply mk_and; [exact M0|]. eapply mk_and; [eapply mk_rule; [exact g_mod_name|exact Mm]|]. eapply mk_and; [exact M1|].
    eapply mk_and; [apply mk_lit; reflexivity|]. eapply mk_and; [exact M2|]. eapply mk_and; [exact Mg|]. eapply mk_and; [exact M3|].
    eapply mk_and; [apply mk_lit; reflexivity|]. eapply mk_and; [exact M4|]. apply peg_and_last. exact M5.
  - intros t d H IH b z B F. assert (Fz : def_follow z) by (destruct F as [->|(r & ->)]; constructor).
    destruct (IH b z B Fz) as (x & M & T). exists x, z, []. split; [exact M|]. split; [constructor|]. apply (tds_more x d [] (Some [])); [exact T|constructor].
  - intros t d r l H IH Hr IHr b z B F. destruct (IHr [] z bl_nil F) as (x2 & s2 & ls & M2 & St & T2). cbn [app] in M2.
    assert (Fr : def_follow (r ++ z)).
    { inversion Hr as [? d2 H2|t2 d2 r2 l2 H2 _]; subst; [destruct (def_header r d2 z H2) as (ts & y & Mh)|rewrite <- app_assoc; destruct (def_header t2 d2 (r2 ++ z) H2) as (ts & y & Mh)]; eapply dw_header; exact Mh. }
    destruct (IH b (r ++ z) B Fr) as (x & M & T). rewrite <- app_assoc. exists x, (r ++ z), ([x2] :: ls). split; [exact M|].
    split; [econstructor; eassumption|]. apply (tds_more x d (x2 :: concat ls) (Some l)); [exact T|exact T2].
Qed.

Theorem main_build : forall s l, grammar_text s l ->
  exists x, peg PG (RuleName (s_ "main")) s (PMatch [Rule (s_ "main") [x]] []) /\ t_grammar x (Some l).
Proof.
  intros s l (b & r & B & W & ->). destruct def_build as [_ DB]. destruct (DB r l W b [] B (or_introl eq_refl)) as (x & s1 & ls & M & St & T).
  rewrite app_nil_r in M. exists (Rule (s_ "grammar") (x :: concat ls)). split; [|constructor; exact T].
  eapply mk_rule; [exact g_main|]. eapply mk_rule; [exact g_grammar|]. cbn. fold one_def. change (x :: concat ls) with ([x] ++ concat ls).
  eapply mk_plus; [exact M|exact St|]. apply one_def_stops. left. reflexivity.
Qed.

