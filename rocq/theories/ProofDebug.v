(** Debug output determines what was printed. *)
From Verif Require Import Base ModelParser ModelPeg ModelDebug ProofParser ProofEngine ProofAst ProofGcode SpecRust ModelAst.

(** Nothing printed is the start of something else printed. *)
Definition pfree {A} (p : A -> str) : Prop := forall x y r r', p x ++ r = p y ++ r' -> x = y /\ r = r'.

(* ---- chars and strings ------------------------------------------------------------------- *)

(** Each char gives a code; codes are prefix-free and none starts with the closing quote. *)
Definition esc_in (q : char) (c : char) : str :=
  if N.eqb c q then [ch_bslash; q] else if N.eqb c ch_bslash then [ch_bslash; ch_bslash] else escape_plain c.

Ltac lits H := repeat match type of H with context [s_ ?x] => let v := eval vm_compute in (s_ x) in change (s_ x) with v in H end.

Lemma hex_digit_small : forall n, (n < 16)%N -> ((48 <= hex_digit n <= 57) \/ (97 <= hex_digit n <= 102))%N.
Proof. intros n H. unfold hex_digit. destruct (N.ltb_spec n 10); lia. Qed.

Lemma hex_digit_inj : forall n m, (n < 16)%N -> (m < 16)%N -> hex_digit n = hex_digit m -> n = m.
Proof. intros n m H1 H2. unfold hex_digit. destruct (N.ltb_spec n 10), (N.ltb_spec m 10); lia. Qed.

Lemma hex_short_free : forall c d r r', (c < 256)%N -> (d < 256)%N ->
  hex_short c ++ 125%N :: r = hex_short d ++ 125%N :: r' -> c = d /\ r = r'.
Proof.
  intros c d r r' Hc Hd. unfold hex_short.
  assert (Qc : (c / 16 < 16)%N) by (apply N.div_lt_upper_bound; lia). assert (Qd : (d / 16 < 16)%N) by (apply N.div_lt_upper_bound; lia).
  assert (Rc : (c mod 16 < 16)%N) by (apply N.mod_lt; lia). assert (Rd : (d mod 16 < 16)%N) by (apply N.mod_lt; lia).
  destruct (N.ltb_spec c 16) as [Lc|Lc], (N.ltb_spec d 16) as [Ld|Ld]; cbn [app]; intro H.
  - injection H as H1 H2. split; [apply hex_digit_inj; assumption|exact H2].
  - injection H as _ H2 _. pose proof (hex_digit_small _ Rd). lia.
  - injection H as _ H2 _. pose proof (hex_digit_small _ Rc). lia.
  - injection H as H1 H2 H3. split; [|exact H3]. apply hex_digit_inj in H1; try assumption. apply hex_digit_inj in H2; try assumption.
    rewrite (N.div_mod c 16), (N.div_mod d 16) by lia. rewrite H1, H2. reflexivity.
Qed.

(** The four shapes of a code. *)
Inductive coded (q c : char) : str -> Prop :=
| cd_short x : In (c, x) [(q, q); (ch_bslash, ch_bslash); (ch_nl, 110%N); (ch_cr, 114%N); (ch_tab, 116%N); (0%N, 48%N)] -> coded q c [ch_bslash; x]
| cd_hex : (c < 256)%N -> coded q c ([ch_bslash; 117; 123]%N ++ hex_short c ++ [125%N])
| cd_same : c <> q -> c <> ch_bslash -> coded q c [c].

Lemma esc_coded : forall q c, coded q c (esc_in q c).
Proof.
  intros q c. unfold esc_in, escape_plain.
  destruct (N.eqb_spec c q) as [->|N1]; [apply cd_short; cbn; auto|].
  destruct (N.eqb_spec c ch_bslash) as [->|N2]; [apply cd_short; cbn; auto|].
  destruct (N.eqb_spec c ch_nl) as [->|N3]; [apply cd_short; cbn; auto|].
  destruct (N.eqb_spec c ch_cr) as [->|N4]; [apply cd_short; cbn; auto|].
  destruct (N.eqb_spec c ch_tab) as [->|N5]; [apply cd_short; cbn; auto 6|].
  destruct (N.eqb_spec c 0) as [->|N6]; [apply cd_short; cbn; auto 8|].
  destruct (N.ltb c 32 || N.leb 127 c && N.leb c 160 || N.eqb c 173) eqn:E.
  - apply cd_hex. rewrite !orb_true_iff, andb_true_iff, N.ltb_lt, !N.leb_le, N.eqb_eq in E. lia.
  - apply cd_same; assumption.
Qed.

Lemma esc_free : forall q, In q [ch_quote; ch_dquote] -> pfree (esc_in q).
Proof.
  intros q Q c d r r' H. pose proof (esc_coded q c) as C. pose proof (esc_coded q d) as D.
  destruct C as [x I|L|N1 N2], D as [y J|L'|N1' N2']; cbn [app] in H.
  - injection H as E1 E2. split; [|exact E2]. subst y. clear r r' E2.
    destruct Q as [<-|[<-|[]]]; unfold ch_quote, ch_dquote, ch_bslash, ch_nl, ch_cr, ch_tab in *; cbn [In] in I, J;
    repeat (destruct I as [I|I]); try (destruct I; fail); repeat (destruct J as [J|J]); try (destruct J; fail); congruence.
  - injection H as E1 E2. exfalso. subst x. destruct Q as [<-|[<-|[]]]; cbn in I; repeat (destruct I as [I|I]; [injection I; discriminate|]); destruct I.
  - exfalso. injection H as E1 E2. congruence.
  - injection H as E1 E2. exfalso. subst y. destruct Q as [<-|[<-|[]]]; cbn in J; repeat (destruct J as [J|J]; [injection J; discriminate|]); destruct J.
  - injection H as H. rewrite <- !app_assoc in H. cbn [app] in H. apply hex_short_free in H; [exact H|lia|lia].
  - exfalso. injection H as E1 E2. congruence.
  - exfalso. injection H as E1 E2. congruence.
  - exfalso. injection H as E1 E2. congruence.
  - injection H as E1 E2. auto.
Qed.

Lemma esc_no_quote : forall q c r r', In q [ch_quote; ch_dquote] -> esc_in q c ++ r <> q :: r'.
Proof.
  intros q c r r' Q H. destruct (esc_coded q c) as [x I|L|N1 N2]; cbn [app] in H; injection H as E _.
  - destruct Q as [<-|[<-|[]]]; discriminate.
  - destruct Q as [<-|[<-|[]]]; discriminate.
  - congruence.
Qed.

Lemma debug_char_free : pfree debug_char.
Proof.
  intros c d r r' H. unfold debug_char in H. fold (esc_in ch_quote c) in H. fold (esc_in ch_quote d) in H. rewrite <- !app_assoc in H.
  apply app_inv_head in H. apply esc_free in H; [|cbn; auto]. destruct H as [-> H]. apply app_inv_head in H. auto.
Qed.

Lemma debug_str_free : pfree debug_str.
Proof.
  intros s. unfold debug_str. fold (esc_in ch_dquote). change (fun c : N => _) with (esc_in ch_dquote).
  induction s as [|c s IH]; intros t r r' H; rewrite <- !app_assoc in H; apply app_inv_head in H; destruct t as [|d t]; cbn [flat_map] in H.
  - cbn [app] in H. injection H as H. auto.
  - exfalso. rewrite <- app_assoc in H. cbn [app] in H. symmetry in H. revert H. apply esc_no_quote. cbn. auto.
  - exfalso. rewrite <- app_assoc in H. cbn [app] in H. revert H. apply esc_no_quote. cbn. auto.
  - rewrite <- !app_assoc in H. apply esc_free in H; [|cbn; auto]. destruct H as [-> H].
    destruct (IH t r r') as [-> ->]; [rewrite <- !app_assoc; f_equal; exact H|]. auto.
Qed.

(* ---- numbers ----------------------------------------------------------------------------- *)

Definition digit (c : char) : Prop := (48 <= c <= 57)%N.

Lemma dec_digits : forall n, Forall digit (dec n).
Proof.
  assert (X : forall f n acc, Forall digit acc -> Forall digit (dec_aux f n acc)).
  { induction f as [|f IH]; intros n acc F; cbn [dec_aux]; [exact F|].
    assert (D : Forall digit (dec_digit (n mod 10) :: acc)).
    { constructor; [|exact F]. unfold digit, dec_digit. pose proof (Nat.mod_upper_bound n 10 ltac:(lia)). lia. }
    destruct (n / 10 =? 0); [exact D|apply IH; exact D]. }
  intro n. apply X. constructor.
Qed.

Lemma dec_inj : forall n m, dec n = dec m -> n = m.
Proof. intros n m H. pose proof (run_dec n) as A. rewrite H, run_dec in A. injection A as <-. reflexivity. Qed.

Lemma digits_span : forall a b c d r r', Forall digit a -> Forall digit b -> ~ digit c -> ~ digit d ->
  a ++ c :: r = b ++ d :: r' -> a = b /\ c :: r = d :: r'.
Proof.
  induction a as [|x a IH]; intros b c d r r' A B C D H; destruct b as [|y b]; cbn [app] in H.
  - auto.
  - injection H as -> H. inversion B; subst. contradiction.
  - injection H as -> H. inversion A; subst. contradiction.
  - injection H as -> H. inversion A; inversion B; subst. destruct (IH b c d r r') as [-> E]; auto.
Qed.

Lemma dec_free : forall n m c r r', ~ digit c -> dec n ++ c :: r = dec m ++ c :: r' -> n = m /\ r = r'.
Proof.
  intros n m c r r' C H. destruct (digits_span _ _ c c r r' (dec_digits n) (dec_digits m) C C H) as [E F].
  injection F as F. split; [apply dec_inj; exact E|exact F].
Qed.

(* ---- containers -------------------------------------------------------------------------- *)

Definition free_at {A} (p : A -> str) (x : A) : Prop := forall y r r', p x ++ r = p y ++ r' -> x = y /\ r = r'.

Lemma items_cons : forall (A : Type) (f : A -> str) x l, debug_items f (x :: l) = f x ++ match l with [] => [] | _ => s_ ", " ++ debug_items f l end.
Proof. intros A f x l. destruct l; [cbn; rewrite app_nil_r|]; reflexivity. Qed.

Lemma items_free : forall (A : Type) (f : A -> str) z, z <> 44%N -> (forall x r r', f x ++ r <> z :: r') ->
  forall l, Forall (free_at f) l -> forall l' r r', debug_items f l ++ z :: r = debug_items f l' ++ z :: r' -> l = l' /\ r = r'.
Proof.
  intros A f z Z NZ l F. induction F as [|x l Fx F IH]; intros l' r r' H; destruct l' as [|y l']; rewrite ?items_cons in H.
  - cbn [debug_items app] in H. injection H as H. auto.
  - exfalso. cbn [debug_items app] in H. rewrite <- app_assoc in H. symmetry in H. exact (NZ _ _ _ H).
  - exfalso. cbn [debug_items app] in H. rewrite <- app_assoc in H. exact (NZ _ _ _ H).
  - rewrite <- !app_assoc in H. apply Fx in H. destruct H as [<- H]. destruct l as [|x2 l], l' as [|y2 l']; cbn [app] in H.
    + injection H as H. auto.
    + exfalso. lits H. cbn [app] in H. injection H as H _. congruence.
    + exfalso. lits H. cbn [app] in H. injection H as H _. congruence.
    + rewrite <- !app_assoc in H. apply app_inv_head in H. destruct (IH _ _ _ H) as [<- <-]. auto.
Qed.

Lemma vec_free : forall (A : Type) (f : A -> str), (forall x r r', f x ++ r <> 93%N :: r') ->
  forall l, Forall (free_at f) l -> free_at (debug_vec f) l.
Proof.
  intros A f NZ l F l' r r' H. unfold debug_vec in H. rewrite <- !app_assoc in H. apply app_inv_head in H.
  apply (items_free A f 93%N ltac:(discriminate) NZ l F l' r r'). exact H.
Qed.

Lemma option_free : forall (A : Type) (f : A -> str), pfree f -> pfree (debug_option f).
Proof.
  intros A f F [x|] [y|] r r' H; cbn [debug_option] in H.
  - rewrite <- !app_assoc in H. apply app_inv_head in H. apply F in H. destruct H as [-> H]. apply app_inv_head in H. auto.
  - lits H. discriminate.
  - lits H. discriminate.
  - apply app_inv_head in H. auto.
Qed.

Lemma all_free : forall (A : Type) (f : A -> str) l, pfree f -> Forall (free_at f) l.
Proof. intros A f l F. apply Forall_forall. intros x _. exact (F x). Qed.

Lemma str_start : forall s r r', debug_str s ++ r <> 93%N :: r'.
Proof. intros s r r' H. unfold debug_str in H. cbn [app] in H. discriminate. Qed.

(** Strip the common constant in front. *)
Ltac strip H := rewrite <- ?app_assoc in H; apply app_inv_head in H.
(** A number followed by a constant. *)
Ltac num H := match type of H with dec ?n ++ s_ ?x ++ ?r = dec ?m ++ s_ ?x ++ ?r' =>
  let v := eval vm_compute in (s_ x) in
  match v with ?c :: ?w => change (dec n ++ c :: (w ++ r) = dec m ++ c :: (w ++ r')) in H;
    apply dec_free in H; [let E := fresh "E" in destruct H as [E H]; apply app_inv_head in H|unfold digit; lia] end end.
Ltac st H F := let E := fresh "E" in apply F in H; destruct H as [E H].

Lemma position_free : pfree debug_position.
Proof.
  intros [a b c d] [a' b' c' d'] r r' H. unfold debug_position in H. cbn [pn prow pcol pstart_line] in H.
  strip H. num H. num H. num H. num H. subst. auto.
Qed.

Lemma prio_free : pfree debug_prio.
Proof. intros [|] [|] r r' H; cbn [debug_prio] in H; try (apply app_inv_head in H; auto; fail); lits H; discriminate. Qed.

Lemma perror_free : pfree debug_perror.
Proof.
  intros [p d b a t q] [p' d' b' a' t' q'] r r' H. unfold debug_perror in H.
  cbn [e_pos e_descr e_line_before e_line_after e_parsing_rules e_priority] in H.
  strip H. st H position_free. strip H. st H debug_str_free. strip H. st H debug_str_free. strip H. st H debug_str_free. strip H.
  apply (vec_free _ _ str_start t (all_free _ _ t debug_str_free)) in H. destruct H as [E4 H]. strip H. st H prio_free. strip H. subst. auto.
Qed.

Lemma ast_error_free : pfree debug_ast_error.
Proof.
  intros [d c] [d' c'] r r' H. unfold debug_ast_error in H. cbn [ast_descr ast_context] in H.
  strip H. st H debug_str_free. strip H. apply (option_free _ _ debug_str_free) in H. destruct H as [E1 H]. strip H. subst. auto.
Qed.

Lemma token_free : pfree debug_token.
Proof.
  intros [v|v|v|] [w|w|w|] r r' H; cbn [debug_token] in H;
    try (strip H; st H debug_str_free; strip H; subst; auto; fail); try (strip H; auto; fail); lits H; discriminate.
Qed.

Lemma range_free : pfree debug_range.
Proof.
  intros [a b] [a' b'] r r' H. unfold debug_range in H. cbn [fst snd] in H.
  strip H. st H debug_char_free. strip H. st H debug_char_free. strip H. subst. auto.
Qed.

Lemma range_start : forall x r r', debug_range x ++ r <> 93%N :: r'.
Proof. intros x r r' H. unfold debug_range in H. rewrite <- app_assoc in H. lits H. cbn [app] in H. discriminate. Qed.

Lemma atom_free : pfree debug_atom.
Proof.
  intros [s|cs rg|s| |] [t|ct rt|t| |] r r' H; cbn [debug_atom] in H; try (strip H; auto; fail);
    try (strip H; st H debug_str_free; strip H; subst; auto; fail); try (lits H; discriminate).
  strip H. st H debug_str_free. strip H.
  apply (vec_free _ _ range_start rg (all_free _ _ rg range_free)) in H.
  destruct H as [E1 H]. strip H. subst. auto.
Qed.

Lemma nrep_free : pfree debug_nrep.
Proof. intros n m r r' H. unfold debug_nrep in H. strip H. num H. subst. auto. Qed.

Lemma expr_start : forall e r r', debug_expr e ++ r <> 93%N :: r'.
Proof. intros e r r' H. destruct e; cbn [debug_expr] in H; lits H; discriminate. Qed.

Lemma expr_free : pfree debug_expr.
Proof.
  intro e. induction e as [a|es IH|es IH|e IH|e mn mx IH|n] using expr_ind'; intros [a'|es'|es'|e'|e' mn' mx'|n'] r r' H; cbn [debug_expr] in H;
    try (lits H; discriminate).
  - strip H. st H atom_free. strip H. subst. auto.
  - strip H. apply (vec_free _ _ expr_start es) in H; [|exact IH]. destruct H as [-> H]. strip H. auto.
  - strip H. apply (vec_free _ _ expr_start es) in H; [|exact IH]. destruct H as [-> H]. strip H. auto.
  - strip H. apply IH in H. destruct H as [-> H]. strip H. auto.
  - strip H. apply IH in H. destruct H as [-> H]. strip H. st H nrep_free. strip H. apply (option_free _ _ nrep_free) in H. destruct H as [E1 H].
    strip H. subst. auto.
  - strip H. st H debug_str_free. strip H. subst. auto.
Qed.

Lemma rule_free : pfree debug_rule.
Proof.
  intros [n e] [n' e'] r r' H. unfold debug_rule in H. cbn [fst snd] in H. rewrite <- !app_assoc in H.
  st H debug_str_free. strip H. st H expr_free. subst. auto.
Qed.

Lemma rule_start : forall x r r', debug_rule x ++ r <> 125%N :: r'.
Proof. intros x r r' H. unfold debug_rule, debug_str in H. rewrite <- !app_assoc in H. cbn [app] in H. discriminate. Qed.

Lemma rules_free : pfree debug_rules.
Proof.
  intros l l' r r' H. unfold debug_rules in H. strip H.
  apply (items_free _ _ 125%N ltac:(discriminate) rule_start l (all_free _ _ l rule_free) l' (41%N :: r) (41%N :: r')) in H.
  destruct H as [-> H]. injection H as H. auto.
Qed.

Lemma debug_node_items : forall n l, debug_node (Rule n l) = s_ "Rule((" ++ debug_str n ++ s_ ", " ++ debug_vec debug_node l ++ s_ "))".
Proof.
  intros n l. unfold debug_vec. cbn [debug_node]. do 2 f_equal.
  change (s_ ", [") with (s_ ", " ++ s_ "["). rewrite <- !app_assoc. do 3 f_equal. 
Qed.

Lemma node_start : forall e r r', debug_node e ++ r <> 93%N :: r'.
Proof. intros e r r' H. destruct e; cbn [debug_node] in H; lits H; discriminate. Qed.

Lemma node_free : pfree debug_node.
Proof.
  intro nd. induction nd as [v|n l IH|] using node_ind'; intros [w|m k|] r r' H; rewrite ?debug_node_items in H; cbn [debug_node] in H;
    try (lits H; discriminate).
  - strip H. st H debug_str_free. strip H. subst. auto.
  - strip H. st H debug_str_free. strip H. apply (vec_free _ _ node_start l) in H; [|exact IH]. destruct H as [-> H]. strip H. subst. auto.
  - strip H. auto.
Qed.

(** A prefix-free printer is injective. *)
Lemma free_inj : forall (A : Type) (p : A -> str), pfree p -> forall x y, p x = p y -> x = y.
Proof. intros A p F x y H. apply (F x y [] []). rewrite H. reflexivity. Qed.
