(** Literals decode as specified, and printed grammars are grammar texts. *)
From Verif Require Import Base ModelAst ModelParser ModelPegRules ModelPeg SpecPos SpecSyntax SpecPegApi ProofParser ProofEngine ProofConsume PegLeaf ProofPegBuild.

Lemma escaped_spec : forall x y, escaped x = Some y <-> escape x y.
Proof.
  intros x y. unfold escaped. split.
  - intro H. repeat match type of H with (if N.eqb x ?k then _ else _) = _ => destruct (N.eqb_spec x k); [injection H as <-; subst; constructor|] end.
    discriminate.
  - intro H. destruct H; reflexivity.
Qed.

Lemma hex_value_spec : forall c d, hex_value c = Some d <-> upper_hex c d.
Proof.
  intros c d. unfold hex_value, upper_hex, between.
  destruct ((48 <=? c)%N && (c <=? 57)%N) eqn:E1.
  - apply andb_true_iff in E1. destruct E1 as [A B]. apply N.leb_le in A, B. split; intro H.
    + injection H as <-. left. split; [split; assumption|reflexivity].
    + f_equal. destruct H as [[_ ->]|[H ->]]; [reflexivity|lia].
  - destruct ((65 <=? c)%N && (c <=? 70)%N) eqn:E2.
    + apply andb_true_iff in E2. destruct E2 as [A B]. apply N.leb_le in A, B. split; intro H.
      * injection H as <-. right. split; [split; assumption|reflexivity].
      * f_equal. destruct H as [[H ->]|[_ ->]]; [lia|reflexivity].
    + split; intro H; [discriminate|]. exfalso. apply andb_false_iff in E1, E2. rewrite !N.leb_gt in E1, E2. destruct H as [[H _]|[H _]]; lia.
Qed.

(** The reader of double-quoted literals computes [unescape]. *)
Lemma closed_body : forall n c, length c <= n -> closed c = true -> dq_body (c ++ [ch_dquote]) (unescape c).
Proof.
  induction n as [|n IH]; intros c L C; (destruct c as [|a c]; [constructor|]); cbn [length] in L; [lia|].
  cbn [closed] in C. cbn [unescape].
  destruct (N.eqb_spec a ch_dquote) as [->|Nd]; [discriminate|].
  destruct (N.eqb_spec a ch_bslash) as [->|Nb].
  2:{ cbn [app]. apply dq_plain; [exact Nd| |apply IH; [lia|exact C]].
      intros [(x & y & r & E & _)|(x & y & d1 & d2 & r & E & _)]; cbn in E; injection E as E _; contradiction. }
  destruct c as [|x c2]; [discriminate|]. destruct (escaped x) as [y|] eqn:Ex.
  { cbn [app]. apply dq_escape; [apply escaped_spec; exact Ex|]. apply IH; [cbn in L; lia|exact C]. }
  assert (P : dq_body ((x :: c2) ++ [ch_dquote]) (unescape (x :: c2))) by (apply IH; [lia|exact C]).
  assert (NE : forall u v r, x :: r = x :: r -> ~ (escape u v /\ u = x)).
  { intros u v _ _ [H ->]. apply escaped_spec in H. congruence. }
  assert (Plain : ~ (exists a b d1 d2 r, ch_bslash :: x :: c2 ++ [ch_dquote] = s_ "\0x" ++ a :: b :: r /\ upper_hex a d1 /\ upper_hex b d2) ->
                  dq_body (ch_bslash :: x :: c2 ++ [ch_dquote]) (ch_bslash :: unescape (x :: c2))).
  { intro NH. apply dq_plain; [discriminate| |exact P]. intros [(u & v & r & E & H)|H]; [|contradiction].
    injection E as E1 E2. subst u. apply escaped_spec in H. congruence. }
  change ((ch_bslash :: x :: c2) ++ [ch_dquote]) with (ch_bslash :: x :: c2 ++ [ch_dquote]).
  destruct c2 as [|z [|p [|q c5]]].
  - apply Plain. intros (u & v & d1 & d2 & r & E & _). cbn in E. injection E as _ E. discriminate.
  - apply Plain. intros (u & v & d1 & d2 & r & E & _). cbn in E. injection E as _ _ E. discriminate.
  - apply Plain. intros (u & v & d1 & d2 & r & E & H1 & H2). cbn in E. injection E as _ _ _ <- <-.
    apply hex_value_spec in H2. discriminate.
  - destruct (N.eqb x 48 && N.eqb z 120) eqn:E0.
    + apply andb_true_iff in E0. destruct E0 as [A B]. apply N.eqb_eq in A, B. subst x z.
      destruct (hex_value p) as [d1|] eqn:H1; [destruct (hex_value q) as [d2|] eqn:H2|].
      * change (ch_bslash :: 48%N :: (120%N :: p :: q :: c5) ++ [ch_dquote]) with (s_ "\0x" ++ p :: q :: c5 ++ [ch_dquote]).
        apply dq_hex; [apply hex_value_spec; exact H1|apply hex_value_spec; exact H2|].
        apply IH; [cbn in L; lia|]. cbn [closed escaped] in C.
        assert (HX : forall h d, hex_value h = Some d -> (N.eqb h ch_dquote = false) /\ N.eqb h ch_bslash = false).
        { intros h d H. apply hex_value_spec in H. unfold upper_hex, between in H. unfold ch_dquote, ch_bslash.
          split; apply N.eqb_neq; lia. }
        destruct (HX p d1 H1) as [X1 X2]. destruct (HX q d2 H2) as [X3 X4].
        change (closed (p :: q :: c5) = true) in C. cbn [closed] in C. rewrite X1, X2, X3, X4 in C. exact C.
      * apply Plain. intros (u & v & e1 & e2 & r & E & U1 & U2). cbn in E. injection E as <- <- _.
        apply hex_value_spec in U2. congruence.
      * apply Plain. intros (u & v & e1 & e2 & r & E & U1 & U2). cbn in E. injection E as <- <- _.
        apply hex_value_spec in U1. congruence.
    + apply Plain. intros (u & v & e1 & e2 & r & E & U1 & U2). cbn in E. injection E as -> -> _. discriminate.
Qed.

Lemma closed_literal : forall c, closed c = true -> literal ([ch_dquote] ++ c ++ [ch_dquote]) (unescape c).
Proof. intros c C. apply (lit_double (c ++ [ch_dquote])). exact (closed_body _ c (Nat.le_refl _) C). Qed.

Lemma hex_char_spec : forall d, (d < 16)%N -> upper_hex (hex_char_of d) d.
Proof.
  intros d L. unfold hex_char_of, upper_hex, between. destruct (N.ltb_spec d 10); [left|right]; lia.
Qed.

Lemma encode_spec : forall v, byte_text v -> dq_body (encode v ++ [ch_dquote]) v.
Proof.
  intros v B. induction B as [|c v L B IH]; [constructor|]. unfold encode. cbn [flat_map]. fold (encode v).
  unfold encode_char. destruct (N.eqb c ch_dquote || N.eqb c ch_bslash) eqn:E.
  - cbn [app]. apply dq_escape; [|exact IH]. apply orb_true_iff in E. destruct E as [E|E]; apply N.eqb_eq in E; subst c; constructor.
  - apply orb_false_iff in E. destruct E as [E1 E2]. apply N.eqb_neq in E1, E2. destruct (N.ltb_spec c 128).
    + cbn [app]. apply dq_plain; [exact E1| |exact IH].
      intros [(x & y & r & E & _)|(x & y & d1 & d2 & r & E & _)]; cbn in E; injection E as E _; contradiction.
    + rewrite <- !app_assoc. cbn [app].
      assert (D : c = (c / 16 * 16 + c mod 16)%N) by (rewrite N.mul_comm; apply N.div_mod; discriminate).
      rewrite D at 3. apply dq_hex; [| |exact IH]; apply hex_char_spec.
      * apply N.div_lt_upper_bound; [discriminate|exact L].
      * apply N.mod_upper_bound. discriminate.
Qed.

Lemma dq_literal : forall v, byte_text v -> literal (dq v) v.
Proof. intros v B. apply (lit_double (encode v ++ [ch_dquote])). exact (encode_spec v B). Qed.

Lemma ascii_app : forall a b, ascii (a ++ b) <-> ascii a /\ ascii b.
Proof. intros a b. apply Forall_app. Qed.

Lemma encode_ascii : forall v, byte_text v -> ascii (encode v).
Proof.
  intros v B. induction B as [|c v L B IH]; [constructor|]. unfold encode. cbn [flat_map]. apply ascii_app. split; [|exact IH].
  unfold encode_char. destruct (N.eqb c ch_dquote || N.eqb c ch_bslash) eqn:E.
  - apply orb_true_iff in E. destruct E as [E|E]; apply N.eqb_eq in E; subst c; repeat constructor.
  - destruct (N.ltb_spec c 128); [repeat constructor; assumption|]. apply ascii_app. split; [repeat constructor|].
    assert (H16 : forall d, (d < 16)%N -> ascii_char (hex_char_of d)).
    { intros d H16. unfold hex_char_of, ascii_char. destruct (d <? 10)%N; lia. }
    constructor; [apply H16; apply N.div_lt_upper_bound; [discriminate|exact L]|].
    constructor; [apply H16; apply N.mod_upper_bound; discriminate|constructor].
Qed.

Lemma dq_ascii : forall v, byte_text v -> ascii (dq v).
Proof. intros v B. unfold dq. rewrite !ascii_app. split; [repeat constructor|]. split; [apply encode_ascii; exact B|repeat constructor]. Qed.

(* ------------------------------------------------------------------------------------------- *)
(** * Printed expressions *)

Definition not_sym (z : str) : Prop := forall c r, z = c :: r -> ~ sym_char c.

Lemma symbol_cons : forall t, symbol t -> exists c r, t = c :: r /\ sym_start c /\ Forall sym_char r.
Proof. intros t H. exact H. Qed.

Lemma name_chars : forall n, rule_name n -> Forall (fun c => sym_char c \/ c = 46%N) n.
Proof.
  assert (S : forall t, symbol t -> Forall (fun c => sym_char c \/ c = 46%N) t).
  { intros t (c & r & -> & Sc & Fr). constructor; [left; left; exact Sc|]. eapply Forall_impl; [|exact Fr]. intros; left; assumption. }
  assert (D : forall t, dotted t -> Forall (fun c => sym_char c \/ c = 46%N) t).
  { intros t H. induction H as [t H|t r H D IH]; [apply S; exact H|]. apply Forall_app. split; [apply S; exact H|].
    constructor; [right; reflexivity|exact IH]. }
  intros n [H|(r & -> & H)]; [apply D; exact H|]. constructor; [right; reflexivity|apply D; exact H].
Qed.

Lemma sym_ascii : forall c, sym_char c -> ascii_char c.
Proof. intros c H. unfold sym_char, sym_start, between, ch_quote, ch_dquote in H. unfold ascii_char. lia. Qed.

Lemma name_ascii : forall n, rule_name n -> ascii n.
Proof. intros n H. apply name_chars in H. eapply Forall_impl; [|exact H]. intros c [S| ->]; [apply sym_ascii; exact S|reflexivity]. Qed.

Lemma symbol_name : forall m, symbol m -> rule_name m.
Proof. intros m H. left. constructor. exact H. Qed.

Lemma not_error_name : forall n z, rule_name n -> n <> s_ "error" -> not_sym z -> hd_error z <> Some 46%N ->
  ~ starts_with_error (n ++ z).
Proof.
  intros n z N NE Z D (x & v & r & (b1 & b2 & l & b3 & B1 & _ & _ & _ & ->) & E).
  pose proof (name_chars n N) as F.
  assert (G : forall w, Forall (fun c => sym_char c) w -> forall n0 q, Forall (fun c => sym_char c \/ c = 46%N) n0 ->
    n0 ++ z = w ++ q -> n0 = w \/ exists c n1, n0 = w ++ c :: n1).
  { induction w as [|a w IH]; intros Fw n0 q F0 Q.
    - destruct n0 as [|c n0]; [left; reflexivity|right; cbn; eauto].
    - inversion Fw; subst. destruct n0 as [|c n0].
      + cbn in Q. exfalso. apply (Z _ _ Q). assumption.
      + cbn in Q. injection Q as -> Q. inversion F0; subst. destruct (IH ltac:(assumption) n0 q ltac:(assumption) Q) as [->|(c & n1 & ->)];
          [left; reflexivity|right; exists c, n1; reflexivity]. }
  rewrite <- !app_assoc in E.
  assert (FE : Forall sym_char (s_ "error")).
  { change (s_ "error") with [101; 114; 114; 111; 114]%N. repeat (apply Forall_cons; [unfold sym_char, sym_start, between; lia|]). constructor. }
  destruct (G (s_ "error") FE n _ F E) as [->|(c & n1 & ->)]; [contradiction|].
  rewrite <- app_assoc in E. apply app_inv_head in E. cbn [app] in E. apply Forall_app in F. destruct F as [_ F]. inversion F; subst.
  assert (Hc : sym_char c \/ c = 46%N) by assumption.
  destruct b1 as [|d b1].
  - cbn in E. injection E as -> _. unfold sym_char, sym_start, between, ch_quote, ch_dquote in Hc. lia.
  - cbn in E. injection E as -> _. destruct (blank_head _ _ _ B1 eq_refl) as [->|[I| ->]];
      unfold is_eolc, sym_char, sym_start, between, ch_quote, ch_dquote, ch_space, ch_cr, ch_nl in *; lia.
Qed.

Lemma not_error_head : forall c t, c <> 101%N -> ~ starts_with_error (c :: t).
Proof. intros c t N (x & v & r & (b1 & b2 & l & b3 & _ & _ & _ & _ & ->) & E). cbn in E. injection E as E _. contradiction. Qed.

(** What may follow an item without changing how its text starts. *)
Definition gap (z : str) : Prop := not_sym z /\ hd_error z <> Some 46%N.

Lemma gap_nil : gap [].
Proof. split; [intros c r E; discriminate|discriminate]. Qed.

Lemma gap_cons : forall c r, ~ sym_char c -> c <> 46%N -> gap (c :: r).
Proof. intros c r H D. split; [intros a b E; injection E as -> ->; exact H|]. cbn. congruence. Qed.

Definition tail_ok (t : str) : Prop := forall z, gap z -> ~ starts_with_error (t ++ z).

Lemma gap_suffix : forall mn mx z, gap (rep_suffix mn mx ++ z).
Proof.
  intros mn mx z. assert (A : forall c, In c [42; 43; 63]%N -> ~ sym_char c /\ c <> 46%N).
  { intros c I. unfold sym_char, sym_start, between, ch_quote, ch_dquote. cbn in I. lia. }
  destruct mn as [|[|mn]], mx as [m|]; cbn; (apply gap_cons; apply A; cbn; auto).
Qed.

Lemma expressible_list : forall es, fold_right (fun x P => expressible x /\ P) True es <-> Forall expressible es.
Proof.
  induction es as [|e es IH]; cbn; split; intro H; [constructor|exact I| |].
  - destruct H. constructor; [assumption|]. apply IH. assumption.
  - inversion H; subst. split; [assumption|]. apply IH. assumption.
Qed.

(** The unparenthesised form. *)
Definition bare (e : expr) : str := print_at 0 e.

Lemma print_at_bare : forall k e, print_at k e = if level e <? k then s_ "(" ++ bare e ++ s_ ")" else bare e.
Proof. intros k e. destruct e; reflexivity. Qed.

Lemma par_unit : forall t e, expr_text t e -> unit_text (s_ "(" ++ t ++ s_ ")") e.
Proof. intros t e H. exact (ut_par [] t [] e bl_nil H bl_nil). Qed.

Lemma tail_par : forall t, tail_ok (s_ "(" ++ t).
Proof. intros t z _. apply not_error_head. discriminate. Qed.

Lemma seq_of_one : forall e, seq_of [e] = e. Proof. reflexivity. Qed.

Definition spaced (l : list str) : str := join (s_ " ") l.
Definition slashed (l : list str) : str := join (s_ " / ") l.

Lemma join_cons : forall sep x y l, join sep (x :: y :: l) = x ++ sep ++ join sep (y :: l).
Proof. intros. cbn. rewrite <- !app_assoc. reflexivity. Qed.

Lemma space_gap : forall z, gap (ch_space :: z).
Proof. intro z. apply gap_cons; [unfold sym_char, sym_start, between, ch_quote, ch_dquote, ch_space; lia|discriminate]. Qed.

(** What is shown of each printed expression. *)
Record printed (e : expr) : Prop := {
  pr_expr : expr_text (bare e) e;
  pr_seq : exists es, seq_text (print_at 1 e) es /\ seq_of es = e;
  pr_item : item_text (print_at 2 e) e /\ tail_ok (print_at 2 e);
  pr_unit : unit_text (print_at 3 e) e /\ tail_ok (print_at 3 e);
  pr_ascii : ascii (bare e)
}.

Lemma one_expr : forall t es, seq_text t es -> expr_text t (seq_of es).
Proof. intros t es H. exact (et t [seq_of es] (ct_one t es H)). Qed.

Lemma tail_self : forall t, tail_ok t -> ~ starts_with_error t.
Proof. intros t H. rewrite <- (app_nil_r t). apply H. exact gap_nil. Qed.

(** A unit prints as itself everywhere. *)
Lemma printed_unit : forall e, level e = 3 -> unit_text (bare e) e -> tail_ok (bare e) -> ascii (bare e) -> printed e.
Proof.
  intros e L U T A.
  assert (S : seq_text (bare e) [e]) by (apply st_one; [constructor; exact U|apply tail_self; exact T]).
  assert (P : forall k, k <= 3 -> print_at k e = bare e).
  { intros k K. rewrite print_at_bare, L. destruct (Nat.ltb_spec 3 k); [lia|reflexivity]. }
  split; rewrite ?P by lia.
  - exact (one_expr _ _ S).
  - exists [e]. split; [exact S|reflexivity].
  - split; [constructor; exact U|exact T].
  - split; assumption.
  - exact A.
Qed.

Lemma printed_item : forall e, level e = 2 -> item_text (bare e) e -> tail_ok (bare e) -> ascii (bare e) -> printed e.
Proof.
  intros e L U T A.
  assert (S : seq_text (bare e) [e]) by (apply st_one; [exact U|apply tail_self; exact T]).
  assert (X : expr_text (bare e) e) by exact (one_expr _ _ S).
  split; rewrite ?print_at_bare, ?L; cbn [Nat.ltb Nat.leb].
  - exact X.
  - exists [e]. split; [exact S|reflexivity].
  - split; assumption.
  - split; [apply par_unit; exact X|apply tail_par].
  - exact A.
Qed.

Lemma printed_seq : forall e es, level e = 1 -> seq_text (bare e) es -> seq_of es = e -> ascii (bare e) -> printed e.
Proof.
  intros e es L S Q A.
  assert (X : expr_text (bare e) e) by (rewrite <- Q at 2; exact (one_expr _ _ S)).
  assert (U : unit_text (s_ "(" ++ bare e ++ s_ ")") e) by (apply par_unit; exact X).
  split; rewrite ?print_at_bare, ?L; cbn [Nat.ltb Nat.leb].
  - exact X.
  - exists es. split; assumption.
  - split; [constructor; exact U|apply tail_par].
  - split; [exact U|apply tail_par].
  - exact A.
Qed.

Lemma printed_choice : forall e, level e = 0 -> expr_text (bare e) e -> ascii (bare e) -> printed e.
Proof.
  intros e L X A.
  assert (U : unit_text (s_ "(" ++ bare e ++ s_ ")") e) by (apply par_unit; exact X).
  assert (T : tail_ok (s_ "(" ++ bare e ++ s_ ")")) by apply tail_par.
  split; rewrite ?print_at_bare, ?L; cbn [Nat.ltb Nat.leb].
  - exact X.
  - exists [e]. split; [|reflexivity]. apply st_one; [constructor; exact U|apply tail_self; exact T].
  - split; [constructor; exact U|exact T].
  - split; [exact U|exact T].
  - exact A.
Qed.

Lemma print_ascii : forall k e, ascii (bare e) -> ascii (print_at k e).
Proof.
  intros k e H. rewrite print_at_bare. destruct (level e <? k); [|exact H]. rewrite !ascii_app.
  split; [repeat constructor|]. split; [exact H|repeat constructor].
Qed.

Lemma join_ascii : forall sep l, ascii sep -> Forall ascii l -> ascii (join sep l).
Proof.
  intros sep l S F. destruct F as [|x l Fx F]; [constructor|]. cbn. apply ascii_app. split; [exact Fx|].
  induction F as [|y l Fy F IH]; [constructor|]. cbn. rewrite !ascii_app. auto.
Qed.

Lemma spaced_seq : forall es, es <> [] -> Forall printed es ->
  seq_text (spaced (map (print_at 2) es)) es.
Proof.
  intros es N F. induction F as [|e es P F IH]; [congruence|]. destruct es as [|e2 es].
  - cbn. rewrite app_nil_r. destruct (pr_item e P) as [I T]. apply st_one; [exact I|apply tail_self; exact T].
  - unfold spaced. cbn [map]. rewrite join_cons. destruct (pr_item e P) as [I T].
    apply st_more; [exact I|constructor; constructor|apply IH; discriminate|].
    apply T. change (s_ " ") with [ch_space]. cbn [app]. apply space_gap.
Qed.

Lemma slashed_choice : forall es, es <> [] -> Forall printed es -> choice_text (slashed (map (print_at 1) es)) es.
Proof.
  intros es N F. induction F as [|e es P F IH]; [congruence|]. destruct (pr_seq e P) as (xs & S & Q).
  destruct es as [|e2 es].
  - cbn. rewrite app_nil_r. rewrite <- Q at 2. apply ct_one. exact S.
  - unfold slashed. cbn [map]. rewrite join_cons. rewrite <- Q at 2.
    change (s_ " / " ++ join (s_ " / ") (print_at 1 e2 :: map (print_at 1) es)) with
      (s_ " " ++ s_ "/" ++ s_ " " ++ join (s_ " / ") (print_at 1 e2 :: map (print_at 1) es)).
    apply ct_more; [exact S|constructor; constructor|constructor; constructor|discriminate|]. apply IH. discriminate.
Qed.

Lemma print_printed : forall e, expressible e -> printed e.
Proof.
  intro e. induction e as [a|es IH|es IH|e IH|e mn mx IH|n] using expr_ind'; intro X; cbn [expressible] in X.
  - destruct a as [v|cs rg|v| |]; try contradiction.
    + apply printed_unit; [reflexivity| | |].
      * constructor. constructor. exact (dq_literal v X).
      * intros z _. apply not_error_head. discriminate.
      * exact (dq_ascii v X).
    + destruct X as (NE & A1 & A2 & C). apply printed_unit; [reflexivity| | |].
      * constructor. constructor. split; [reflexivity|]. split; assumption.
      * intros z _. apply not_error_head. discriminate.
      * change (ascii (s_ "[" ++ cs ++ ranges_text rg ++ s_ "]")). rewrite !ascii_app.
        split; [repeat constructor|]. split; [exact A1|]. split; [exact A2|repeat constructor].
    + apply (printed_seq _ [Simple (AError v)]); [reflexivity| |reflexivity|].
      * apply st_error. exists [], [], (dq v), []. repeat split; try constructor. exact (encode_spec v X).
      * change (ascii (s_ "error(" ++ dq v ++ s_ ")")). rewrite !ascii_app.
        split; [repeat constructor|]. split; [exact (dq_ascii v X)|repeat constructor].
    + apply printed_unit; [reflexivity| | |repeat constructor].
      * constructor. constructor.
      * intros z _. apply not_error_head. discriminate.
  - destruct X as [L X]. apply expressible_list in X.
    assert (F : Forall printed es) by (rewrite Forall_forall in *; auto).
    apply (printed_seq _ es); [reflexivity| | |].
    + apply spaced_seq; [intros ->; cbn in L; lia|exact F].
    + destruct es as [|e1 [|e2 es]]; cbn in L; [lia|lia|reflexivity].
    + change (ascii (join (s_ " ") (map (print_at 2) es))). apply join_ascii; [repeat constructor|].
      rewrite Forall_map. eapply Forall_impl; [|exact F]. intros x P. apply print_ascii. apply P.
  - destruct X as [L X]. apply expressible_list in X.
    assert (F : Forall printed es) by (rewrite Forall_forall in *; auto).
    apply printed_choice; [reflexivity| |].
    + assert (Q : choice_of es = Or es) by (destruct es as [|e1 [|e2 es]]; cbn in L; [lia|lia|reflexivity]).
      change (bare (Or es)) with (slashed (map (print_at 1) es)). rewrite <- Q. constructor. apply slashed_choice; [intros ->; cbn in L; lia|exact F].
    + change (ascii (join (s_ " / ") (map (print_at 1) es))). apply join_ascii; [repeat constructor|].
      rewrite Forall_map. eapply Forall_impl; [|exact F]. intros x P. apply print_ascii. apply P.
  - specialize (IH X). destruct (pr_unit e IH) as [U T]. apply printed_item; [reflexivity| | |].
    + exact (it_not _ _ U).
    + intros z _. apply not_error_head. discriminate.
    + change (ascii (s_ "!" ++ print_at 3 e)). apply ascii_app. split; [repeat constructor|apply print_ascii; apply IH].
  - destruct X as [X B]. specialize (IH X). destruct (pr_unit e IH) as [U T]. apply printed_item; [reflexivity| | |].
    + destruct B as [[-> ->]|[[-> ->]|[-> ->]]]; [exact (it_star _ _ U)|exact (it_plus _ _ U)|exact (it_opt _ _ U)].
    + intros z G. change (bare (Repeat e mn mx)) with (print_at 3 e ++ rep_suffix mn mx). rewrite <- app_assoc. apply T. apply gap_suffix.
    + change (ascii (print_at 3 e ++ rep_suffix mn mx)). apply ascii_app. split; [apply print_ascii; apply IH|].
      destruct mn as [|[|mn]], mx as [m|]; repeat constructor.
  - destruct (str_eqb n (s_ "error")) eqn:E.
    + apply str_eqb_eq in E. subst n. apply (printed_seq _ [RuleName (s_ "error")]); [reflexivity| |reflexivity|repeat constructor].
      apply st_one; [constructor; constructor; constructor; exact X|].
      intros (x & v & r & (b1 & b2 & l & b3 & B1 & _ & _ & _ & ->) & Q).
      change (bare (RuleName (s_ "error"))) with (s_ "error") in Q.
      assert (Q' : s_ "error" ++ [] = s_ "error" ++ ((b1 ++ s_ "(" ++ b2 ++ l ++ b3 ++ s_ ")") ++ r)).
      { rewrite app_nil_r. rewrite Q at 1. rewrite <- !app_assoc. reflexivity. }
      apply app_inv_head in Q'. destruct b1; discriminate.
    + assert (NE : n <> s_ "error") by (intros ->; rewrite (proj2 (str_eqb_eq _ _) eq_refl) in E; discriminate).
      apply printed_unit.
      * cbn. rewrite E. reflexivity.
      * constructor. constructor. exact X.
      * intros z [G1 G2]. apply not_error_name; assumption.
      * exact (name_ascii n X).
Qed.

(* ------------------------------------------------------------------------------------------- *)
(** * Printed grammars *)

Fixpoint def_size (d : def) : nat :=
  match d with Def _ _ => 1 | Mod _ l => 1 + fold_right (fun x n => def_size x + n) 0 l end.

Lemma expressible_defs : forall l, fold_right (fun x P => expressible_def x /\ P) True l <-> Forall expressible_def l.
Proof.
  induction l as [|e es IH]; cbn; split; intro H; [constructor|exact I| |].
  - destruct H. constructor; [assumption|]. apply IH. assumption.
  - inversion H; subst. split; [assumption|]. apply IH. assumption.
Qed.

Lemma print_defs : forall n l, fold_right (fun x n => def_size x + n) 0 l <= n -> l <> [] -> Forall expressible_def l ->
  defs_text (print_grammar l) l /\ ascii (print_grammar l).
Proof.
  induction n as [|n IH]; intros l L N F.
  { destruct F as [|d l]; [congruence|]. destruct d; cbn in L; lia. }
  assert (O : forall d, def_size d <= S n -> expressible_def d -> def_text (print_def d) d /\ ascii (print_def d)).
  { intros d Ld Xd. destruct d as [k e|m b]; cbn [print_def].
    - destruct Xd as [K X]. destruct (print_printed e X) as [P _ _ _ A]. split.
      + change (k ++ s_ " = " ++ print_at 0 e ++ nl) with (k ++ s_ " " ++ s_ "=" ++ s_ " " ++ bare e ++ nl ++ []).
        apply df_rule; try assumption; repeat constructor.
      + rewrite !ascii_app. split; [apply name_ascii; exact K|]. split; [repeat constructor|]. split; [exact A|repeat constructor].
    - destruct Xd as (S & NB & X). apply expressible_defs in X.
      destruct (IH b ltac:(cbn in Ld; lia) NB X) as [P A]. split.
      + change (m ++ s_ " {" ++ nl ++ flat_map print_def b ++ s_ "}" ++ nl) with
          (m ++ s_ " " ++ s_ "{" ++ nl ++ print_grammar b ++ s_ "}" ++ nl ++ []).
        apply df_module; try assumption; try (repeat constructor; fail).
        exact (bl_eol nl [] eol_nl bl_nil).
      + rewrite !ascii_app. split; [apply name_ascii; apply symbol_name; exact S|]. split; [repeat constructor|].
        split; [repeat constructor|]. split; [exact A|]. split; repeat constructor. }
  clear IH. revert L N. induction F as [|d l Xd F IHl]; intros L N; [congruence|]. cbn in L.
  destruct (O d ltac:(lia) Xd) as [Pd Ad]. unfold print_grammar. cbn [flat_map]. destruct l as [|d2 l].
  - cbn. rewrite app_nil_r. split; [constructor; exact Pd|exact Ad].
  - destruct (IHl ltac:(cbn in *; lia) ltac:(discriminate)) as [Pl Al]. split.
    + apply ds_more; [exact Pd|exact Pl].
    + apply ascii_app. split; [exact Ad|exact Al].
Qed.

Lemma print_grammar_text : forall l, l <> [] -> Forall expressible_def l ->
  grammar_text (print_grammar l) l /\ ascii (print_grammar l).
Proof.
  intros l N F. destruct (print_defs _ l (Nat.le_refl _) N F) as [P A]. split; [|exact A].
  exists [], (print_grammar l). repeat split; [constructor|exact P].
Qed.
