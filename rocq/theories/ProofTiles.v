(** Rules made from tiles accept the solutions of the tiles. *)
From Coq Require Import Permutation.
From Verif Require Import Base ModelAst ModelParser ModelPeg SpecPeg SpecPos SpecApi SpecWf SpecPower SpecSyntax SpecPegApi SpecText SpecDocs SpecTiles.
From Verif Require Import PegTools ProofParser ProofEngine ProofApi ProofText ProofDocs ProofWf ProofEndToEnd Examples.

(** * Codes *)

Lemma code_cons : forall k, exists c r, code k = c :: r /\ c <> 35%N.
Proof. intros [|k]; [exists 121%N, []|exists 120%N, (code k)]; (split; [reflexivity|discriminate]). Qed.

Lemma code_prefix : forall i j r r', code i ++ r = code j ++ r' -> i = j /\ r = r'.
Proof.
  induction i as [|i IH]; intros [|j] r r' E; cbn in E; try discriminate.
  - injection E as E. auto.
  - injection E as E. destruct (IH j r r' E) as [-> ->]. auto.
Qed.

Lemma code_long : forall k (s : str), length s < length (code k ++ s).
Proof. intros k s. destruct (code_cons k) as (c & w & -> & _). rewrite app_length. cbn [length]. lia. Qed.

Definition codes (is : list nat) : str := flat_map code is.

Lemma codes_prefix : forall is js r r', codes is ++ s_ "#" ++ r = codes js ++ s_ "#" ++ r' -> is = js /\ r = r'.
Proof.
  induction is as [|i is IH]; intros [|j js] r r' E; cbn [codes flat_map] in E.
  - injection E as E. auto.
  - exfalso. destruct (code_cons j) as (c & w & W & N). rewrite W in E. cbn in E. injection E as E _. congruence.
  - exfalso. destruct (code_cons i) as (c & w & W & N). rewrite W in E. cbn in E. injection E as E _. congruence.
  - rewrite <- !app_assoc in E. apply code_prefix in E. destruct E as [-> E]. destruct (IH js r r' E) as [-> ->]. auto.
Qed.

Section Tiles.
Variable P : list tile.
Let G := grammar_of (tile_rules P).
Let d : tile := ([], []).

Definition word (side : tile -> str) (is : list nat) : str := concat (map (fun i => side (nth i P d)) is).
Definition known (is : list nat) : Prop := Forall (fun i => i < length P) is.

Section Column.
Variables (side : tile -> str) (nm : str).
Hypothesis GN : G nm = Some (column side nm P).

Lemma pieces_hash : forall Q k tail s r, peg G (Or tail) (35%N :: s) r -> peg G (Or (pieces side nm k Q ++ tail)) (35%N :: s) r.
Proof.
  induction Q as [|t Q IH]; intros k tail s r H; cbn [pieces app]; [exact H|]. apply peg_or_next; [|apply IH, H].
  apply mk_and_fail1, peg_lit_fail. intros rest E. destruct (code_cons k) as (c & w & W & N). rewrite W in E. cbn in E. injection E as E _. congruence.
Qed.

Lemma pieces_code : forall Q k j tail s ts rest, j < length Q -> peg G (piece side nm (k + j) (nth j Q d)) (code (k + j) ++ s) (PMatch ts rest) ->
  peg G (Or (pieces side nm k Q ++ tail)) (code (k + j) ++ s) (PMatch ts rest).
Proof.
  induction Q as [|t Q IH]; intros k j tail s ts rest L H; cbn [length] in L; [lia|]. cbn [pieces app]. destruct j as [|j].
  - rewrite Nat.add_0_r in *. apply mk_or1, H.
  - apply peg_or_next.
    + apply mk_and_fail1, peg_lit_fail. intros r E. apply code_prefix in E. destruct E as [E _]. lia.
    + rewrite Nat.add_succ_r in *. exact (IH (S k) j tail s ts rest ltac:(lia) H).
Qed.

Lemma column_match : forall is, known is -> forall rest, exists t,
  peg G (ref_rule nm) (codes is ++ s_ "#" ++ rev (word side is) ++ rest) (PMatch [t] rest).
Proof.
  intros is K. induction K as [|i is L K IH]; intro rest.
  - eexists. eapply mk_rule; [exact GN|]. cbn. apply pieces_hash, mk_or1. apply (mk_lit G (s_ "#")). reflexivity.
  - destruct (IH (rev (side (nth i P d)) ++ rest)) as [t H]. eexists. eapply mk_rule; [exact GN|]. cbn [codes flat_map]. rewrite <- app_assoc.
    apply (pieces_code P 0 i [lit (s_ "#")]); [exact L|].
    eapply mk_and; [apply mk_lit; reflexivity|]. eapply mk_and.
    + replace (rev (word side (i :: is)) ++ rest) with (rev (word side is) ++ rev (side (nth i P d)) ++ rest); [exact H|].
      unfold word. cbn [map concat]. rewrite rev_app_distr, app_assoc. reflexivity.
    + eapply mk_and; [apply mk_lit; reflexivity|apply peg_and_nil].
Qed.

Lemma in_pieces : forall Q k e, In e (pieces side nm k Q) -> exists j, j < length Q /\ e = piece side nm (k + j) (nth j Q d).
Proof.
  induction Q as [|t Q IH]; intros k e H; [destruct H|]. cbn [pieces] in H. destruct H as [<-|H].
  - exists 0. cbn. split; [lia|]. rewrite Nat.add_0_r. reflexivity.
  - destruct (IH (S k) e H) as (j & L & ->). exists (S j). cbn [length nth]. split; [lia|]. rewrite Nat.add_succ_r. reflexivity.
Qed.

Lemma column_only : forall n s ts rest, length s <= n -> peg G (ref_rule nm) s (PMatch ts rest) ->
  exists is, known is /\ s = codes is ++ s_ "#" ++ rev (word side is) ++ rest.
Proof.
  induction n as [|n IH]; intros s ts rest L H; apply inv_rule in H; destruct H as (e & k & E & _ & H);
    rewrite GN in E; injection E as <-; apply inv_or in H; destruct H as (l1 & e & l2 & EQ & H & _);
    (assert (X : In e (pieces side nm 0 P ++ [lit (s_ "#")])) by (rewrite EQ; apply in_elt)); apply in_app_or in X; destruct X as [X|[<-|[]]].
  - exfalso. apply in_pieces in X. destruct X as (j & J & ->). apply inv_and_cons in H. destruct H as (t1 & s1 & t2 & _ & H & _).
    apply inv_lit in H. destruct H as [_ ->]. pose proof (code_long (0 + j) s1). lia.
  - apply inv_lit in H. destruct H as [_ ->]. exists []. split; [constructor|reflexivity].
  - apply in_pieces in X. destruct X as (j & J & ->). apply inv_and_cons in H. destruct H as (t1 & s1 & t2 & _ & H1 & H).
    apply inv_lit in H1. destruct H1 as [_ ->]. apply inv_and_cons in H. destruct H as (t3 & s2 & t4 & _ & H2 & H).
    apply inv_and_cons in H. destruct H as (t5 & s3 & t6 & _ & H3 & H). apply inv_lit in H3. destruct H3 as [_ ->]. apply inv_and_nil in H. destruct H as [_ <-].
    pose proof (code_long (0 + j) s1). destruct (IH s1 _ _ ltac:(lia) H2) as (is & K & ->).
    exists (j :: is). split; [constructor; assumption|]. cbn [codes flat_map]. unfold word. cbn [map concat].
    rewrite rev_app_distr, <- !app_assoc. reflexivity.
  - apply inv_lit in H. destruct H as [_ ->]. exists []. split; [constructor|reflexivity].
Qed.

Lemma column_sane : sane (column side nm P).
Proof.
  unfold column. cbn [sane]. rewrite fold_right_app. cbn [fold_right]. generalize 0 P. intros k Q. revert k.
  induction Q as [|t Q IH]; intro k; cbn [pieces fold_right]; [cbn; auto|]. split; [cbn; auto|apply IH].
Qed.

End Column.

Lemma G_top : G nm_top = Some (column fst nm_top P).
Proof. reflexivity. Qed.
Lemma G_bottom : G nm_bottom = Some (column snd nm_bottom P).
Proof. reflexivity. Qed.

Lemma end_match : forall s ts rest, peg G at_end s (PMatch ts rest) -> s = [].
Proof.
  intros s ts rest H. destruct s as [|c s]; [reflexivity|]. exfalso. inversion H; subst.
  match goal with X : peg _ _ (c :: s) ?r, Y : stops ?r |- _ => inversion X; subst; exact Y end.
Qed.

Lemma not_lit_match : forall w s r ts rest, s = w ++ r -> ~ peg G (Not (lit w)) s (PMatch ts rest).
Proof.
  intros w s r ts rest E H. subst s. inversion H; subst.
  match goal with X : peg _ _ _ ?r, Y : stops ?r |- _ => inversion X; subst; [exact Y|] end.
  match goal with N : forall rest, _ <> _ |- _ => exact (N _ eq_refl) end.
Qed.

(** The texts of main. *)
Lemma tile_texts : forall s, (exists t, peg_main (tile_rules P) s (PMatch [t] [])) <->
  exists is, is <> [] /\ known is /\ word fst is = word snd is /\ s = codes is ++ s_ "#" ++ rev (word fst is).
Proof.
  intro s. split.
  - intros [t H]. apply inv_rule in H. destruct H as (e & k & E & _ & H). injection E as <-.
    apply inv_and_cons in H. destruct H as (t1 & s1 & t2 & _ & H1 & H). pose proof (inv_not _ _ _ _ _ H1) as [_ ->].
    apply inv_and_cons in H. destruct H as (t3 & s1 & t4 & _ & H2 & H). pose proof (inv_not _ _ _ _ _ H2) as [_ ->].
    apply inv_and_cons in H. destruct H as (t5 & s1 & t6 & _ & H3 & H). apply inv_and_nil in H. destruct H as [_ <-].
    apply (column_only snd nm_bottom G_bottom (length s)) in H3; [|lia]. destruct H3 as (is & K & E).
    assert (T : exists ts rest, peg G (whole (ref_rule nm_top)) s (PMatch ts rest)).
    { inversion H2; subst; match goal with X : peg _ (Not (whole _)) _ ?r, Y : stops ?r |- _ => inversion X; subst; try destruct Y end; eauto. }
    destruct T as (ts & rest & T). apply inv_and_cons in T. destruct T as (u1 & s2 & u2 & _ & T & T').
    apply inv_and_cons in T'. destruct T' as (u3 & s3 & u4 & _ & T' & _). apply end_match in T'. subst s2.
    apply (column_only fst nm_top G_top (length s)) in T; [|lia]. destruct T as (js & K' & E'). rewrite app_nil_r in E, E'.
    rewrite E in E'. apply codes_prefix in E'. destruct E' as [<- E']. apply (f_equal (@rev _)) in E'. rewrite !rev_involutive in E'.
    exists is. split; [|split; [exact K|split; [symmetry; exact E'|rewrite <- E'; exact E]]].
    intros ->. exact (not_lit_match (s_ "#") s (rev (word snd [])) _ _ E H1).
  - intros (is & N & K & E & ->). destruct (column_match snd nm_bottom G_bottom is K []) as [b B]. destruct (column_match fst nm_top G_top is K []) as [t T].
    rewrite !app_nil_r in B, T. rewrite <- E in B. eexists. eapply mk_rule; [reflexivity|]. set (s := codes is ++ s_ "#" ++ rev (word fst is)) in *.
    eapply mk_and; [|eapply mk_and; [|eapply mk_and; [exact B|apply peg_and_nil]]].
    + apply mk_not, peg_lit_fail. intros r X. subst s. destruct is as [|i is]; [contradiction|]. cbn [codes flat_map] in X.
      destruct (code_cons i) as (c & w & W & NC). rewrite W in X. cbn in X. injection X as X _. congruence.
    + apply mk_not. eapply peg_not_fail. eapply mk_and; [exact T|]. eapply mk_and; [apply mk_not, peg_dot_fail|apply peg_and_nil].
Qed.

Lemma tiles_sane : sane_rules (tile_rules P).
Proof. apply sane_rules_all. constructor; [cbn; tauto|]. constructor; [apply column_sane|]. constructor; [apply column_sane|constructor]. Qed.

(** Rows and numbers. *)
Lemma row_known : forall row, incl row P -> exists is, known is /\ row = map (fun i => nth i P d) is.
Proof.
  induction row as [|t row IH]; intro I; [exists []; split; [constructor|reflexivity]|].
  destruct IH as (is & K & ->); [intros x H; apply I; right; exact H|].
  destruct (In_nth P t d (I t (or_introl eq_refl))) as (i & L & E). exists (i :: is). split; [constructor; assumption|]. cbn. congruence.
Qed.

Lemma solvable_known : solvable P <-> exists is, is <> [] /\ known is /\ word fst is = word snd is.
Proof.
  split.
  - intros (row & N & I & E). destruct (row_known row I) as (is & K & ->). exists is. split; [intros ->; apply N; reflexivity|]. split; [exact K|].
    unfold word. rewrite <- !(map_map (fun i => nth i P d)). exact E.
  - intros (is & N & K & E). exists (map (fun i => nth i P d) is). split; [destruct is; [contradiction|discriminate]|]. split.
    + intros t H. apply in_map_iff in H. destruct H as (i & <- & H). apply nth_In. unfold known in K. rewrite Forall_forall in K. exact (K i H).
    + rewrite !map_map. exact E.
Qed.

Lemma codes_ascii : forall is, ascii (codes is).
Proof.
  induction is as [|i is IH]; [constructor|]. cbn. apply Forall_app. split; [|exact IH]. unfold code. apply Forall_app. split.
  - apply Forall_forall. intros c H. apply repeat_spec in H. subst. unfold ascii_char. lia.
  - constructor; [reflexivity|constructor].
Qed.

Lemma word_ascii : ascii_tiles P -> forall is, known is -> ascii (word fst is).
Proof.
  intros A is K. induction K as [|i is L K IH]; [constructor|]. unfold word. cbn. apply Forall_app. split; [|exact IH].
  unfold ascii_tiles in A. rewrite Forall_forall in A. exact (proj1 (A _ (nth_In P d L))).
Qed.

Lemma takes_peg : forall s, takes (tile_rules P) s <-> ascii s /\ exists t, peg_main (tile_rules P) s (PMatch [t] []).
Proof.
  intro s. split.
  - intros (f & t & H). assert (A : ascii s). { destruct (Forall_dec ascii_char ascii_char_dec s) as [A|A]; [exact A|]. exfalso. exact (parse_non_ascii f s (tile_rules P) false t A H). }
    split; [exact A|]. exists t. apply (parse_accepts_iff s (tile_rules P) false tiles_sane A). exists f. exact H.
  - intros [A [t H]]. apply (parse_accepts_iff s (tile_rules P) false tiles_sane A) in H. destruct H as [f H]. exists f, t. exact H.
Qed.

(** Some text is accepted if and only if the tiles can be solved. *)
Lemma tiles_solve : ascii_tiles P -> (exists s, takes (tile_rules P) s) <-> solvable P.
Proof.
  intro A. rewrite solvable_known. split.
  - intros [s H]. apply takes_peg in H. destruct H as [_ H]. apply tile_texts in H. destruct H as (is & H1 & H2 & H3 & _). eauto.
  - intros (is & N & K & E). exists (codes is ++ s_ "#" ++ rev (word fst is)). apply takes_peg. split.
    + apply Forall_app. split; [apply codes_ascii|]. constructor; [reflexivity|]. apply Forall_rev. exact (word_ascii A is K).
    + apply tile_texts. eauto 6.
Qed.

(** Every text is answered. *)
Ltac no_occurs := repeat match goal with
  | X : occurs _ (And _) |- _ => inversion X; subst; clear X
  | X : occurs _ (Not _) |- _ => inversion X; subst; clear X
  | X : occurs _ (Simple _) |- _ => inversion X
  | X : occurs _ (RuleName _) |- _ => inversion X
  | X : In _ (_ :: _) |- _ => destruct X as [<-|X]
  | X : In _ [] |- _ => destruct X
  end.

Lemma no_repeat : forall side nm x mn mx, ~ occurs (Repeat x mn mx) (column side nm P).
Proof.
  intros side nm x mn mx O. inversion O; subst.
  match goal with X : In _ _ |- _ => apply in_app_or in X; destruct X as [X|[<-|[]]] end.
  - match goal with X : In _ _ |- _ => apply in_pieces in X; destruct X as (j & _ & ->) end.
    unfold piece, lit, ref_rule in *. no_occurs.
  - unfold lit in *. no_occurs.
Qed.

Lemma column_calls : forall side nm n, ~ calls_first G (column side nm P) n.
Proof.
  intros side nm n C. inversion C; subst.
  match goal with X : In _ _ |- _ => apply in_app_or in X; destruct X as [X|[<-|[]]] end.
  - match goal with X : In _ _ |- _ => apply in_pieces in X; destruct X as (j & _ & ->) end. cbn [Nat.add] in *. destruct (code_cons j) as (c & w & W & _).
    unfold piece, lit, ref_rule in *. rewrite W in *. match goal with X : calls_first _ (And _) _ |- _ => inversion X; subst end.
    + match goal with X : calls_first _ (Simple _) _ |- _ => inversion X end.
    + match goal with X : may_be_empty _ (Simple _) |- _ => inversion X end.
  - unfold lit in *. match goal with X : calls_first _ (Simple _) _ |- _ => inversion X end.
Qed.

Lemma G_names : forall n e, G n = Some e -> n = main \/ n = nm_top /\ e = column fst nm_top P \/ n = nm_bottom /\ e = column snd nm_bottom P.
Proof.
  intros n e. unfold G, grammar_of, tile_rules. cbn [rules_get].
  destruct (str_eqb main n) eqn:E1; [apply str_eqb_eq in E1; auto|].
  destruct (str_eqb nm_top n) eqn:E2; [apply str_eqb_eq in E2; intro H; injection H as <-; auto|].
  destruct (str_eqb nm_bottom n) eqn:E3; [apply str_eqb_eq in E3; intro H; injection H as <-; auto|discriminate].
Qed.

Lemma tiles_well_formed : well_formed G.
Proof.
  split.
  - intros n C. assert (X : forall a b, clos_trans str (rule_calls G) a b -> a = main /\ (b = nm_top \/ b = nm_bottom)).
    { intros a b H. induction H as [a b H|a b c H1 IH1 H2 IH2]; [|tauto]. destruct H as [_ (e & E & C')]. destruct (G_names a e E) as [->|[[-> ->]|[-> ->]]].
      - split; [reflexivity|]. injection E as <-. unfold whole, at_end, lit, ref_rule, dot_ in *.
        repeat match goal with X : calls_first _ (_ _) _ |- _ => inversion X; subst; clear X end; auto.
      - exfalso. exact (column_calls _ _ _ C').
      - exfalso. exact (column_calls _ _ _ C'). }
    destruct (X n n C) as [-> [E|E]]; discriminate.
  - intros n e x mn mx E O _. exfalso. destruct (G_names n e E) as [->|[[-> ->]|[-> ->]]]; [|exact (no_repeat _ _ _ _ _ O)|exact (no_repeat _ _ _ _ _ O)].
    injection E as <-.
    unfold whole, at_end, lit, ref_rule, dot_ in *. no_occurs.
Qed.

(** * As a grammar text *)

Lemma ascii_bytes : forall s, ascii s -> byte_text s.
Proof. intros s A. unfold byte_text. eapply Forall_impl; [|exact A]. intros c H. unfold ascii_char in H. lia. Qed.

Lemma column_expressible : forall side nm, (forall t, In t P -> ascii (side t)) -> rule_name nm -> P <> [] -> expressible (column side nm P).
Proof.
  intros side nm A R NE. cbn [column expressible]. split.
  - rewrite app_length. cbn [length]. destruct P; [contradiction|]. cbn. lia.
  - rewrite fold_right_app. cbn [fold_right]. generalize 0. clear NE. revert A. generalize P. intro Q. induction Q as [|t Q IH]; intros A k; cbn [pieces fold_right].
    + split; [|exact Logic.I]. constructor; [reflexivity|constructor].
    + split; [|apply IH; intros x H; apply A; right; exact H]. cbn [piece expressible length fold_right lit ref_rule]. split; [lia|].
      split; [|split; [exact R|split; [apply ascii_bytes, Forall_rev, A; left; reflexivity|exact Logic.I]]].
      pose proof (codes_ascii [k]) as C. cbn [codes flat_map] in C. rewrite app_nil_r in C. exact (ascii_bytes _ C).
Qed.

Lemma tiles_savable : P <> [] -> ascii_tiles P -> savable (tile_rules P).
Proof.
  intros NE A. unfold ascii_tiles in A. rewrite Forall_forall in A.
  assert (W : forall w, w <> [] -> Forall (fun c => 97 <= c /\ c <= 122)%N w -> rule_name w).
  { intros w N F. left. apply dt_one. destruct F as [|c r C F]; [contradiction|]. exists c, r. split; [reflexivity|]. split; [right; left; exact C|].
    eapply Forall_impl; [|exact F]. intros x X. left. right. left. exact X. }
  assert (Main : rule_name main) by (apply W; [discriminate|repeat constructor; discriminate]).
  assert (T : rule_name nm_top) by (apply W; [discriminate|repeat constructor; discriminate]).
  assert (B : rule_name nm_bottom) by (apply W; [discriminate|repeat constructor; discriminate]).
  split; [discriminate|]. constructor; [|constructor; [|constructor; [|constructor]]].
  - split; [exact Main|]. cbn [snd expressible length fold_right lit ref_rule whole at_end dot_]. repeat (split; try exact Logic.I; try lia; try assumption).
    constructor; [reflexivity|constructor].
  - split; [exact T|]. apply column_expressible; [intros t H; exact (proj1 (A t H))|exact T|exact NE].
  - split; [exact B|]. apply column_expressible; [intros t H; exact (proj2 (A t H))|exact B|exact NE].
Qed.

Lemma tile_grammar_takes : P <> [] -> ascii_tiles P -> forall s t, accepts (saved (tile_rules P)) s t <-> exists f, parse f s (tile_rules P) = Ok t.
Proof.
  intros NE A s t.
  assert (U : NoDup (map fst (tile_rules P))). { repeat constructor; cbn; intuition discriminate. }
  destruct (save_load (tile_rules P) (tile_rules P) (proj1 (tiles_savable NE A)) U (Permutation_refl _) (proj2 (tiles_savable NE A))) as (rs & [_ [f0 R]] & _ & E).
  assert (SR : sane_rules rs) by (intros n e H; apply (tiles_sane n e); rewrite <- E; exact H).
  pose proof (accepts_peg (saved (tile_rules P)) f0 rs (R f0 (Nat.le_refl _)) SR s t) as X.
  rewrite X. split.
  - intros [As H]. apply (parse_accepts_iff s (tile_rules P) false tiles_sane As). exact (peg_ext _ _ E _ _ _ H).
  - intros [f H].
    assert (As : ascii s). { destruct (Forall_dec ascii_char ascii_char_dec s) as [As|As]; [exact As|]. exfalso. exact (parse_non_ascii f s (tile_rules P) false t As H). }
    split; [exact As|]. apply (peg_ext (grammar_of (tile_rules P)) (grammar_of rs) (fun n => eq_sym (E n))).
    apply (parse_accepts_iff s (tile_rules P) false tiles_sane As). exists f. exact H.
Qed.

Lemma tile_grammar_solve : P <> [] -> ascii_tiles P -> (exists s t, accepts (saved (tile_rules P)) s t) <-> solvable P.
Proof.
  intros NE A. rewrite <- (tiles_solve A). split; intros [s H]; exists s.
  - destruct H as [t H]. apply (tile_grammar_takes NE A) in H. destruct H as [f H]. exists f, t. exact H.
  - destruct H as (f & t & H). exists t. apply (tile_grammar_takes NE A). exists f. exact H.
Qed.

(** * Rules that accept nothing *)

Lemma none_taken : forall s, ~ takes no_rules s.
Proof.
  intros s (f & t & H). assert (SR : sane_rules no_rules) by (apply sane_rules_all; repeat constructor).
  pose proof (parse_sound f s no_rules false SR) as X. unfold parse in H. rewrite H in X. destruct X as [_ X].
  apply inv_rule in X. destruct X as (e & k & E & _ & X). injection E as <-. apply inv_and_cons in X. destruct X as (t1 & s1 & t2 & _ & X1 & X).
  pose proof (inv_not _ _ _ _ _ X1) as [_ ->]. apply inv_and_cons in X. destruct X as (t3 & s1 & t4 & _ & X & _). apply inv_dot in X. destruct X as (c & -> & _).
  inversion X1; subst. match goal with X : peg _ _ _ ?r, Y : stops ?r |- _ => inversion X; subst; exact Y end.
Qed.

Lemma tiles_same : ascii_tiles P -> ((forall s, takes (tile_rules P) s <-> takes no_rules s) <-> ~ solvable P).
Proof.
  intro A. rewrite <- (tiles_solve A). split.
  - intros H [s X]. apply H in X. exact (none_taken s X).
  - intros N s. split; intro X; exfalso; [apply N; exists s; exact X|exact (none_taken s X)].
Qed.

End Tiles.

(** A text is a solution: the codes of the row, then the text of the row backwards. *)
Lemma solution_text : forall P s, takes (tile_rules P) s <-> ascii s /\ exists is, is <> [] /\ known P is /\ word P fst is = word P snd is /\ s = codes is ++ s_ "#" ++ rev (word P fst is).
Proof. intros P s. rewrite takes_peg, tile_texts. reflexivity. Qed.

Lemma tiles_answered : forall P, sane_rules (tile_rules P) /\ well_formed (grammar_of (tile_rules P)) /\
  forall s debug fuel, depth_factor (tile_rules P) * (length s + 1) <= fuel -> parse_with_debug fuel s (tile_rules P) debug <> Fuel.
Proof.
  intro P. split; [apply tiles_sane|]. split; [apply tiles_well_formed|]. intros s debug fuel L. apply parse_bound; [apply tiles_well_formed|exact L].
Qed.
