(** Records of fixed width are read exactly. *)
From Verif Require Import Base ModelAst ModelParser SpecPeg SpecPos SpecApi SpecReport SpecTable SpecRecords.
From Verif Require Import ProofParser ProofEngine ProofApi ProofReport ProofAst ProofTable.

Lemma record_length : forall fs w, is_record fs w -> length fs = length w.
Proof. intros fs w H. induction H; cbn; congruence. Qed.

Definition cls (f : column) : expr := ematch (fst f) (snd f).

Lemma record_run : forall G fs w rest, is_record fs w -> pege G (And (map cls fs)) (w ++ rest) (EMatch (by_chars w) rest None []).
Proof.
  intros G fs w rest H. induction H as [|f c fs w F H IH]; [apply ee_and_nil|]. cbn [map app by_chars].
  exact (ee_and_cons G _ _ _ _ _ _ _ _ (ee_class_ok G (fst f) (snd f) c (w ++ rest) F) IH).
Qed.

Lemma record_bad : forall G gs f hs w rest, is_record gs w -> match rest with [] => True | c :: _ => ~ fits f c end ->
  pege G (And (map cls (gs ++ f :: hs))) (w ++ rest) (EFail (Report (class_msg (fst f) (snd f)) (tl rest) [])).
Proof.
  intros G gs f hs w rest H B. induction H as [|g c gs w F H IH]; cbn [map app].
  - apply ee_and_stop; [|exact I]. destruct rest as [|c rest]; [apply ee_class_end|apply ee_class_fail; exact B].
  - exact (ee_and_cons G _ _ _ _ _ _ _ _ (ee_class_ok G (fst g) (snd g) c (w ++ rest) F) IH).
Qed.

Section Records.
Variable fs : list column.
Let rs := record_rules fs.
Let G := grammar_of rs.

Lemma records_sane : sane_rules rs.
Proof.
  intros n e H. unfold rs, record_rules, rules_macro in H. cbn [fold_left fst snd] in H. unfold rules_add, hm_insert in H. cbn in H.
  repeat match type of H with context [if ?b then _ else _] => destruct b end; try discriminate; injection H as <-.
  - cbn [sane]. induction fs as [|f l IH]; cbn; auto.
  - cbn. auto.
Qed.

Definition trail (k : nat) : list str := main :: repeat nm_record k.

Lemma loop_run : forall l gs f hs w rest, Forall (is_record fs) l -> fs = gs ++ f :: hs -> is_record gs w -> match rest with [] => True | c :: _ => ~ fits f c end ->
  pege G (Repeat (RuleName nm_record) 0 None) (concat l ++ w ++ rest)
    (EMatch (map (fun w => Rule nm_record (by_chars w)) l) (w ++ rest)
      (Some (Report (class_msg (fst f) (snd f)) (tl rest) (repeat nm_record (S (length l))))) (repeat nm_record (length l))).
Proof.
  intros l gs f hs w rest FL E H B. induction FL as [|x l X FL IH].
  - cbn [concat app map length repeat]. apply ee_rep_done; [discriminate|].
    pose proof (record_bad G gs f hs w rest H B) as R. rewrite <- E in R.
    exact (ee_rule G nm_record _ _ _ eq_refl R).
  - cbn [concat map length]. rewrite <- app_assoc.
    pose proof (ee_rule G nm_record _ _ _ eq_refl (record_run G fs x (concat l ++ w ++ rest) X)) as R.
    pose proof (ee_rep_more G _ 0 None _ _ _ _ _ _ ltac:(discriminate) R IH) as T.
    cbn [within after option_map shift r_descr r_rest r_trail app] in T. exact T.
Qed.

Lemma main_run : forall l gs f w rest s, stops_at fs l gs f w rest s ->
  pege G (RuleName main) s (EMatch [records_tree l] (w ++ rest) (Some (Report (class_msg (fst f) (snd f)) (tl rest) (trail (S (length l))))) (trail (length l))).
Proof.
  intros l gs f w rest s (FL & (hs & E) & H & B & ->). exact (ee_rule G main _ _ _ eq_refl (loop_run l gs f hs w rest FL E H B)).
Qed.

Hypothesis NE : fs <> [].

Lemma accepts_records : forall l d, Forall (is_record fs) l -> ascii (concat l) -> exists fuel, parse_with_debug fuel (concat l) rs d = Ok (records_tree l).
Proof.
  intros l d FL A. apply (parse_report_iff _ rs d _ records_sane A); [discriminate|].
  assert (X : exists f hs, fs = f :: hs) by (clear - NE; destruct fs as [|f hs]; [contradiction|eauto]). destruct X as (f & hs & E).
  assert (S0 : stops_at fs l [] f [] [] (concat l)).
  { split; [exact FL|]. split; [exists hs; exact E|]. split; [constructor|]. split; [exact I|]. rewrite !app_nil_r. reflexivity. }
  eexists. split; [exact (main_run l [] f [] [] _ S0)|constructor].
Qed.

Lemma rejects_records : forall l gs f w rest s d, stops_at fs l gs f w rest s -> w ++ rest <> [] -> ascii s -> exists fuel, parse_with_debug fuel s rs d =
  Err (error_at s d Normal (Report (class_msg (fst f) (snd f)) (tl rest) (trail (S (length l))))).
Proof.
  intros l gs f w rest s d ST N A. apply (parse_report_iff _ rs d _ records_sane A); [discriminate|].
  eexists. split; [exact (main_run l gs f w rest s ST)|]. destruct (w ++ rest); [contradiction|constructor].
Qed.

Lemma fits_dec : forall f c, fits f c \/ ~ fits f c.
Proof.
  intros f c. unfold fits. destruct (match_char (fst f) (snd f) c) eqn:E.
  - left. apply match_char_iff. exact E.
  - right. intros H. apply match_char_iff in H. congruence.
Qed.

Lemma one_record : forall gs s, (exists w rest, is_record gs w /\ s = w ++ rest) \/
  (exists g1 f hs w rest, gs = g1 ++ f :: hs /\ is_record g1 w /\ match rest with [] => True | c :: _ => ~ fits f c end /\ s = w ++ rest).
Proof.
  induction gs as [|g gs IH]; intros s.
  - left. exists [], s. split; [constructor|reflexivity].
  - destruct s as [|c s].
    + right. exists [], g, gs, [], []. repeat split. constructor.
    + destruct (fits_dec g c) as [F|F].
      * destruct (IH s) as [(w & rest & W & ->)|(g1 & f & hs & w & rest & -> & W & B & ->)].
        -- left. exists (c :: w), rest. split; [constructor; assumption|reflexivity].
        -- right. exists (g :: g1), f, hs, (c :: w), rest. repeat split; [constructor; assumption|exact B].
      * right. exists [], g, gs, [], (c :: s). repeat split; [constructor|exact F].
Qed.

Lemma every_text : forall s, exists l gs f w rest, stops_at fs l gs f w rest s.
Proof.
  intros s. remember (length s) as n eqn:L. revert s L. induction n as [n IH] using lt_wf_ind. intros s L.
  destruct (one_record fs s) as [(w & rest & W & E)|(g1 & f & hs & w & rest & E & W & B & ->)].
  - pose proof (record_length _ _ W) as LW. assert (0 < length fs) by (clear - NE; destruct fs; [contradiction|cbn; lia]).
    assert (LS : length s = length w + length rest) by (rewrite E; apply app_length).
    destruct (IH (length rest) ltac:(lia) rest eq_refl) as (l & gs & f & w' & rest' & FL & X & Y & Z & R).
    exists (w :: l), gs, f, w', rest'. split; [constructor; assumption|]. split; [exact X|]. split; [exact Y|]. split; [exact Z|].
    rewrite E, R. cbn [concat]. rewrite <- app_assoc. reflexivity.
  - exists [], g1, f, w, rest. split; [constructor|]. split; [exists hs; exact E|]. auto.
Qed.

Lemma widths : forall l, Forall (is_record fs) l -> length (concat l) = length l * length fs.
Proof.
  intros l H. induction H as [|w l W H IH]; [reflexivity|]. cbn [concat length]. rewrite app_length, IH, <- (record_length _ _ W). lia.
Qed.

Lemma place_of_stop : forall l gs f w rest s d msg t, stops_at fs l gs f w rest s ->
  pn (e_pos (error_at s d Normal (Report msg (tl rest) t))) = length l * length fs + length gs + match rest with [] => 0 | _ => 1 end.
Proof.
  intros l gs f w rest s d msg t (FL & _ & W & _ & ->). unfold error_at. cbn [e_pos r_rest]. unfold pos_of. cbn [pn]. unfold before.
  rewrite firstn_length, !app_length, (widths l FL), <- (record_length _ _ W). unfold str, char in *. destruct rest as [|c rest]; cbn [tl length]; lia.
Qed.

Lemma only_records : forall fuel s d ast, ascii s -> parse_with_debug fuel s rs d = Ok ast -> exists l, Forall (is_record fs) l /\ s = concat l /\ ast = records_tree l.
Proof.
  intros fuel s d ast A H. destruct (every_text s) as (l & gs & f & w & rest & ST).
  destruct (w ++ rest) as [|c r] eqn:E.
  - apply app_eq_nil in E. destruct E as [-> ->]. pose proof ST as (FL & _ & _ & _ & E). rewrite !app_nil_r in E. exists l. split; [exact FL|]. split; [exact E|].
    subst s. destruct (accepts_records l d FL A) as (f' & H').
    pose proof (parse_same _ _ _ _ _ _ _ records_sane A H H' ltac:(discriminate) ltac:(discriminate)). congruence.
  - exfalso. destruct (rejects_records l gs f w rest s d ST ltac:(rewrite E; discriminate) A) as (f' & H').
    pose proof (parse_same _ _ _ _ _ _ _ records_sane A H H' ltac:(discriminate) ltac:(discriminate)). congruence.
Qed.

Lemma record_errors : forall fuel s d er, ascii s -> parse_with_debug fuel s rs d = Err er -> exists l gs f w rest, stops_at fs l gs f w rest s /\ w ++ rest <> [] /\
  er = error_at s d Normal (Report (class_msg (fst f) (snd f)) (tl rest) (trail (S (length l)))).
Proof.
  intros fuel s d er A H. destruct (every_text s) as (l & gs & f & w & rest & ST). exists l, gs, f, w, rest. split; [exact ST|].
  assert (N : w ++ rest <> []).
  { intros E. apply app_eq_nil in E. destruct E as [-> ->]. destruct ST as (FL & _ & _ & _ & E). rewrite !app_nil_r in E. subst s.
    destruct (accepts_records l d FL A) as (f' & H').
    pose proof (parse_same _ _ _ _ _ _ _ records_sane A H H' ltac:(discriminate) ltac:(discriminate)). congruence. }
  split; [exact N|]. destruct (rejects_records l gs f w rest s d ST N A) as (f' & H').
  pose proof (parse_same _ _ _ _ _ _ _ records_sane A H H' ltac:(discriminate) ltac:(discriminate)). congruence.
Qed.
End Records.

(** If anything can stand in each column, only the length matters. *)
Lemma any_records : forall fs : list column, fs <> [] -> forall s, Forall (fun f => forall c, In c s -> fits f c) fs ->
  ((exists l, Forall (is_record fs) l /\ s = concat l) <-> exists k, length s = k * length fs).
Proof.
  intros fs NE s F. split.
  - intros (l & FL & ->). exists (length l). apply widths, FL.
  - intros (k & L). revert s F L. induction k as [|k IH]; intros s F L.
    + exists []. split; [constructor|]. destruct s; [reflexivity|discriminate].
    + assert (C : forall gs s, Forall (fun f => forall c, In c s -> fits f c) gs -> length gs <= length s -> is_record gs (firstn (length gs) s)).
      { clear. induction gs as [|g gs IH]; intros s F L; [constructor|]. destruct s as [|c s]; [cbn in L; lia|]. inversion F as [|? ? F1 F2]; subst.
        cbn [length firstn]. constructor; [apply F1; left; reflexivity|]. apply IH; [|cbn in L; lia].
        eapply Forall_impl; [|exact F2]. cbn. intros a H x X. apply H. right. exact X. }
      destruct (IH (skipn (length fs) s)) as (l & FL & E).
      * eapply Forall_impl; [|exact F]. cbn. intros a H x X. apply H. rewrite <- (firstn_skipn (length fs) s). apply in_or_app. right. exact X.
      * rewrite skipn_length. unfold str, char in *. cbn in L. lia.
      * exists (firstn (length fs) s :: l). split; [constructor; [apply C; [exact F|unfold str, char in *; cbn in L; lia]|exact FL]|].
        cbn [concat]. rewrite <- E. symmetry. apply firstn_skipn.
Qed.

(** Without columns a record takes nothing, and the repetition does not end. *)
Lemma rule_name_inv : forall G n s r, pege G (RuleName n) s r -> (exists e r', G n = Some e /\ pege G e s r' /\ r = within n r') \/ G n = None.
Proof. intros G n s r H. inversion H; subst; eauto 6. Qed.

Lemma empty_record : forall s r, pege (grammar_of (record_rules [])) (RuleName nm_record) s r -> ~ estops r.
Proof.
  intros s r H. destruct (rule_name_inv _ _ _ _ H) as [(e & r' & E & D & ->)|E]; cbn in E; [|discriminate].
  injection E as <-. inversion D; subst; cbn; auto.
Qed.

Lemma empty_records : forall e s r, pege (grammar_of (record_rules [])) e s r -> e = Repeat (RuleName nm_record) 0 None -> False.
Proof.
  intros e s r H. induction H; intros E; try discriminate E; injection E; intros; subst.
  - auto.
  - match goal with H : pege _ (RuleName _) _ _ |- _ => apply empty_record in H; apply H; exact I end.
  - lia.
  - match goal with H : pege _ (RuleName _) _ _ |- _ => apply empty_record in H; apply H; exact I end.
Qed.

Lemma no_columns : forall fuel s d, ascii s -> parse_with_debug fuel s (record_rules []) d = Fuel.
Proof.
  intros fuel s d A.
  assert (N : ~ parse_with_debug fuel s (record_rules []) d <> Fuel).
  { intros N. destruct (proj1 (parse_report_iff s (record_rules []) d _ (records_sane []) A N) (ex_intro _ fuel eq_refl)) as (r & D & _).
    destruct (rule_name_inv _ _ _ _ D) as [(e & r' & E & X & ->)|E]; cbn in E; [injection E as <-; exact (empty_records _ _ _ X eq_refl)|discriminate]. }
  destruct (parse_with_debug fuel s (record_rules []) d); try reflexivity; exfalso; apply N; discriminate.
Qed.

Lemma records_compact : forall fs, fs <> [] -> forall l, Forall (is_record fs) l -> compact (records_tree l) = Rule main (map (fun w => Rule nm_record [Val w]) l).
Proof.
  intros fs NE l H. unfold records_tree. rewrite compact_rule. f_equal. induction H as [|w l W H IH]; [reflexivity|].
  cbn [map]. rewrite compact_rule_then, IH. f_equal. rewrite compact_rule, compact_chars. f_equal.
  destruct w; [|reflexivity]. inversion W. subst. contradiction.
Qed.

Lemma one_list : forall fs, fs <> [] -> forall l l', Forall (is_record fs) l -> Forall (is_record fs) l' -> concat l = concat l' -> l = l'.
Proof.
  intros fs NE l l' H. revert l'. induction H as [|w l W H IH]; intros l' H' E.
  - destruct H' as [|w' l' W' H']; [reflexivity|]. exfalso. apply record_length in W'. destruct fs, w'; try contradiction; discriminate.
  - destruct H' as [|w' l' W' H'].
    + exfalso. apply record_length in W. destruct fs, w; try contradiction; discriminate.
    + cbn [concat] in E. pose proof (record_length _ _ W) as L. pose proof (record_length _ _ W') as L'.
      assert (D : forall (a b c d : str), length a = length b -> a ++ c = b ++ d -> a = b /\ c = d).
      { clear. induction a as [|x a IH]; intros [|y b] c d L E; try discriminate L; [auto|]. cbn [app] in E. injection E as -> E. injection L as L.
        destruct (IH b c d L E) as [-> ->]. auto. }
      destruct (D w w' _ _ ltac:(congruence) E) as [-> E']. f_equal. apply IH; assumption.
Qed.
