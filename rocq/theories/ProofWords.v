(** Words and reserved words. *)
From Verif Require Import Base ModelAst ModelParser SpecPeg SpecPos SpecApi SpecReport SpecTable SpecWords SpecLang.
From Verif Require Import ProofParser ProofEngine ProofApi ProofReport ProofIdioms ProofTable Examples.

Section Words.
Variable G : str -> option expr.
Variable cs : str.
Variable rg : list (char * char).
Notation cls := (in_class cs rg).

Lemma cls_dec : forall c, cls c \/ ~ cls c.
Proof. intro c. destruct (match_char cs rg c) eqn:M; [left; apply match_char_iff; exact M|right; intro C; apply match_char_iff in C; congruence]. Qed.

Lemma first_word_ex : forall s, exists w rest, first_word cs rg s w rest.
Proof.
  induction s as [|c s (w & rest & -> & FW & ST)]; [exists [], []; repeat split; constructor|].
  destruct (cls_dec c) as [C|C]; [exists (c :: w), rest|exists [], (c :: w ++ rest)]; repeat split; try assumption; constructor; assumption.
Qed.

(** A beginning made of chars of the class is not longer than the first word. *)
Lemma first_word_most : forall w rest u x, Forall cls w -> match rest with c :: _ => ~ cls c | [] => True end -> Forall cls u -> w ++ rest = u ++ x ->
  exists m, w = u ++ m.
Proof.
  induction w as [|c w IH]; intros rest u x FW ST FU E.
  - destruct u as [|d u]; [exists []; reflexivity|]. exfalso. cbn in E. subst rest. inversion FU; subst. contradiction.
  - destruct u as [|d u]; [exists (c :: w); reflexivity|]. cbn in E. injection E as <- E. inversion FW; subst. inversion FU; subst.
    destruct (IH rest u x) as (m & ->); try assumption. exists m. reflexivity.
Qed.

(** Which literal of a choice matches. *)
Lemma or_lits : forall words s, (Forall (fun u => forall r, s <> u ++ r) words /\ peg G (Or (map lit words)) s PFail) \/
  (exists l u m r, words = l ++ u :: m /\ Forall (fun u => forall r, s <> u ++ r) l /\ s = u ++ r /\ peg G (Or (map lit words)) s (PMatch [Val u] r)).
Proof.
  induction words as [|u words IH]; intro s; [left; split; [constructor|apply peg_or_nil]|]. cbn [map].
  destruct (starts_dec u s) as [(r & ->)|N].
  - right. exists [], u, words, r. split; [reflexivity|]. split; [constructor|]. split; [reflexivity|]. apply peg_or_first; [apply peg_lit_ok|discriminate].
  - assert (F : peg G (lit u) s PFail) by (apply peg_lit_fail; exact N).
    destruct (IH s) as [[FN H]|(l & v & m & r & -> & FN & E & H)].
    + left. split; [constructor; assumption|]. apply peg_or_next; assumption.
    + right. exists (u :: l), v, m, r. split; [reflexivity|]. split; [constructor; assumption|]. split; [exact E|]. apply peg_or_next; assumption.
Qed.

Lemma stop_class : forall rest, match rest with c :: _ => ~ cls c | [] => True end -> peg G (ematch cs rg) rest PFail.
Proof. intros rest ST. apply peg_class_fail. intros c r ->. exact ST. Qed.

(** If no word is the beginning of a later one, it is the longest one. *)
Lemma longest_word : forall words, longer_first words -> forall s p, peg G (Or (map lit words)) s p <->
  (exists w r, In w words /\ s = w ++ r /\ (forall w' r', In w' words -> s = w' ++ r' -> length w' <= length w) /\ p = PMatch [Val w] r) \/
  ((forall w r, In w words -> s <> w ++ r) /\ p = PFail).
Proof.
  intros words LF s p.
  assert (M : forall l u m r, words = l ++ u :: m -> Forall (fun u => forall r, s <> u ++ r) l -> s = u ++ r ->
            forall w' r', In w' words -> s = w' ++ r' -> length w' <= length u).
  { intros l u m r EW FN E w' r' IN E'. rewrite EW in IN. apply in_app_or in IN. destruct IN as [IN|[<-|IN]]; [| |].
    - rewrite Forall_forall in FN. destruct (FN w' IN r' E').
    - apply Nat.le_refl.
    - apply in_split in IN. destruct IN as (m1 & m2 & ->). destruct (Nat.le_gt_cases (length w') (length u)) as [L|L]; [exact L|]. exfalso.
      apply (LF l u m1 w' m2 (skipn (length u) w') EW). rewrite <- (firstn_skipn (length u) w') at 1. f_equal.
      assert (Q : firstn (length u) s = firstn (length u) w') by (rewrite E', firstn_app; replace (length u - length w') with 0 by lia; apply app_nil_r).
      rewrite <- Q, E, firstn_app, firstn_all, Nat.sub_diag. apply app_nil_r. }
  assert (X : exists p0, peg G (Or (map lit words)) s p0 /\
    ((exists w r, In w words /\ s = w ++ r /\ (forall w' r', In w' words -> s = w' ++ r' -> length w' <= length w) /\ p0 = PMatch [Val w] r) \/
     ((forall w r, In w words -> s <> w ++ r) /\ p0 = PFail))).
  { destruct (or_lits words s) as [[FN H]|(l & u & m & r & EW & FN & E & H)].
    - exists PFail. split; [exact H|right]. split; [|reflexivity]. intros w r IN. rewrite Forall_forall in FN. exact (FN w IN r).
    - exists (PMatch [Val u] r). split; [exact H|left]. exists u, r. split; [rewrite EW; apply in_or_app; right; left; reflexivity|].
      split; [exact E|]. split; [exact (M l u m r EW FN E)|reflexivity]. }
  destruct X as (p0 & H & C). split.
  - intro D. rewrite (peg_det _ _ _ _ D _ H). exact C.
  - intro D. replace p with p0; [exact H|]. destruct C as [(w & r & IN & E & MX & ->)|[N ->]], D as [(w' & r' & IN' & E' & MX' & ->)|[N' ->]].
    + assert (w = w') as <-.
      { pose proof (MX w' r' IN' E'). pose proof (MX' w r IN E).
        assert (Q : firstn (length w) (w ++ r) = firstn (length w) (w' ++ r')) by (rewrite <- E; rewrite E'; reflexivity).
        rewrite !firstn_app, firstn_all, Nat.sub_diag in Q. cbn [firstn] in Q. rewrite app_nil_r in Q.
        replace (length w) with (length w') in Q at 1 2 by lia. rewrite firstn_all in Q. replace (length w - length w') with 0 in Q by lia. rewrite Q.
        rewrite Nat.sub_diag. cbn [firstn]. apply app_nil_r. }
      rewrite E in E'. apply app_inv_head in E'. subst. reflexivity.
    + destruct (N' w r IN E).
    + destruct (N w' r' IN' E').
    + reflexivity.
Qed.

Variable words : list str.
Hypothesis WC : Forall (Forall cls) words.
Hypothesis LF : longer_first words.

Lemma word_in : forall l u m, words = l ++ u :: m -> Forall cls u.
Proof. intros l u m E. rewrite E in WC. apply Forall_app in WC. destruct WC as [_ W]. inversion W; assumption. Qed.

Lemma reserved_run : forall s w rest, first_word cs rg s w rest ->
  (In w words /\ peg G (reserved cs rg words) s (PMatch [Val w] rest)) \/ (~ In w words /\ peg G (reserved cs rg words) s PFail).
Proof.
  intros s w rest (-> & FW & ST). unfold reserved.
  destruct (or_lits words (w ++ rest)) as [[FN H]|(l & u & m & r & EW & FN & E & H)].
  - right. split; [|apply peg_and_stop; [exact H|exact I]]. intro IN. rewrite Forall_forall in FN. exact (FN w IN rest eq_refl).
  - destruct (first_word_most w rest u r FW ST (word_in l u m EW) E) as (x & X).
    destruct x as [|c x].
    + rewrite app_nil_r in X. subst u. apply app_inv_head in E. subst r. left. split; [rewrite EW; apply in_or_app; right; left; reflexivity|].
      change (PMatch [Val w] rest) with (prepend [Val w] (prepend [] (PMatch [] rest))).
      eapply peg_and_cons; [exact H|]. eapply peg_and_cons; [|apply peg_and_nil]. eapply peg_not_ok; [apply stop_class, ST|exact I].
    + subst w. rewrite <- app_assoc in E. apply app_inv_head in E. subst r. right. split.
      * intro IN. rewrite EW in IN. apply in_app_or in IN. destruct IN as [IN|[IN|IN]].
        -- rewrite Forall_forall in FN. exact (FN _ IN rest eq_refl).
        -- rewrite <- (app_nil_r u) in IN at 1. apply app_inv_head in IN. discriminate.
        -- apply in_split in IN. destruct IN as (m1 & m2 & ->). exact (LF l u m1 (u ++ c :: x) m2 (c :: x) EW eq_refl).
      * change PFail with (prepend [Val u] PFail). eapply peg_and_cons; [exact H|]. apply peg_and_stop; [|exact I].
        eapply peg_not_fail. apply peg_class_ok. apply Forall_app in FW. destruct FW as [_ FW]. inversion FW; assumption.
Qed.

Lemma class_run : forall w rest, Forall cls w -> match rest with c :: _ => ~ cls c | [] => True end ->
  peg G (Repeat (ematch cs rg) 0 None) (w ++ rest) (PMatch (by_chars w) rest).
Proof.
  intros w rest FW ST. induction FW as [|c w C FW IH]; [apply peg_rep_done; [discriminate|apply stop_class, ST]|].
  change (by_chars (c :: w)) with ([Val [c]] ++ by_chars w).
  exact (peg_rep_more G (ematch cs rg) 0 None (c :: w ++ rest) [Val [c]] (w ++ rest) _ ltac:(discriminate) (peg_class_ok G cs rg c _ C) IH).
Qed.

Lemma word_run : forall s w rest, first_word cs rg s w rest ->
  (w <> [] -> ~ In w words -> peg G (word_not_in cs rg words) s (PMatch (by_chars w) rest)) /\
  (w = [] \/ In w words -> peg G (word_not_in cs rg words) s PFail).
Proof.
  intros s w rest FW. pose proof (reserved_run s w rest FW) as RR. destruct FW as (-> & FW & ST). unfold word_not_in. split.
  - intros NE NI. destruct RR as [[IN _]|[_ RR]]; [contradiction|].
    change (by_chars w) with ([] ++ by_chars w). change (PMatch ([] ++ by_chars w) rest) with (prepend [] (PMatch (by_chars w) rest)).
    eapply peg_and_cons; [eapply peg_not_ok; [exact RR|exact I]|].
    rewrite <- (app_nil_r (by_chars w)). change (PMatch (by_chars w ++ []) rest) with (prepend (by_chars w) (PMatch [] rest)).
    eapply peg_and_cons; [|apply peg_and_nil]. destruct w as [|c w]; [contradiction|]. inversion FW; subst.
    change (by_chars (c :: w)) with ([Val [c]] ++ by_chars w).
    exact (peg_rep_more G (ematch cs rg) 1 None (c :: w ++ rest) [Val [c]] (w ++ rest) _ ltac:(discriminate) (peg_class_ok G cs rg c _ H1) (class_run w rest H2 ST)).
  - intro H. destruct RR as [[IN RR]|[NI RR]].
    + apply peg_and_stop; [|exact I]. eapply peg_not_fail. exact RR.
    + destruct H as [->|H]; [|contradiction]. change PFail with (prepend [] PFail). eapply peg_and_cons; [eapply peg_not_ok; [exact RR|exact I]|].
      apply peg_and_stop; [|exact I]. apply peg_rep_short; [discriminate|lia|]. apply stop_class, ST.
Qed.

Lemma word_spec : forall s p, peg G (word_not_in cs rg words) s p <->
  exists w rest, first_word cs rg s w rest /\
    ((w <> [] /\ ~ In w words /\ p = PMatch (by_chars w) rest) \/ ((w = [] \/ In w words) /\ p = PFail)).
Proof.
  intros s p. split.
  - intro H. destruct (first_word_ex s) as (w & rest & FW). exists w, rest. split; [exact FW|]. destruct (word_run s w rest FW) as [H1 H2].
    destruct (in_dec (list_eq_dec N.eq_dec) w words) as [IN|NI]; [right; split; [right; exact IN|]; exact (peg_det _ _ _ _ H _ (H2 (or_intror IN)))|].
    destruct w as [|c w]; [right; split; [left; reflexivity|]; exact (peg_det _ _ _ _ H _ (H2 (or_introl eq_refl)))|].
    left. split; [discriminate|]. split; [exact NI|]. exact (peg_det _ _ _ _ H _ (H1 ltac:(discriminate) NI)).
  - intros (w & rest & FW & [(NE & NI & ->)|(C & ->)]); destruct (word_run s w rest FW) as [H1 H2]; auto.
Qed.

End Words.

Lemma words_sane : forall cs rg words, sane_rules [(main, word_not_in cs rg words)].
Proof.
  intros cs rg words. apply sane_rules_all. constructor; [|constructor]. cbn. repeat split. induction words as [|w words IH]; cbn; auto.
Qed.

Lemma accepts_words : forall cs rg words s ast, Forall (Forall (in_class cs rg)) words -> longer_first words -> ascii s ->
  ((exists fuel, parse fuel s [(main, word_not_in cs rg words)] = Ok ast) <->
   (s <> [] /\ Forall (in_class cs rg) s /\ ~ In s words /\ ast = Rule main (by_chars s))).
Proof.
  intros cs rg words s ast WC LF A. set (rs := [(main, word_not_in cs rg words)]). split.
  - intros (fuel & H). destruct (parse_tree fuel s rs ast (words_sane cs rg words) H) as (e & kids & GM & -> & B & _). injection GM as <-.
    apply (word_spec (grammar_of rs) cs rg words WC LF) in B. destruct B as (w & rest & (-> & FW & ST) & [(NE & NI & E)|(_ & E)]); [|discriminate].
    injection E as -> <-. rewrite app_nil_r. auto.
  - intros (NE & FW & NI & ->). apply (parse_accepts_iff s rs false (words_sane cs rg words) A).
    change (PMatch [Rule main (by_chars s)] []) with (wrap main (PMatch (by_chars s) [])). eapply peg_rule; [reflexivity|].
    apply (word_spec (grammar_of rs) cs rg words WC LF). exists s, []. split; [split; [rewrite app_nil_r; reflexivity|]; split; [exact FW|exact I]|].
    left. auto.
Qed.

(** Checking the order of the words. *)
Fixpoint begins (u v : str) : bool :=
  match u, v with
  | [], _ => true
  | a :: u', b :: v' => N.eqb a b && begins u' v'
  | _, _ => false
  end.
Fixpoint longer_first_check (words : list str) : bool :=
  match words with
  | [] => true
  | u :: r => forallb (fun v => negb (begins u v)) r && longer_first_check r
  end.

Lemma begins_app : forall u x, begins u (u ++ x) = true.
Proof. induction u as [|a u IH]; intro x; [reflexivity|]. cbn. rewrite N.eqb_refl. apply IH. Qed.

Lemma longer_first_check_ok : forall words, longer_first_check words = true -> longer_first words.
Proof.
  intros words H l u m v r x -> ->. induction l as [|w l IH]; cbn [app longer_first_check] in H; apply andb_prop in H; destruct H as [H1 H2]; [|apply IH, H2].
  rewrite forallb_forall in H1. assert (IN : In (u ++ x) (m ++ (u ++ x) :: r)) by (apply in_or_app; right; left; reflexivity). specialize (H1 _ IN). rewrite begins_app in H1. discriminate.
Qed.
