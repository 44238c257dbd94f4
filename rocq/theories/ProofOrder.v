(** The order of the literals in a choice. *)
From Coq Require Import Permutation.
From Verif Require Import Base ModelAst ModelParser SpecPeg SpecPos SpecApi SpecRefactor SpecSwap SpecOrder.
From Verif Require Import ProofParser ProofEngine ProofApi ProofPower PegTools ProofTill ProofRefactor ProofSwap.

Definition lits (ws : list str) : expr := Or (map lit ws).

Lemma starts_dec : forall u w, {starts u w} + {~ starts u w}.
Proof.
  induction u as [|c u IH]; intros [|d w].
  - left. exists []. reflexivity.
  - left. exists (d :: w). reflexivity.
  - right. intros [r E]. discriminate.
  - destruct (N.eq_dec c d) as [->|N]; [|right; intros [r E]; cbn in E; congruence].
    destruct (IH w) as [Y|Y]; [left; destruct Y as [r ->]; exists r; reflexivity|right; intros [r E]; cbn in E; injection E as E; apply Y; exists r; exact E].
Qed.

Lemma starts_refl : forall w, starts w w.
Proof. intro w. exists []. symmetry. apply app_nil_r. Qed.

Lemma starts_both : forall s u w, starts u s -> starts w s -> length u <= length w -> starts u w.
Proof.
  induction s as [|c s IH]; intros u w [r E] [q F] L.
  - symmetry in E, F. apply app_eq_nil in E, F. destruct E as [-> _], F as [-> _]. apply starts_refl.
  - destruct u as [|d u]; [exists w; reflexivity|]. destruct w as [|d' w]; [cbn in L; lia|]. injection E as <- E. injection F as <- F.
    destruct (IH u w) as [x X]; [exists r; exact E|exists q; exact F|cbn in L; lia|]. exists x. rewrite X. reflexivity.
Qed.

Lemma starts_len : forall u w, starts u w -> length u <= length w.
Proof. intros u w [r ->]. rewrite app_length. lia. Qed.

Lemma starts_same : forall u w, starts u w -> length w <= length u -> u = w.
Proof. intros u w [r ->] L. rewrite app_length in L. destruct r; [symmetry; apply app_nil_r|cbn in L; lia]. Qed.

Section G.
Variable G : str -> option expr.

(** The first literal the text starts with. *)
Lemma first_lit : forall ws s p, peg G (lits ws) s p ->
  (exists b w a r, ws = b ++ w :: a /\ s = w ++ r /\ (forall u, In u b -> ~ starts u s) /\ p = PMatch [Val w] r) \/
  ((forall w, In w ws -> ~ starts w s) /\ p = PFail).
Proof.
  induction ws as [|x ws IH]; intros s p D.
  - inversion D; subst. right. split; [intros w []|reflexivity].
  - unfold lits in D. cbn [map] in D. inversion D; subst.
    + match goal with H : peg G (lit x) _ _ |- _ => unfold lit in H; inversion H; subst end; [|congruence].
      left. exists [], x, ws, rest. repeat split. intros u [].
    + match goal with H : peg G (lit x) _ _ |- _ => unfold lit in H; inversion H; subst end.
      destruct (IH s p H4) as [(b & w & a & r & -> & -> & N & ->)|[N ->]].
      * left. exists (x :: b), w, a, r. repeat split. intros u [<- | I]; [intros [q Q]; exact (H0 q Q)|exact (N u I)].
      * right. split; [|reflexivity]. intros w [<- | I]; [intros [q Q]; exact (H0 q Q)|exact (N w I)].
Qed.

Lemma lits_total : forall ws s, exists p, peg G (lits ws) s p.
Proof.
  induction ws as [|x ws IH]; intro s; [exists PFail; constructor|]. unfold lits. cbn [map].
  destruct (starts_dec x s) as [[r ->]|N].
  - exists (PMatch [Val x] r). apply mk_or1. apply mk_lit. reflexivity.
  - destruct (IH s) as [p D]. exists p. apply peg_or_next; [|exact D]. apply peg_lit_fail. intros r E. apply N. exists r. exact E.
Qed.
End G.

Lemma used_in : forall ws w, used ws w -> In w ws.
Proof. intros ws w (b & a & -> & _). apply in_or_app. right. left. reflexivity. Qed.

(** A literal the text starts with begins with one that is used. *)
Lemma some_used : forall ws w, In w ws -> exists u, used ws u /\ starts u w.
Proof.
  induction ws as [|x ws IH]; intros w I; [destruct I|].
  destruct (starts_dec x w) as [S|S].
  - exists x. split; [exists [], ws; split; [reflexivity|intros u []]|exact S].
  - destruct I as [-> | I]; [destruct (S (starts_refl w))|]. destruct (IH w I) as (u & (b & a & E & N) & T).
    exists u. split; [|exact T]. exists (x :: b), a. split; [rewrite E; reflexivity|]. intros v [<- | J]; [|exact (N v J)].
    intros [q Q]. apply S. destruct T as [q' ->]. exists (q ++ q'). rewrite Q, app_assoc. reflexivity.
Qed.

Lemma two_places : forall {A} (b : list A) x a b' y a', b ++ x :: a = b' ++ y :: a' -> In x b' \/ In y b \/ (b = b' /\ x = y /\ a = a').
Proof.
  intros A b. induction b as [|z b IH]; intros x a [|z' b'] y a' E; cbn in E; injection E as E1 E2.
  - right. right. auto.
  - left. left. congruence.
  - right. left. left. congruence.
  - destruct (IH _ _ _ _ _ E2) as [I|[I|(-> & -> & ->)]]; [left; right; exact I|right; left; right; exact I|subst; auto].
Qed.

(** What is matched: the longest of the used literals. *)
Definition longest_used (ws : list str) (s : str) (p : presult) : Prop :=
  (exists w r, used ws w /\ s = w ++ r /\ (forall u, used ws u -> starts u s -> length u <= length w) /\ p = PMatch [Val w] r) \/
  ((forall w, used ws w -> ~ starts w s) /\ p = PFail).

Lemma longest_used_det : forall ws s p q, longest_used ws s p -> longest_used ws s q -> p = q.
Proof.
  intros ws s p q [(w & r & U & E & M & ->)|[N ->]] [(w' & r' & U' & E' & M' & ->)|[N' ->]]; [| | |reflexivity].
  - assert (W : w = w').
    { assert (S1 : starts w s) by (exists r; exact E). assert (S2 : starts w' s) by (exists r'; exact E').
      pose proof (M w' U' S2). pose proof (M' w U S1). apply starts_same; [|lia]. apply (starts_both s); [assumption|assumption|lia]. }
    subst w'. rewrite E in E'. apply app_inv_head in E'. subst. reflexivity.
  - destruct (N' w U). exists r. exact E.
  - destruct (N w' U'). exists r'. exact E'.
Qed.

Lemma lits_longest : forall G ws s p, peg G (lits ws) s p <-> longest_used ws s p.
Proof.
  assert (F : forall G ws s p, peg G (lits ws) s p -> longest_used ws s p).
  { intros G ws s p D. destruct (first_lit G ws s p D) as [(b & w & a & r & E & Es & N & ->)|[N ->]].
    - left. exists w, r. repeat split; [|exact Es|].
      + exists b, a. split; [exact E|]. intros u I T. apply (N u I). destruct T as [q ->]. exists (q ++ r). rewrite Es, <- app_assoc. reflexivity.
      + intros u (b' & a' & E' & N') S. destruct (Nat.le_gt_cases (length u) (length w)) as [L|L]; [exact L|exfalso].
        rewrite E in E'. destruct (two_places _ _ _ _ _ _ E') as [I|[I|(_ & -> & _)]].
        * apply (N' w I). apply (starts_both s); [exists r; exact Es|exact S|lia].
        * exact (N u I S).
        * lia.
    - right. split; [|reflexivity]. intros w U. apply N. apply used_in. exact U. }
  intros G ws s p. split; [apply F|]. intro L. destruct (lits_total G ws s) as [q D]. pose proof (F _ _ _ _ D) as L'.
  rewrite (longest_used_det _ _ _ _ L L'). exact D.
Qed.

Lemma longest_used_ext : forall ws ws' s p, (forall w, used ws w <-> used ws' w) -> longest_used ws s p -> longest_used ws' s p.
Proof.
  intros ws ws' s p H [(w & r & U & E & M & ->)|[N ->]].
  - left. exists w, r. repeat split; [apply H; exact U|exact E|]. intros u V. apply M. apply H. exact V.
  - right. split; [|reflexivity]. intros w U. apply N. apply H. exact U.
Qed.

Lemma same_used_equiv : forall ws ws', (forall w, used ws w <-> used ws' w) -> forall G, equiv G (lits ws) (lits ws').
Proof.
  intros ws ws' H G s r. rewrite !lits_longest. split; apply longest_used_ext; [exact H|intro w; symmetry; apply H].
Qed.

Lemma lits_sane : forall ws, sane (lits ws).
Proof. induction ws as [|w l IH]; cbn; [exact I|]. split; [exact I|]. exact IH. Qed.

(** Alone, the choice accepts the used literals. *)
Lemma lits_parse : forall ws s ast, ascii s -> (exists fuel, parse fuel s [(main, lits ws)] = Ok ast) <-> used ws s /\ ast = Rule main [Val s].
Proof.
  intros ws s ast A. rewrite (one_parse _ s ast (lits_sane ws) A). split.
  - intros (ts & D & ->). apply lits_longest in D. destruct D as [(w & r & U & E & M & Q)|[_ Q]]; [|discriminate]. injection Q as -> <-.
    rewrite app_nil_r in E. subst. auto.
  - intros [U ->]. exists [Val s]. split; [|reflexivity]. apply lits_longest. left. exists s, []. rewrite app_nil_r. repeat split; [exact U|].
    intros u _. apply starts_len.
Qed.

Lemma lits_one_sane : forall ws, sane_rules [(main, lits ws)].
Proof. intros ws n e E. cbn [rules_get] in E. destruct (str_eqb main n); [|discriminate]. injection E as <-. apply lits_sane. Qed.

Lemma lits_interchange : forall ws ws', Forall ascii ws -> Forall ascii ws' ->
  (interchangeable (lits ws) (lits ws') <-> forall w, used ws w <-> used ws' w).
Proof.
  intros ws ws' A A'. split.
  - intros H.
    assert (SA : same_answers [(main, lits ws)] [(main, lits ws')]).
    { apply H; [apply lits_one_sane|apply lits_one_sane|]. intro n. cbn [rules_get]. destruct (str_eqb main n); [|exact I]. apply rp_here. auto. }
    assert (K : forall w, ascii w -> (used ws w <-> used ws' w)).
    { intros w W. destruct (SA w W) as [SO _]. specialize (SO (Rule main [Val w])). rewrite !lits_parse in SO by exact W. tauto. }
    rewrite Forall_forall in A, A'. intro w. split; intro U; (apply K; [|exact U]); [apply A|apply A']; apply used_in; exact U.
  - intro H. apply law_interchangeable. apply same_used_equiv. exact H.
Qed.

(** * A literal that starts with an earlier one *)

Lemma shadowed_equiv : forall es1 u es2 v a es3 G, starts u v ->
  equiv G (Or (es1 ++ lit u :: es2 ++ And (lit v :: a) :: es3)) (Or (es1 ++ lit u :: es2 ++ es3)).
Proof.
  intros es1 u es2 v a es3 G [x ->].
  assert (Fa : forall s, peg G (lit u) s PFail -> peg G (And (lit (u ++ x) :: a)) s PFail).
  { intros s D. apply mk_and_fail1. unfold lit in *. inversion D; subst. apply peg_lit_fail. intros rest E. rewrite <- app_assoc in E. exact (H0 _ E). }
  assert (T2 : forall es s r, peg G (lit u) s PFail -> (peg G (Or (es ++ And (lit (u ++ x) :: a) :: es3)) s r <-> peg G (Or (es ++ es3)) s r)).
  { induction es as [|e es IH]; intros s r D; cbn [app].
    - split; intro H; [|apply peg_or_next; [apply Fa; exact D|exact H]]. inversion H; subst; [|assumption].
      match goal with K : peg G (And _) s r |- _ => pose proof (peg_det _ _ _ _ K _ (Fa s D)) end. contradiction.
    - split; intro H; inversion H; subst; try (apply peg_or_first; assumption); (apply peg_or_next; [assumption|]); apply IH; assumption. }
  induction es1 as [|e es IH]; cbn [app]; intros s r.
  - split; intro H; inversion H; subst; try (apply peg_or_first; assumption); (apply peg_or_next; [assumption|]); apply T2; assumption.
  - split; intro H; inversion H; subst; try (apply peg_or_first; assumption); (apply peg_or_next; [assumption|]); apply IH; assumption.
Qed.

Lemma shadowed_lit_equiv : forall es1 u es2 v es3 G, starts u v ->
  equiv G (Or (es1 ++ lit u :: es2 ++ lit v :: es3)) (Or (es1 ++ lit u :: es2 ++ es3)).
Proof.
  intros es1 u es2 v es3 G S s r. rewrite <- (shadowed_equiv es1 u es2 v [] es3 G S s r).
  apply (replaced_equiv G). apply rp_or. apply Forall2_app; [clear; induction es1; constructor; [apply rp_same|assumption]|].
  constructor; [apply rp_same|]. apply Forall2_app; [clear; induction es2; constructor; [apply rp_same|assumption]|].
  constructor; [|clear; induction es3; constructor; [apply rp_same|assumption]].
  apply rp_here. intros s' r'. split; intro H.
  - unfold lit in *. inversion H; subst; [exact (mk_and G _ _ _ _ _ [] _ H (peg_and_nil G _))|apply mk_and_fail1; exact H].
  - inversion H; subst.
    + match goal with K : peg G (And []) _ _ |- _ => inversion K; subst end. cbn [prepend]. rewrite app_nil_r. assumption.
    + assumption.
Qed.

(** * All orders *)

Lemma used_all : forall ws, apart ws -> forall w, used ws w <-> In w ws.
Proof.
  intros ws Ap w. split; [apply used_in|]. intro I. destruct (some_used ws w I) as (u & U & S).
  rewrite <- (Ap u w (used_in _ _ U) I S). exact U.
Qed.

Lemma apart_perm : forall ws ws', Permutation ws ws' -> apart ws -> apart ws'.
Proof. intros ws ws' P Ap u w I J. apply Ap; (eapply Permutation_in; [apply Permutation_sym; exact P|assumption]). Qed.

Lemma orders_alike : forall ws, Forall ascii ws ->
  ((forall ws', Permutation ws ws' -> interchangeable (lits ws) (lits ws')) <-> apart ws).
Proof.
  intros ws A. split.
  - intros H u w Iu Iw S. destruct (list_eq_dec N.eq_dec u w) as [E|N]; [exact E|exfalso].
    (* u first, w last *)
    assert (P : exists l, Permutation ws (u :: l) /\ In w l).
    { destruct (in_split _ _ Iu) as (l1 & l2 & ->). exists (l1 ++ l2). split; [symmetry; apply Permutation_middle|].
      apply in_app_or in Iw. apply in_or_app. destruct Iw as [I|[E|I]]; [left; exact I|congruence|right; exact I]. }
    destruct P as (l & P & Il).
    assert (Pw : exists l', Permutation ws (w :: l')). { destruct (in_split _ _ Iw) as (l1 & l2 & ->). exists (l1 ++ l2). symmetry. apply Permutation_middle. }
    destruct Pw as (l' & P').
    assert (Al : forall ws', Permutation ws ws' -> Forall ascii ws').
    { intros ws' Q. rewrite Forall_forall in *. intros x Ix. apply A. eapply Permutation_in; [apply Permutation_sym; exact Q|exact Ix]. }
    pose proof (proj1 (lits_interchange _ _ A (Al _ P)) (H _ P) w) as K.
    pose proof (proj1 (lits_interchange _ _ A (Al _ P')) (H _ P') w) as K'.
    assert (U : used (w :: l') w) by (exists [], l'; split; [reflexivity|intros x []]).
    apply K' in U. apply K in U. destruct U as (b & a & E & Nb). destruct b as [|x b]; cbn in E; injection E as E1 E2; [congruence|].
    subst x. exact (Nb u (or_introl eq_refl) S).
  - intros Ap ws' P. apply law_interchangeable. apply same_used_equiv. intro w. rewrite (used_all ws Ap), (used_all ws' (apart_perm _ _ P Ap)).
    split; apply Permutation_in; [exact P|apply Permutation_sym; exact P].
Qed.

(** * Orders in which every literal is used *)

Lemma all_used : forall ws, (forall w, In w ws -> used ws w) <-> (forall l u m v r, ws = l ++ u :: m ++ v :: r -> starts u v -> In v (l ++ [u])).
Proof.
  intro ws. split.
  - intros H l u m v r E S. assert (I : In v ws) by (rewrite E; apply in_or_app; right; right; apply in_or_app; right; left; reflexivity).
    destruct (H v I) as (b & a & E' & N). rewrite E in E'.
    destruct (two_places _ _ _ _ _ _ E') as [J|[J|(_ & -> & _)]].
    + destruct (N u J S).
    + apply in_or_app. left. exact J.
    + apply in_or_app. right. left. reflexivity.
  - intros H w I. revert H I. 
    assert (K : forall pre, (forall l u m v r, ws = l ++ u :: m ++ v :: r -> starts u v -> In v (l ++ [u])) -> forall post, ws = pre ++ post ->
      In w post -> ~ In w pre -> used ws w).
    { intros pre H post. revert pre. induction post as [|x post IH]; intros pre E I N; [destruct I|].
      destruct (list_eq_dec N.eq_dec x w) as [->|D].
      - exists pre, post. split; [exact E|]. intros u J S. destruct (in_split _ _ J) as (l & m & ->). apply N.
        rewrite <- app_assoc in E. pose proof (H l u m w post E S) as Q. apply in_app_or in Q. apply in_or_app.
        destruct Q as [Q|[Q|[]]]; [left; exact Q|right; left; exact Q].
      - destruct I as [I|I]; [congruence|]. apply (IH (pre ++ [x])); [rewrite <- app_assoc; exact E|exact I|].
        intro Q. apply in_app_or in Q. destruct Q as [Q|[Q|[]]]; [exact (N Q)|congruence]. }
    intros H I. exact (K [] H ws eq_refl I (fun x => x)).
Qed.

Lemma long_first : forall ws, (forall l u m v r, ws = l ++ u :: m ++ v :: r -> length v <= length u) -> forall w, In w ws -> used ws w.
Proof.
  intros ws H. apply all_used. intros l u m v r E S. rewrite (starts_same u v S (H _ _ _ _ _ E)). apply in_or_app. right. left. reflexivity.
Qed.

(** * Computed *)

Fixpoint startsb (u w : str) : bool :=
  match u, w with
  | [], _ => true
  | c :: u', d :: w' => N.eqb c d && startsb u' w'
  | _, [] => false
  end.

Lemma startsb_ok : forall u w, startsb u w = true <-> starts u w.
Proof.
  induction u as [|c u IH]; intros w; cbn [startsb]; [split; [intros _; exists w; reflexivity|reflexivity]|].
  destruct w as [|d w]; [split; [discriminate|intros [r E]; discriminate]|]. rewrite andb_true_iff, N.eqb_eq, IH. split.
  - intros [-> [r ->]]. exists r. reflexivity.
  - intros [r E]. cbn in E. injection E as -> ->. split; [reflexivity|exists r; reflexivity].
Qed.

Fixpoint used_from (before ws : list str) : list str :=
  match ws with
  | [] => []
  | w :: ws' => if existsb (fun u => startsb u w) before then used_from (before ++ [w]) ws' else w :: used_from (before ++ [w]) ws'
  end.

Lemma used_from_spec : forall ws before w, In w (used_from before ws) <-> exists b a, ws = b ++ w :: a /\ forall u, In u (before ++ b) -> ~ starts u w.
Proof.
  induction ws as [|x ws IH]; intros before w; cbn [used_from].
  - split; [intros []|]. intros ([|] & a & E & _); discriminate.
  - assert (X : existsb (fun u => startsb u x) before = true <-> exists u, In u before /\ starts u x).
    { rewrite existsb_exists. split; intros (u & I & S); exists u; (split; [exact I|]); apply startsb_ok; exact S. }
    assert (T : (exists b a, x :: ws = b ++ w :: a /\ (forall u, In u (before ++ b) -> ~ starts u w)) <->
                (x = w /\ (forall u, In u before -> ~ starts u w)) \/ In w (used_from (before ++ [x]) ws)).
    { rewrite IH. split.
      - intros ([|y b] & a & E & N); cbn in E; injection E as E1 E2.
        + left. split; [exact E1|]. rewrite app_nil_r in N. exact N.
        + right. subst y. exists b, a. split; [exact E2|]. intros u I. apply N. rewrite <- app_assoc in I. exact I.
      - intros [[-> N]|(b & a & E & N)].
        + exists [], ws. split; [reflexivity|]. rewrite app_nil_r. exact N.
        + exists (x :: b), a. split; [rewrite E; reflexivity|]. intros u I. apply N. rewrite <- app_assoc. exact I. }
    rewrite T. destruct (existsb _ before) eqn:B.
    + split; [intro I; right; exact I|]. intros [[-> N]|I]; [|exact I]. destruct (proj1 X eq_refl) as (u & I & S). destruct (N u I S).
    + cbn [In]. split; intros [I|I]; [left|right; exact I|left; tauto|right; exact I].
      split; [exact I|]. intros u J S. subst w. assert (Y : false = true) by (apply X; exists u; auto). discriminate.
Qed.

Lemma used_list : forall ws w, In w (used_from [] ws) <-> used ws w.
Proof. intros ws w. apply used_from_spec. Qed.
