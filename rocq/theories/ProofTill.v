(** Rule sets made of one idiom or of one class. *)
From Verif Require Import Base ModelAst ModelParser SpecPeg SpecPos SpecApi SpecRefactor SpecLang SpecSwap.
From Verif Require Import ProofParser ProofEngine ProofApi ProofRefactor ProofLang ProofIdioms ProofClass PegTools ProofSwap.

Lemma one_sane : forall e, sane e -> sane_rules [(main, e)].
Proof. intros e S n x E. cbn [rules_get] in E. destruct (str_eqb main n); [|discriminate]. injection E as <-. exact S. Qed.

(** One rule: what it accepts is what its expression matches to the end. *)
Lemma one_parse : forall e s ast, sane e -> ascii s -> (exists fuel, parse fuel s [(main, e)] = Ok ast) <->
  exists ts, peg (grammar_of [(main, e)]) e s (PMatch ts []) /\ ast = Rule main ts.
Proof.
  intros e s ast S A. unfold parse. rewrite (parse_accepts_iff s [(main, e)] false (one_sane e S) A). split.
  - intro D. apply peg_main_shape in D. destruct D as (x & k & E & Q & D). injection E as <-. injection Q as ->. eauto.
  - intros (ts & D & ->). change (PMatch [Rule main ts] []) with (wrap main (PMatch ts [])). eapply peg_rule; [reflexivity|exact D].
Qed.

Lemma till_parse : forall l s ast, ascii s -> (exists fuel, parse fuel s [(main, till l)] = Ok ast) <->
  exists w, first_at l s w [] /\ ast = Rule main (map (fun c => Val [c]) w ++ [Val l]).
Proof.
  intros l s ast A. rewrite (one_parse (till l) s ast ltac:(cbn; tauto) A). split.
  - intros (ts & D & ->). apply till_spec in D. destruct D as [(w & r & F & Q)|[_ Q]]; [|discriminate]. injection Q as -> <-. eauto.
  - intros (w & F & ->). eexists. split; [|reflexivity]. apply till_spec. left. exists w, []. auto.
Qed.

Lemma brackets_parse : forall m a b, (forall u v, a ++ u <> b ++ v) -> m <> main ->
  forall s, ascii s -> (exists fuel ast, parse fuel s [(main, RuleName m); (m, Or [And [lit a; RuleName m; lit b]; And [lit a; lit b]])] = Ok ast) <->
     exists n, 1 <= n /\ s = times n a ++ times n b.
Proof.
  intros m a b N M s A. set (body := Or [And [lit a; RuleName m; lit b]; And [lit a; lit b]]). set (rs := [(main, RuleName m); (m, body)]).
  assert (Gm : grammar_of rs main = Some (RuleName m)) by reflexivity.
  assert (Gb : grammar_of rs m = Some body).
  { unfold grammar_of, rs. cbn [rules_get]. assert (X : str_eqb main m = false).
    { destruct (str_eqb main m) eqn:Q; [|reflexivity]. apply str_eqb_eq in Q. congruence. }
    rewrite X. assert (Y : str_eqb m m = true) by (apply str_eqb_eq; reflexivity). rewrite Y. reflexivity. }
  assert (S : sane_rules rs).
  { intros n e E. unfold rs in E. cbn [rules_get] in E. destruct (str_eqb main n); [injection E as <-; exact I|].
    destruct (str_eqb m n); [|discriminate]. injection E as <-. cbn. tauto. }
  rewrite (parse_accepts s rs S A). split.
  - intros (e & ts & E & D). unfold grammar_of in Gm. rewrite Gm in E. injection E as <-.
    destruct (proj1 (brackets_spec _ m a b Gb N s [])) as (n & L & Q); [eauto|]. exists n. rewrite app_nil_r in Q. auto.
  - intros (n & L & Q). destruct (proj2 (brackets_spec _ m a b Gb N s [])) as [ts D]; [exists n; rewrite app_nil_r; auto|].
    exists (RuleName m), ts. split; [exact Gm|exact D].
Qed.

Lemma class_parse : forall cs rg s ast, ascii s ->
  ((exists fuel, parse fuel s [(main, ematch cs rg)] = Ok ast) <-> exists c, s = [c] /\ in_class cs rg c /\ ast = Rule main [Val [c]]).
Proof.
  intros cs rg s ast A. rewrite (one_parse (ematch cs rg) s ast ltac:(exact I) A). split.
  - intros (ts & D & ->). apply peg_class in D. destruct D as [(c & s1 & E & Ic & Q)|[_ Q]]; [|discriminate]. injection Q as -> <-. eauto.
  - intros (c & -> & Ic & ->). eexists. split; [|reflexivity]. apply peg_class. left. eauto.
Qed.

Lemma class_complement : forall G cs rs s r, peg G (And [Not (ematch cs rs); dot_]) s r <->
  (exists c s1, s = c :: s1 /\ ~ in_class cs rs c /\ r = PMatch [Val [c]] s1) \/
  ((forall c s1, s = c :: s1 -> in_class cs rs c) /\ r = PFail).
Proof.
  intros G cs rs s r. rewrite (not_picks G _ _ _ _ (class_picks G cs rs) (dot_picks G) (class_dec cs rs) s r). split.
  - intros [(c & s1 & E & [N _] & R)|[N R]]; [left; exists c, s1; auto|right; split; [|exact R]].
    intros c s1 E. destruct (class_dec cs rs c) as [X|X]; [exact X|]. destruct (N c s1 E). auto.
  - intros [(c & s1 & E & N & R)|[N R]]; [left; exists c, s1; auto|right; split; [|exact R]].
    intros c s1 E [X _]. exact (X (N c s1 E)).
Qed.

Lemma complement_parse : forall cs rg s ast, ascii s -> (exists fuel, parse fuel s [(main, And [Not (ematch cs rg); dot_])] = Ok ast) <->
     exists c, s = [c] /\ ~ in_class cs rg c /\ ast = Rule main [Val [c]].
Proof.
  intros cs rg s ast A. rewrite (one_parse (And [Not (ematch cs rg); dot_]) s ast ltac:(cbn; tauto) A). split.
  - intros (ts & D & ->). apply class_complement in D. destruct D as [(c & s1 & E & Ic & Q)|[_ Q]]; [|discriminate]. injection Q as -> <-. eauto.
  - intros (c & -> & Ic & ->). eexists. split; [|reflexivity]. apply class_complement. left. eauto.
Qed.

Lemma class_told_apart : forall cs rg cs' rg', interchangeable (ematch cs rg) (ematch cs' rg') ->
  forall c, (c < 128)%N -> (in_class cs rg c <-> in_class cs' rg' c).
Proof.
  intros cs rg cs' rg' H c L. assert (A : ascii [c]) by (constructor; [exact L|constructor]).
  destruct (H [(main, ematch cs rg)] [(main, ematch cs' rg')] (one_sane (ematch cs rg) I) (one_sane (ematch cs' rg') I)) with (s := [c]) as [Q _]; [|exact A|].
  - intro n. cbn [rules_get]. destruct (str_eqb main n); [apply rp_here; auto|exact I].
  - specialize (Q (Rule main [Val [c]])). rewrite !class_parse in Q by exact A.
    split; intro K; [destruct (proj1 Q) as (d & E & K' & _)|destruct (proj2 Q) as (d & E & K' & _)]; eauto; injection E as <-; exact K'.
Qed.

Lemma class_union : forall G cs rs cs' rs', equiv G (Or [ematch cs rs; ematch cs' rs']) (ematch (cs ++ cs') (rs ++ rs')).
Proof.
  intros G cs rs cs' rs'. apply (picks_equiv G _ _ (fun c => in_class cs rs c \/ in_class cs' rs' c)).
  - apply or_picks; [apply class_picks..|apply class_dec].
  - apply (picks_ext G _ (in_class (cs ++ cs') (rs ++ rs'))); [apply in_class_app|apply class_picks].
Qed.

Lemma class_difference : forall G cs rs cs' rs' ds qs,
  (forall c, in_class ds qs c <-> in_class cs' rs' c /\ ~ in_class cs rs c) ->
  equiv G (And [Not (ematch cs rs); ematch cs' rs']) (ematch ds qs).
Proof.
  intros G cs rs cs' rs' ds qs H. apply (picks_equiv G _ _ (fun c => ~ in_class cs rs c /\ in_class cs' rs' c)).
  - apply not_picks; [apply class_picks..|apply class_dec].
  - apply (picks_ext G _ (in_class ds qs)); [intro c; rewrite H; tauto|apply class_picks].
Qed.

Lemma class_single : forall G c, equiv G (lit [c]) (ematch [c] []) /\ equiv G (ematch [c] []) (ematch [] [(c, c)]).
Proof.
  intros G c. split.
  - apply (picks_equiv G _ _ (fun x => x = c)); [apply lit_picks|].
    apply (picks_ext G _ (in_class [c] [])); [|apply class_picks]. intro x. rewrite in_chars. cbn. split; [intros [E|[]]; auto|auto].
  - apply classes_equiv. intro x. rewrite in_chars, in_range. cbn. split; [intros [E|[]]; subst; lia|intro B; left; lia].
Qed.

Lemma class_ranges : forall G cs rs lo mid hi,
  ((lo <= mid < hi)%N -> equiv G (ematch cs ((lo, hi) :: rs)) (ematch cs ((lo, mid) :: (N.succ mid, hi) :: rs))) /\
  ((hi < lo)%N -> equiv G (ematch cs ((lo, hi) :: rs)) (ematch cs rs)) /\
  (forall s r, peg G (ematch [] []) s r <-> r = PFail).
Proof.
  intros G cs rs lo mid hi. split; [|split].
  - intro B. apply classes_equiv. intro c.
    rewrite !in_more.
    assert (lo <= c <= hi <-> (lo <= c <= mid) \/ (N.succ mid <= c <= hi))%N by lia. tauto.
  - intro B. apply classes_equiv. intro c. rewrite in_more. assert (~ (lo <= c <= hi)%N) by lia. tauto.
  - intros s r. rewrite peg_class. split.
    + intros [(c & s1 & _ & I & _)|[_ R]]; [|exact R]. apply in_chars in I. destruct I.
    + intro R. right. split; [|exact R]. intros c s1 _ I. apply in_chars in I. exact I.
Qed.
