(** Texts that are read the same from both ends. *)
From Verif Require Import Base ModelAst ModelParser SpecPeg SpecPos SpecApi SpecMirror.
From Verif Require Import PegTools ProofParser ProofEngine ProofApi Examples.

Notation side c := (And [lit [c]; ref_rule main; lit [c]]).

Lemma side_other : forall G c s, (forall s', s <> c :: s') -> peg G (side c) s PFail.
Proof. intros G c s N. apply peg_and_stop; [|exact Logic.I]. apply peg_lit_fail. exact N. Qed.

Lemma side_inner : forall G c s, peg G (ref_rule main) s PFail -> peg G (side c) (c :: s) PFail.
Proof.
  intros G c s F. change PFail with (prepend [Val [c]] PFail). eapply peg_and_cons; [apply (peg_lit_ok G [c] s)|]. apply peg_and_stop; [exact F|exact Logic.I].
Qed.

Lemma side_open : forall G c s ts rest, peg G (ref_rule main) s (PMatch ts rest) -> (forall s', rest <> c :: s') -> peg G (side c) (c :: s) PFail.
Proof.
  intros G c s ts rest M N. change PFail with (prepend [Val [c]] (prepend ts PFail)). eapply peg_and_cons; [apply (peg_lit_ok G [c] s)|]. eapply peg_and_cons; [exact M|].
  apply peg_and_stop; [apply peg_lit_fail; exact N|exact Logic.I].
Qed.

Lemma side_ok : forall G c s ts rest, peg G (ref_rule main) s (PMatch ts (c :: rest)) -> peg G (side c) (c :: s) (PMatch (Val [c] :: ts ++ [Val [c]]) rest).
Proof.
  intros G c s ts rest M. change (PMatch (Val [c] :: ts ++ [Val [c]]) rest) with (prepend [Val [c]] (prepend ts (prepend [Val [c]] (PMatch [] rest)))).
  eapply peg_and_cons; [apply (peg_lit_ok G [c] s)|]. eapply peg_and_cons; [exact M|]. eapply peg_and_cons; [apply (peg_lit_ok G [c] rest)|apply peg_and_nil].
Qed.

(** The sides all fail, and then the middle decides .. *)
Lemma or_skip : forall G l tl s r, Forall (fun e => peg G e s PFail) l -> peg G (Or tl) s r -> peg G (Or (l ++ tl)) s r.
Proof. induction l as [|e l IH]; intros tl s r F H; [exact H|]. inversion F; subst. cbn [app]. apply peg_or_next; [assumption|]. apply IH; assumption. Qed.

(** .. or one of them is the answer. *)
Lemma or_one : forall G f (cs : list char) tl c s r, In c cs -> (forall c', In c' cs -> c' <> c -> peg G (f c') s PFail) -> peg G (f c) s r -> r <> PFail -> peg G (Or (map f cs ++ tl)) s r.
Proof.
  induction cs as [|x cs IH]; intros tl c s r I O H N; [destruct I|]. cbn [map app]. destruct (N.eq_dec x c) as [->|NE]; [apply peg_or_first; assumption|].
  apply peg_or_next; [apply O; [left; reflexivity|exact NE]|]. destruct I as [I|I]; [congruence|]. eapply IH; [exact I| |exact H|exact N]. intros c' I' N'. apply O; [right; exact I'|exact N'].
Qed.

Lemma mirror_sane : forall cs' mids, Forall sane mids -> sane_rules (mirror_rules cs' mids).
Proof.
  intros cs' mids F. apply sane_rules_all. constructor; [|constructor]. cbn [snd sane]. induction cs' as [|c cs' IH]; cbn [map app fold_right].
  - induction F; cbn [fold_right]; auto.
  - split; [cbn; tauto|exact IH].
Qed.

(** * With a char in the middle *)

Section Marked.
Variable cs : list char.
Variable m : char.
Hypothesis MC : ~ In m cs.
Let G := grammar_of (mirror_rules cs [lit [m]]).
Let sides := map (fun c => side c) cs.

Lemma G_main : G main = Some (Or (sides ++ [lit [m]])).
Proof. reflexivity. Qed.

Definition over (w : str) : Prop := Forall (fun c => In c cs) w.

Lemma one_middle : forall w w' u u', over w -> over w' -> w ++ m :: u = w' ++ m :: u' -> w = w' /\ u = u'.
Proof.
  induction w as [|c w IH]; intros [|c' w'] u u' O O' E; cbn [app] in E.
  - injection E as ->. auto.
  - injection E as -> _. inversion O'; contradiction.
  - injection E as -> _. inversion O; contradiction.
  - injection E as -> E. destruct (IH _ _ _ (Forall_inv_tail O) (Forall_inv_tail O') E) as [-> ->]. auto.
Qed.

Lemma marked_peg : forall n s, length s <= n ->
  (exists w rest, s = w ++ m :: rev w ++ rest /\ over w /\ peg G (ref_rule main) s (PMatch [mirror_tree [Val [m]] w] rest)) \/
  ((forall w rest, over w -> s <> w ++ m :: rev w ++ rest) /\ peg G (ref_rule main) s PFail).
Proof.
  assert (NO : forall s, Forall (fun e => peg G e s PFail) (sides ++ [lit [m]]) -> peg G (ref_rule main) s PFail).
  { intros s F. change PFail with (wrap main PFail). eapply peg_rule; [exact G_main|]. rewrite <- (app_nil_r (sides ++ [lit [m]])). apply or_skip; [exact F|apply peg_or_nil]. }
  induction n as [|n IH]; intros [|c s] L; cbn [length] in L; try lia.
  1, 2: right; (split; [intros [|c w] rest _; discriminate|]); apply NO; apply Forall_app; (split; [apply Forall_forall; intros e I; apply in_map_iff in I; destruct I as (c & <- & _); apply side_other; discriminate|]);
        constructor; [apply peg_lit_fail; discriminate|constructor].
  destruct (N.eq_dec c m) as [->|NM].
  - left. exists [], s. split; [reflexivity|]. split; [constructor|]. eapply mk_rule; [exact G_main|]. apply or_skip.
    + apply Forall_forall. intros e I. apply in_map_iff in I. destruct I as (c & <- & I). apply side_other. intros s' E. injection E as <- _. contradiction.
    + apply mk_or1. exact (peg_lit_ok G [m] s).
  - assert (MF : peg G (lit [m]) (c :: s) PFail) by (apply peg_lit_fail; intros rest E; cbn in E; congruence).
    assert (OT : forall c', c' <> c -> peg G (side c') (c :: s) PFail) by (intros c' N; apply side_other; intros s' E; congruence).
    assert (FAIL : peg G (side c) (c :: s) PFail -> peg G (ref_rule main) (c :: s) PFail).
    { intro F. apply NO. apply Forall_app. split; [|constructor; [exact MF|constructor]]. apply Forall_forall. intros e I. apply in_map_iff in I. destruct I as (c' & <- & _).
      destruct (N.eq_dec c' c) as [->|N]; [exact F|exact (OT c' N)]. }
    destruct (in_dec N.eq_dec c cs) as [IC|NC].
    + destruct (IH s ltac:(lia)) as [(w & rest & E & O & M)|[N F]].
      * destruct rest as [|c' rest]; [|destruct (N.eq_dec c' c) as [->|NE]].
        -- right. split; [|apply FAIL; eapply side_open; [exact M|discriminate]]. intros [|x w'] rest' O' E'; cbn [app rev] in E'; [congruence|]. injection E' as <- E'. pose proof (Forall_inv_tail O') as O2.
           rewrite <- app_assoc in E'. rewrite E in E'. destruct (one_middle w w' (rev w ++ []) (rev w' ++ [c] ++ rest') O O2 E') as [-> X]. apply app_inv_head in X. discriminate.
        -- left. exists (c :: w), rest. split; [cbn [app rev]; rewrite E, <- !app_assoc; reflexivity|]. split; [constructor; assumption|]. cbn [mirror_tree]. eapply mk_rule; [exact G_main|].
           eapply or_one; [exact IC|intros c' _ N; exact (OT c' N)| |discriminate]. exact (side_ok G c s _ rest M).
        -- right. split; [|apply FAIL; eapply side_open; [exact M|intros s' X; congruence]]. intros [|x w'] rest' O' E'; cbn [app rev] in E'; [congruence|]. injection E' as <- E'. pose proof (Forall_inv_tail O') as O2.
           rewrite <- app_assoc in E'. rewrite E in E'. destruct (one_middle w w' (rev w ++ c' :: rest) (rev w' ++ [c] ++ rest') O O2 E') as [-> X]. apply app_inv_head in X. injection X as X _. congruence.
      * right. split; [|apply FAIL; apply side_inner; exact F]. intros [|x w'] rest' O' E'; cbn [app rev] in E'; [congruence|]. injection E' as <- E'. pose proof (Forall_inv_tail O') as O2.
        rewrite <- app_assoc in E'. exact (N w' ([c] ++ rest') O2 E').
    + right. split.
      * intros [|x w'] rest' O' E'; cbn [app] in E'; [congruence|]. injection E' as <- _. inversion O'; contradiction.
      * apply NO. apply Forall_app. split; [|constructor; [exact MF|constructor]]. apply Forall_forall. intros e I. apply in_map_iff in I. destruct I as (c' & <- & I). apply OT. intros ->. contradiction.
Qed.

Lemma marked_accepts : forall s d, ascii s -> forall t, (exists fuel, parse_with_debug fuel s (mirror_rules cs [lit [m]]) d = Ok t) <->
  exists w, Forall (fun c => In c cs) w /\ s = w ++ m :: rev w /\ t = mirror_tree [Val [m]] w.
Proof.
  intros s d A t. rewrite (parse_accepts_iff s _ d (mirror_sane cs [lit [m]] ltac:(repeat constructor)) A t). unfold peg_main. fold G. destruct (marked_peg (length s) s (le_n _)) as [(w & rest & E & O & M)|[N F]].
  - split.
    + intro D. pose proof (peg_det _ _ _ _ M _ D) as X. injection X as <- ->. exists w. split; [exact O|]. split; [rewrite E, app_nil_r; reflexivity|reflexivity].
    + intros (w' & O' & E' & ->). rewrite E in E'. destruct (one_middle w w' (rev w ++ rest) (rev w') O O' E') as [-> X]. rewrite <- (app_nil_r (rev w')) in X at 2. apply app_inv_head in X. subst rest. exact M.
  - split.
    + intro D. pose proof (peg_det _ _ _ _ F _ D). discriminate.
    + intros (w' & O' & E' & _). exfalso. apply (N w' [] O'). rewrite app_nil_r. exact E'.
Qed.

Lemma marked_decides : forall s d, ascii s -> exists bound, forall fuel, bound <= fuel -> parse_with_debug fuel s (mirror_rules cs [lit [m]]) d <> Fuel.
Proof.
  intros s d A. assert (R : exists r, peg_main (mirror_rules cs [lit [m]]) s r).
  { unfold peg_main. fold G. destruct (marked_peg (length s) s (le_n _)) as [(w & rest & _ & _ & M)|[_ F]]; eauto. }
  apply (parse_terminates_iff s _ d (mirror_sane cs [lit [m]] ltac:(repeat constructor)) A) in R. destruct R as [fuel NF]. exists fuel. intros fuel' L H. destruct (parse_with_debug_mono fuel fuel' s (mirror_rules cs [lit [m]]) d L) as [E|E]; congruence.
Qed.

End Marked.

(** * Without one *)

Lemma mirror_sound_peg : forall cs mids n s ts rest, length s <= n -> peg (grammar_of (mirror_rules cs mids)) (ref_rule main) s (PMatch ts rest) ->
  exists w mid, s = w ++ mid ++ rev w ++ rest /\ Forall (fun c => In c cs) w /\ exists e us, In e mids /\ peg (grammar_of (mirror_rules cs mids)) e (mid ++ rev w ++ rest) (PMatch us (rev w ++ rest)).
Proof.
  intros cs mids. set (G := grammar_of (mirror_rules cs mids)). induction n as [|n IH]; intros s ts rest L M; apply inv_rule in M; destruct M as (e & k & E & _ & M);
    injection E as <-; apply inv_or in M; destruct M as (l1 & x & l2 & EL & M & _); (assert (I : In x (map (fun c => side c) cs ++ mids)) by (rewrite EL; apply in_or_app; right; left; reflexivity));
    apply in_app_or in I; (destruct I as [I|I]; [apply in_map_iff in I; destruct I as (c & <- & I); apply inv_and_cons in M; destruct M as (t1 & s1 & t2 & _ & M1 & M)|]).
  - apply inv_lit in M1. destruct M1 as [_ ->]. cbn in L. lia.
  - destruct (peg_suffix _ _ _ _ M) as [u U]. exists [], u. split; [exact U|]. split; [constructor|]. exists x, k. split; [exact I|]. cbn [rev app]. rewrite <- U. exact M.
  - apply inv_lit in M1. destruct M1 as [_ ->]. apply inv_and_cons in M. destruct M as (t3 & s2 & t4 & _ & M2 & M). apply inv_and_cons in M. destruct M as (t5 & s3 & t6 & _ & M3 & M).
    apply inv_lit in M3. destruct M3 as [_ ->]. apply inv_and_nil in M. destruct M as [_ ->]. cbn [app length] in L. destruct (IH s1 _ _ ltac:(lia) M2) as (w & mid & -> & O & e & us & J & D).
    exists (c :: w), mid. split; [cbn [app rev]; rewrite <- !app_assoc; reflexivity|]. split; [constructor; assumption|]. exists e, us. split; [exact J|]. cbn [rev]. rewrite <- !app_assoc. exact D.
  - destruct (peg_suffix _ _ _ _ M) as [u U]. exists [], u. split; [exact U|]. split; [constructor|]. exists x, k. split; [exact I|]. cbn [rev app]. rewrite <- U. exact M.
Qed.

(** * One char only *)

Lemma between : forall k k' x, 2 ^ k <= x < 2 ^ S k -> 2 ^ k' <= x < 2 ^ S k' -> k = k'.
Proof.
  intros k k' x [A B] [C D]. destruct (Nat.lt_trichotomy k k') as [L|[E|L]]; [|exact E|].
  - pose proof (Nat.pow_le_mono_r 2 (S k) k' ltac:(lia) L). lia.
  - pose proof (Nat.pow_le_mono_r 2 (S k') k ltac:(lia) L). lia.
Qed.

Section One.
Variable a : char.

Let G0 := grammar_of (mirror_rules [a] [And []]).
Lemma even_peg : forall n, exists k j ts, n + 1 = 2 ^ k + j /\ j < 2 ^ k /\ peg G0 (ref_rule main) (repeat a n) (PMatch ts (repeat a (n - 2 * j))).
Proof.
  induction n as [|n (k & j & ts & E & L & M)].
  - exists 0, 0, [Rule main []]. split; [reflexivity|]. split; [cbn; lia|]. eapply mk_rule; [reflexivity|]. apply peg_or_next; [apply side_other; discriminate|]. apply mk_or1, peg_and_nil.
  - destruct (n - 2 * j) as [|r] eqn:R.
    + exists (S k), 0, [Rule main []]. rewrite Nat.pow_succ_r'. split; [lia|]. split; [lia|]. rewrite Nat.sub_0_r. cbn [repeat]. eapply mk_rule; [reflexivity|].
      apply peg_or_next; [eapply side_open; [exact M|discriminate]|]. apply mk_or1, peg_and_nil.
    + exists k, (S j), [Rule main (Val [a] :: ts ++ [Val [a]])]. split; [lia|]. split; [lia|]. replace (S n - 2 * S j) with r by lia. cbn [repeat]. eapply mk_rule; [reflexivity|].
      apply mk_or1. apply side_ok. exact M.
Qed.

Let G1 := grammar_of (mirror_rules [a] [lit [a]]).
Lemma odd_peg : forall n, exists k j ts, S n = 2 ^ k + j /\ j < 2 ^ k /\ peg G1 (ref_rule main) (repeat a (S n)) (PMatch ts (repeat a (n - 2 * j))).
Proof.
  induction n as [|n (k & j & ts & E & L & M)].
  - exists 0, 0, [Rule main [Val [a]]]. split; [reflexivity|]. split; [cbn; lia|]. eapply mk_rule; [reflexivity|]. apply peg_or_next.
    + apply side_inner. change PFail with (wrap main PFail). eapply peg_rule; [reflexivity|]. apply peg_or_next; [apply side_other; discriminate|]. apply peg_or_next; [apply peg_lit_fail; discriminate|apply peg_or_nil].
    + apply mk_or1. exact (peg_lit_ok G1 [a] []).
  - destruct (n - 2 * j) as [|r] eqn:R.
    + exists (S k), 0, [Rule main [Val [a]]]. rewrite Nat.pow_succ_r'. split; [lia|]. split; [lia|]. rewrite Nat.sub_0_r. change (repeat a (S (S n))) with (a :: repeat a (S n)). eapply mk_rule; [reflexivity|].
      apply peg_or_next; [eapply side_open; [exact M|discriminate]|]. apply mk_or1. exact (peg_lit_ok G1 [a] _).
    + exists k, (S j), [Rule main (Val [a] :: ts ++ [Val [a]])]. split; [lia|]. split; [lia|]. replace (S n - 2 * S j) with r by lia. change (repeat a (S (S n))) with (a :: repeat a (S n)).
      eapply mk_rule; [reflexivity|]. apply mk_or1. apply side_ok. exact M.
Qed.

Lemma repeat_ascii : (a < 128)%N -> forall n, ascii (repeat a n).
Proof. intros L n. apply Forall_forall. intros x I. apply repeat_spec in I. subst x. exact L. Qed.
Lemma repeat_nil : forall n, repeat a n = [] -> n = 0.
Proof. intros [|n] E; [reflexivity|discriminate]. Qed.

Lemma even_exact : (a < 128)%N -> forall n d, (exists fuel t, parse_with_debug fuel (repeat a n) (mirror_rules [a] [And []]) d = Ok t) <-> exists k, n + 2 = 2 ^ S k.
Proof.
  intros A n d. pose proof (fun t => parse_accepts_iff (repeat a n) _ d (mirror_sane [a] [And []] ltac:(repeat constructor)) (repeat_ascii A n) t) as P.
  destruct (even_peg n) as (k & j & ts & E & L & M). split.
  - intros (fuel & t & H). assert (D : peg_main (mirror_rules [a] [And []]) (repeat a n) (PMatch [t] [])) by (apply P; eauto). pose proof (peg_det _ _ _ _ M _ D) as X. injection X as _ X. apply repeat_nil in X.
    exists k. rewrite Nat.pow_succ_r'. lia.
  - intros [k' E']. assert (k = k') by (apply (between k k' (n + 1)); rewrite Nat.pow_succ_r'; rewrite Nat.pow_succ_r' in E'; lia). subst k'. rewrite Nat.pow_succ_r' in E'. replace (n - 2 * j) with 0 in M by lia.
    destruct (inv_rule _ _ _ _ _ M) as (e & us & _ & -> & _). destruct (proj2 (P _) M) as [fuel H]. eauto.
Qed.

Lemma odd_exact : (a < 128)%N -> forall n d, (exists fuel t, parse_with_debug fuel (repeat a n) (mirror_rules [a] [lit [a]]) d = Ok t) <-> exists k, n + 1 = 2 ^ S k.
Proof.
  intros A n d. pose proof (fun t => parse_accepts_iff (repeat a n) _ d (mirror_sane [a] [lit [a]] ltac:(repeat constructor)) (repeat_ascii A n) t) as P.
  destruct n as [|n].
  - split.
    + intros (fuel & t & H). assert (D : peg_main (mirror_rules [a] [lit [a]]) (repeat a 0) (PMatch [t] [])) by (apply P; eauto).
      destruct (mirror_sound_peg [a] [lit [a]] 0 (repeat a 0) _ _ (le_n _) D) as (w & mid & E & _ & e & us & [<-|[]] & X). apply inv_lit in X. destruct X as [_ X].
      apply (f_equal (@length char)) in E. apply (f_equal (@length char)) in X. rewrite !app_length in E, X. cbn [length repeat] in E, X. lia.
    + intros [k E]. rewrite Nat.pow_succ_r' in E. lia.
  - destruct (odd_peg n) as (k & j & ts & E & L & M). split.
    + intros (fuel & t & H). assert (D : peg_main (mirror_rules [a] [lit [a]]) (repeat a (S n)) (PMatch [t] [])) by (apply P; eauto). pose proof (peg_det _ _ _ _ M _ D) as X. injection X as _ X. apply repeat_nil in X.
      exists k. rewrite Nat.pow_succ_r'. lia.
    + intros [k' E']. assert (k = k') by (apply (between k k' (S n)); rewrite Nat.pow_succ_r'; rewrite Nat.pow_succ_r' in E'; lia). subst k'. rewrite Nat.pow_succ_r' in E'. replace (n - 2 * j) with 0 in M by lia.
      destruct (inv_rule _ _ _ _ _ M) as (e & us & _ & -> & _). destruct (proj2 (P _) M) as [fuel H]. eauto.
Qed.

End One.

(** Accepted texts are mirrored. *)
Lemma even_sound : forall cs s d fuel t, parse_with_debug fuel s (mirror_rules cs [And []]) d = Ok t -> exists w, s = w ++ rev w.
Proof.
  intros cs s d fuel t H. pose proof (parse_sound fuel s _ d (mirror_sane cs [And []] ltac:(repeat constructor))) as X. rewrite H in X. destruct X as [_ X].
  destruct (mirror_sound_peg cs [And []] (length s) s _ _ (le_n _) X) as (w & mid & E & _ & e & us & [<-|[]] & D). apply inv_and_nil in D. destruct D as [_ D].
  exists w. rewrite E, app_nil_r. rewrite app_nil_r in D. assert (mid = []) by (apply (app_inv_tail (rev w)); symmetry; exact D). subst mid. reflexivity.
Qed.

Lemma odd_sound : forall cs s d fuel t, parse_with_debug fuel s (mirror_rules cs (map (fun c => lit [c]) cs)) d = Ok t -> exists w c, s = w ++ c :: rev w.
Proof.
  intros cs s d fuel t H. assert (S : sane_rules (mirror_rules cs (map (fun c => lit [c]) cs))) by (apply mirror_sane; apply Forall_forall; intros e I; apply in_map_iff in I; destruct I as (c & <- & _); exact Logic.I).
  pose proof (parse_sound fuel s _ d S) as X. rewrite H in X. destruct X as [_ X].
  destruct (mirror_sound_peg cs _ (length s) s _ _ (le_n _) X) as (w & mid & E & _ & e & us & I & D). apply in_map_iff in I. destruct I as (c & <- & _). apply inv_lit in D. destruct D as [_ D].
  exists w, c. rewrite E, app_nil_r. rewrite app_nil_r in D. rewrite D. reflexivity.
Qed.
