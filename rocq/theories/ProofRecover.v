(** Going on after a bad line: proofs. *)
From Verif Require Import Base ModelAst ModelParser ModelCost SpecPeg SpecPos SpecApi SpecReport SpecHang SpecStuck SpecPower SpecLines SpecRecover.
From Verif Require Import ProofAst ProofParser ProofEngine ProofApi PegTools ProofFinite ProofRun ProofRunDet ProofPower ProofLines.

Section Recover.
Variable rs : rules.
Variable e : expr.
Variable b : str.
Variable c : char.
Hypothesis SR : sane_rules rs.
Hypothesis SE : sane e.
Hypothesis MU : main_unused rs [e].
Hypothesis ST : stranger (grammar_of rs) c e.
Hypothesis BM : b <> main.
Hypothesis BD : rules_get rs b = Some (rest_of_line c).

Notation R := (recover_rules rs e b c).
Notation G := (grammar_of R).
Notation GL := (grammar_of (line_rules rs e c)).
Notation item_ := (Or [And [e; lit [c]]; And [RuleName b; lit [c]]]).
Notation loop := (Repeat item_ 0 None).
Notation NE := (NE rs e MU).

Lemma in_R : forall s r, peg GL e s r -> peg G e s r.
Proof. intros s r. exact (move rs e e s (MU2 rs e MU) _ _ e r NE). Qed.
Lemma out_R : forall s r, peg G e s r -> peg GL e s r.
Proof. intros s r. exact (move rs e e s (MU2 rs e MU) _ _ e r NE). Qed.
Lemma strange : stranger G c e.
Proof.
  intros a U. apply ST. assert (X : forall x a, uses G x a -> ~ has_ref main x -> uses (grammar_of rs) x a).
  { induction 1 as [x a' H|n x x' a' H E U' IH]; intro N; [apply us_here; exact H|].
    assert (X : n <> main) by (intros ->; exact (N H)). unfold grammar_of, recover_rules in E. rewrite get_other in E by exact X.
    eapply us_rule; [exact H|exact E|]. apply IH. exact (proj1 MU _ _ X E). }
  exact (X e a U NE).
Qed.
Lemma sane_R : sane_rules R.
Proof. apply with_sane; [exact SR|]. cbn. tauto. Qed.
Lemma g_main : G main = Some loop.
Proof. exact (get_main rs _). Qed.
Lemma g_b : G b = Some (rest_of_line c).
Proof. unfold grammar_of, recover_rules. rewrite get_other by exact BM. exact BD. Qed.
Lemma main_R : forall s r, peg G loop s r -> peg_main R s (wrap main r).
Proof. intros s r D. exact (peg_rule G main loop s r g_main D). Qed.
Lemma from_main : forall s r, peg_main R s r -> exists r0, r = wrap main r0 /\ peg G loop s r0.
Proof.
  intros s r D. unfold peg_main in D. inversion D as [| | | | | | | | | | | | | | | | | | | | | |n e' s' r' E D' X Y Z|n s' E X Y Z]; subst; rewrite g_main in E; [|discriminate].
  injection E as <-. exists r'. split; [reflexivity|exact D'].
Qed.

(** ** The rest of a line *)

Definition chars (l : str) : list node := map (fun x => Val [x]) l.
Lemma one_char : forall x s, x <> c -> peg G (And [Not (lit [c]); dot_]) (x :: s) (PMatch [Val [x]] s).
Proof.
  intros x s N. refine (peg_and_cons G _ _ _ [] (x :: s) (PMatch [Val [x]] s) _ _).
  - refine (peg_not_ok G _ _ PFail _ Logic.I). apply peg_lit_fail. intros r E. injection E as E _. exact (N E).
  - exact (peg_and_cons G _ _ _ [Val [x]] s (PMatch [] s) (peg_dot_ok G x s) (peg_and_nil G s)).
Qed.
Lemma no_char : forall s, s = [] \/ (exists t, s = c :: t) -> peg G (And [Not (lit [c]); dot_]) s PFail.
Proof.
  intros s [->|[t ->]].
  - refine (peg_and_cons G _ _ _ [] [] PFail _ _).
    + refine (peg_not_ok G _ _ PFail _ Logic.I). apply peg_lit_fail. intros r E. discriminate.
    + apply peg_and_stop; [apply peg_dot_fail|exact Logic.I].
  - apply peg_and_stop; [|exact Logic.I]. exact (peg_not_fail G _ _ [Val [c]] t (peg_lit_ok G [c] t)).
Qed.
Lemma rest_line : forall l t, ~ In c l -> t = [] \/ (exists t', t = c :: t') -> peg G (RuleName b) (l ++ t) (PMatch [Rule b (chars l)] t).
Proof.
  intros l t N T. refine (peg_rule G b _ _ (PMatch (chars l) t) g_b _). induction l as [|x l IH].
  - apply peg_rep_done; [discriminate|]. exact (no_char t T).
  - refine (peg_rep_more G _ 0 None _ [Val [x]] (l ++ t) (PMatch (chars l) t) ltac:(discriminate) (one_char x (l ++ t) _) (IH _)); intro H; apply N; [left; exact H|right; exact H].
Qed.

(** ** A line *)

Lemma good_line : forall l ks t, peg G e l (PMatch ks []) -> peg G item_ (l ++ c :: t) (PMatch (ks ++ [Val [c]]) t).
Proof.
  intros l ks t D. apply peg_or_first; [|discriminate]. pose proof (stop_there G c t e l _ D strange) as P. cbn in P.
  refine (peg_and_cons G e _ _ ks (c :: t) (PMatch [Val [c]] t) P _). exact (peg_and_cons G _ [] _ [Val [c]] t (PMatch [] t) (peg_lit_ok G [c] t) (peg_and_nil G t)).
Qed.
Definition bad (r : presult) : Prop := r = PFail \/ exists ks x rest, r = PMatch ks (x :: rest).
Lemma first_fails : forall l r t, ~ In c l -> peg G e l r -> bad r -> peg G (And [e; lit [c]]) (l ++ c :: t) PFail.
Proof.
  intros l r t N D B. pose proof (stop_there G c t e l _ D strange) as P. destruct B as [->|(ks & x & rest & ->)]; [apply peg_and_stop; [exact P|exact Logic.I]|].
  cbn in P. refine (peg_and_cons G e _ _ ks _ PFail P _). apply peg_and_stop; [|exact Logic.I]. apply peg_lit_fail. intros r E. injection E as -> _.
  destruct (peg_rest _ _ _ _ D) as [w ->]. apply N. apply in_or_app. right. left. reflexivity.
Qed.
Lemma bad_line : forall l r t, ~ In c l -> peg G e l r -> bad r -> peg G item_ (l ++ c :: t) (PMatch ([Rule b (chars l)] ++ [Val [c]]) t).
Proof.
  intros l r t N D B. apply peg_or_next; [exact (first_fails l r t N D B)|]. apply peg_or_first; [|discriminate].
  refine (peg_and_cons G _ _ _ [Rule b (chars l)] (c :: t) (PMatch [Val [c]] t) (rest_line l (c :: t) N _) _); [right; exists t; reflexivity|].
  exact (peg_and_cons G _ [] _ [Val [c]] t (PMatch [] t) (peg_lit_ok G [c] t) (peg_and_nil G t)).
Qed.
Lemma last_line : forall l r, ~ In c l -> peg G e l r -> (forall m rest, r <> PAbort m rest) -> peg G item_ l PFail.
Proof.
  intros l r N D Q. apply peg_or_next.
  - destruct r as [ks rest| |m rest]; [|apply peg_and_stop; [exact D|exact Logic.I]|destruct (Q m rest eq_refl)].
    refine (peg_and_cons G e _ _ ks rest PFail D _). apply peg_and_stop; [|exact Logic.I]. apply peg_lit_fail. intros r E. destruct (peg_rest _ _ _ _ D) as [w F].
    apply N. rewrite F, E. apply in_or_app. right. left. reflexivity.
  - apply peg_or_next; [|apply peg_or_nil]. pose proof (rest_line l [] N (or_introl eq_refl)) as X. rewrite app_nil_r in X.
    refine (peg_and_cons G _ _ _ _ [] PFail X _). apply peg_and_stop; [|exact Logic.I]. apply peg_lit_fail. intros r' E. discriminate.
Qed.
Lemma cases : forall r, (forall m rest, r <> PAbort m rest) -> (exists ks, r = PMatch ks []) \/ bad r.
Proof.
  intros [ks [|x rest]| |m rest] Q; [left; exists ks; reflexivity|right; right; eauto|right; left; reflexivity|destruct (Q m rest eq_refl)].
Qed.

Lemma gives_line : forall l ns t, ascii l -> ~ In c l -> quiet rs e l -> gives rs e b l ns -> peg G item_ (l ++ c :: t) (PMatch (ns ++ [Val [c]]) t).
Proof.
  intros l ns t A N Q H. apply (quiet_iff rs e c SR SE MU l A) in Q. destruct Q as (r & D & Q). pose proof (in_R _ _ D) as D'.
  destruct H as [H|[H ->]].
  - apply (reads_iff rs e c SR SE MU l ns A) in H. exact (good_line l ns t (in_R _ _ H)).
  - apply (bad_line l r t N D'). destruct (cases r Q) as [[ks ->]|B]; [|exact B]. destruct (H ks). apply (reads_iff rs e c SR SE MU l ks A). exact D.
Qed.
Lemma gives_exists : forall l, ascii l -> quiet rs e l -> exists ns, gives rs e b l ns.
Proof.
  intros l A Q. apply (quiet_iff rs e c SR SE MU l A) in Q. destruct Q as (r & D & Q). destruct (cases r Q) as [[ks ->]|B].
  - exists ks. left. apply (reads_iff rs e c SR SE MU l ks A). exact D.
  - eexists. right. split; [|reflexivity]. intros ks H. apply (reads_iff rs e c SR SE MU l ks A) in H. pose proof (peg_det _ _ _ _ D _ H) as X. subst r.
    destruct B as [B|(ks' & x & rest & B)]; discriminate.
Qed.
Lemma gives_unique : forall l ns ns', ascii l -> gives rs e b l ns -> gives rs e b l ns' -> ns = ns'.
Proof.
  intros l ns ns' A [H|[H ->]] [H'|[H' ->]]; [|destruct (H' _ H)|destruct (H _ H')|reflexivity].
  apply (reads_iff rs e c SR SE MU l _ A) in H. apply (reads_iff rs e c SR SE MU l _ A) in H'. pose proof (peg_det _ _ _ _ H _ H') as X. injection X as ->. reflexivity.
Qed.

(** ** Lines *)

Definition okay (l : str) : Prop := ~ In c l /\ quiet rs e l.
Notation kids nss := (flat_map (fun ns => ns ++ [Val [c]]) nss).

Lemma lines_loop : forall ls nss, Forall2 (gives rs e b) ls nss -> Forall okay ls -> Forall ascii ls -> forall s r, peg G loop s r -> peg G loop (ended c ls ++ s) (prepend (kids nss) r).
Proof.
  induction 1 as [|l ns ls nss H _ IH]; intros O A s r D; [destruct r; exact D|]. apply Forall_cons_iff in O. destruct O as [[N Q] O]. apply Forall_cons_iff in A. destruct A as [A1 A2].
  rewrite ended_cons. pose proof (peg_rep_more G item_ 0 None _ _ _ _ ltac:(discriminate) (gives_line l ns (ended c ls ++ s) A1 N Q H) (IH O A2 s r D)) as X.
  destruct r; cbn in *; try exact X. rewrite <- !app_assoc in *. exact X.
Qed.
Lemma lines_give : forall ls, Forall okay ls -> Forall ascii ls -> exists nss, Forall2 (gives rs e b) ls nss.
Proof.
  induction ls as [|l ls IH]; intros O A; [exists []; constructor|]. apply Forall_cons_iff in O. destruct O as [[N Q] O]. apply Forall_cons_iff in A. destruct A as [A1 A2].
  destruct (gives_exists l A1 Q) as [ns H]. destruct (IH O A2) as [nss F]. exists (ns :: nss). constructor; assumption.
Qed.
Lemma last_loop : forall l, ascii l -> okay l -> peg G loop l (PMatch [] l).
Proof.
  intros l A [N Q]. apply (quiet_iff rs e c SR SE MU l A) in Q. destruct Q as (r & D & Q). apply peg_rep_done; [discriminate|]. exact (last_line l r N (in_R _ _ D) Q).
Qed.
Lemma loop_inv : forall s r, peg G loop s r -> exists r1, peg G item_ s r1 /\
  match r1 with PMatch ts s1 => exists r', peg G loop s1 r' /\ r = prepend ts r' | PFail => r = PMatch [] s | PAbort m rest => r = PAbort m rest end.
Proof.
  intros s r D. inversion D; subst; try lia.
  - eexists. split; [eassumption|]. cbn in *. eexists. split; [eassumption|reflexivity].
  - exists PFail. split; [assumption|reflexivity].
  - eexists. split; [eassumption|reflexivity].
Qed.
Lemma loop_back : forall ls nss, Forall2 (gives rs e b) ls nss -> Forall okay ls -> Forall ascii ls -> forall s r, peg G loop (ended c ls ++ s) r -> exists r', peg G loop s r'.
Proof.
  induction 1 as [|l ns ls nss H _ IH]; intros O A s r D; [exists r; exact D|]. apply Forall_cons_iff in O. destruct O as [[N Q] O]. apply Forall_cons_iff in A. destruct A as [A1 A2].
  rewrite ended_cons in D. destruct (loop_inv _ _ D) as (r1 & D1 & X). rewrite <- (peg_det _ _ _ _ (gives_line l ns (ended c ls ++ s) A1 N Q H) _ D1) in X.
  destruct X as (r' & D' & _). exact (IH O A2 s r' D').
Qed.

(** ** What [parse] makes of it *)

Lemma all_read : forall ls nss debug, ascii (ended c ls) -> Forall okay ls -> quiet rs e [] -> Forall2 (gives rs e b) ls nss ->
  exists fuel, parse_with_debug fuel (ended c ls) R debug = Ok (Rule main (kids nss)).
Proof.
  intros ls nss debug A O Q H. apply (parse_accepts_iff _ R debug sane_R A). pose proof A as A'. rewrite <- (app_nil_r (ended c ls)) in A'. destruct (ascii_lines c ls [] A') as [A1 _].
  pose proof (lines_loop ls nss H O A1 [] _ (last_loop [] ltac:(constructor) (conj (fun x => x) Q))) as D. rewrite app_nil_r in D. apply main_R in D. cbn in D. rewrite app_nil_r in D. exact D.
Qed.
Lemma not_ended : forall ls l debug, ascii (ended c ls ++ l) -> Forall okay ls -> okay l -> l <> [] ->
  exists fuel er, parse_with_debug fuel (ended c ls ++ l) R debug = Err er /\ e_priority er = Normal.
Proof.
  intros ls l debug A O OL NL. destruct (ascii_lines c ls l A) as [A1 A2]. destruct (lines_give ls O A1) as [nss H].
  pose proof (main_R _ _ (lines_loop ls nss H O A1 l _ (last_loop l A2 OL))) as D. cbn in D.
  destruct (proj2 (parse_terminates_iff _ R debug sane_R A) (ex_intro _ _ D)) as [fuel F]. exists fuel. pose proof (parse_sound fuel (ended c ls ++ l) R debug sane_R) as X.
  destruct (parse_with_debug fuel (ended c ls ++ l) R debug) as [t|er| |]; [| |destruct (X A)|destruct (F eq_refl)].
  - destruct X as [_ X]. pose proof (peg_det _ _ _ _ X _ D) as Z. injection Z as _ Z. destruct (NL (eq_sym Z)).
  - exists er. split; [reflexivity|]. destruct (e_priority er); [reflexivity|]. destruct X as [_ (r & X & _)]. pose proof (peg_det _ _ _ _ X _ D). discriminate.
Qed.
Lemma messages : forall ls l tail m k, ascii (ended c ls ++ l ++ tail) -> Forall okay ls -> ~ In c l -> tail = [] \/ (exists t, tail = c :: t) ->
  complains (with_main rs e) l m k -> complains R (ended c ls ++ l ++ tail) m (length (ended c ls) + k).
Proof.
  intros ls l tail m k A O N T C. destruct (ascii_lines c ls _ A) as [A1 A2]. apply Forall_app in A2. destruct A2 as [A2 A3]. destruct (lines_give ls O A1) as [nss H].
  apply (complains_iff rs e c SR SE MU l m k A2) in C. destruct C as (rest & D & L). apply in_R in D. unfold complains. apply (parse_abort_iff _ R m _ sane_R A).
  assert (D' : peg G e (l ++ tail) (PAbort m (rest ++ tail))). { destruct T as [->|[t ->]]; [rewrite !app_nil_r; exact D|]. exact (stop_there G c t e l _ D strange). }
  exists (rest ++ tail). split; [|rewrite !app_length; lia].
  apply (main_R _ (PAbort m (rest ++ tail))). apply (lines_loop ls nss H O A1 (l ++ tail) (PAbort m (rest ++ tail))).
  apply peg_rep_abort; [discriminate|]. apply peg_or_first; [|discriminate]. apply peg_and_stop; [exact D'|exact Logic.I].
Qed.
Lemma must_end : forall ls l tail, ascii (ended c ls ++ l ++ tail) -> Forall okay ls -> ~ In c l -> tail = [] \/ (exists t, tail = c :: t) ->
  finishes R (ended c ls ++ l ++ tail) -> finishes (with_main rs e) l.
Proof.
  intros ls l tail A O N T F. destruct (ascii_lines c ls _ A) as [A1 A2]. apply Forall_app in A2. destruct A2 as [A2 A3]. destruct (lines_give ls O A1) as [nss H].
  apply (parse_terminates_iff _ R false sane_R A) in F. destruct F as [r D]. destruct (from_main _ _ D) as (r0 & _ & D0).
  destruct (loop_back ls nss H O A1 _ _ D0) as [r1 D1]. destruct (loop_inv _ _ D1) as (r2 & D2 & _).
  assert (X : exists r3, peg G e (l ++ tail) r3).
  { inversion D2 as [| | | | | | | | | | | | |x es s' r' E1 E2 E3 E4|x es s' r' E1 E2 E3 E4| | | | | | | | |]; subst;
      match goal with K : peg _ (And [e; _]) _ _ |- _ => inversion K; subst; eexists; eassumption end. }
  destruct X as [r3 D3]. apply (finishes_iff rs e c SR SE MU l A2). destruct T as [->|[t ->]]; [rewrite app_nil_r in D3; exists r3; exact (out_R _ _ D3)|].
  destruct (stop_back G c t e _ _ D3 l eq_refl strange) as (r4 & D4 & _). exists r4. exact (out_R _ _ D4).
Qed.

(** ** Calls *)

Notation run := (costs G).

Lemma e_run : forall l k, ascii l -> makes_calls (with_main rs e) l k -> exists o, o <> OC /\ run e l o k.
Proof.
  intros l k A M. destruct (e_costs rs e c SR SE MU l k A M) as (o & N & C). exists o. split; [exact N|].
  refine (proj1 (costs_agree GL G _ _) e l o k C NE).
  - intros n X. unfold grammar_of, recover_rules, line_rules. rewrite !get_other by exact X. reflexivity.
  - intros n x X. unfold grammar_of, line_rules. rewrite get_other by exact X. exact (proj1 MU n x X).
Qed.
Lemma n_lit : forall s, run (lit [c]) (c :: s) (OM s) 1.
Proof. intro s. eapply c_match. exact (peg_lit_ok G [c] s). Qed.
Lemma n_nolit : forall s, (forall t, s <> c :: t) -> run (lit [c]) s OF 1.
Proof. intros s N. apply c_fail, peg_lit_fail. intros r E. exact (N r E). Qed.
Lemma n_chars : forall l t, ~ In c l -> t = [] \/ (exists t', t = c :: t') -> exists k, costs_rep G (And [Not (lit [c]); dot_]) 0 None (l ++ t) (OM t) k /\ k <= 4 * length l + 4.
Proof.
  induction l as [|x l IH]; intros t N T.
  - destruct T as [->|[t' ->]].
    + exists (S (S 1 + 1)). split; [|cbn; lia]. apply cr_done. apply c_and. eapply ca_cons; [eapply c_not_ok; [apply n_nolit; discriminate|left; reflexivity]|]. apply ca_fail, c_fail, peg_dot_fail.
    + exists (S (S 1)). split; [|cbn; lia]. apply cr_done. apply c_and, ca_fail. eapply c_not_fail. apply n_lit.
  - destruct (IH t (fun H => N (or_intror H)) T) as (k & K & L). exists (S (S 1 + (1 + 0)) + k). split; [|cbn; lia].
    eapply cr_more; [discriminate| |exact K]. apply c_and. eapply ca_cons; [eapply c_not_ok; [apply n_nolit|left; reflexivity]|].
    + intros t' E. injection E as -> _. apply N. left. reflexivity.
    + eapply ca_cons; [eapply c_match; apply peg_dot_ok|apply ca_nil].
Qed.
Lemma n_rest : forall l t, ~ In c l -> t = [] \/ (exists t', t = c :: t') -> exists k, run (RuleName b) (l ++ t) (OM t) k /\ k <= 4 * length l + 6.
Proof.
  intros l t N T. destruct (n_chars l t N T) as (k & K & L). exists (S (S k)). split; [|lia]. eapply c_rule; [exact g_b|]. apply c_rep. exact K.
Qed.
Lemma ending_R : forall l r o k, peg G e l r -> run e l o k -> o <> OC -> o = match r with PMatch _ rest => OM rest | PFail => OF | PAbort _ _ => OA end.
Proof.
  intros l r o k P C N. pose proof (proj1 (costs_says G sane_R) e l o k C SE) as S.
  destruct o as [rest| | |]; cbn in S; [destruct S as [ts S]| |destruct S as (m & rest & S)|destruct (N eq_refl)]; rewrite (peg_det G e l _ P _ S); reflexivity.
Qed.
Lemma n_line : forall l k t, ascii l -> okay l -> makes_calls (with_main rs e) l k -> exists k', run item_ (l ++ c :: t) (OM t) k' /\ k' <= k + 4 * length l + 11.
Proof.
  intros l k t A [N Q] M. apply (quiet_iff rs e c SR SE MU l A) in Q. destruct Q as (r & D & Q). apply in_R in D. destruct (e_run l k A M) as (o & NO & C).
  rewrite (ending_R l r o k D C NO) in C. clear NO. assert (B : exists kb, run (And [RuleName b; lit [c]]) (l ++ c :: t) (OM t) kb /\ kb <= 4 * length l + 8).
  { destruct (n_rest l (c :: t) N ltac:(right; exists t; reflexivity)) as (kb & KB & LB). exists (S (kb + (1 + 0))). split; [|lia]. apply c_and. eapply ca_cons; [exact KB|]. eapply ca_cons; [apply n_lit|apply ca_nil]. }
  destruct B as (kb & KB & LB). pose proof (fun o H => proj1 (stop_costs G c t) e l o k H strange) as SC. destruct r as [ks [|x rest]| |m rest]; [| | |destruct (Q m rest eq_refl)].
  - exists (S (S (k + (1 + 0)))). split; [|lia]. apply c_or, co_match, c_and. eapply ca_cons; [exact (SC _ C)|]. eapply ca_cons; [apply n_lit|apply ca_nil].
  - exists (S (S (k + 1) + kb)). split; [|lia]. apply c_or. eapply co_next; [|apply co_match; exact KB]. apply c_and. eapply ca_cons; [exact (SC _ C)|]. apply ca_fail, n_nolit. intros t' E. injection E as -> _.
    destruct (peg_rest _ _ _ _ D) as [w ->]. apply N. apply in_or_app. right. left. reflexivity.
  - exists (S (S k + kb)). split; [|lia]. apply c_or. eapply co_next; [|apply co_match; exact KB]. apply c_and, ca_fail. exact (SC _ C).
Qed.
Lemma n_end : forall k, quiet rs e [] -> makes_calls (with_main rs e) [] k -> exists k', run item_ [] OF k' /\ k' <= k + 11.
Proof.
  intros k Q M. apply (quiet_iff rs e c SR SE MU [] ltac:(constructor)) in Q. destruct Q as (r & D & Q). apply in_R in D. destruct (e_run [] k ltac:(constructor) M) as (o & NO & C).
  rewrite (ending_R [] r o k D C NO) in C. assert (B : exists kb, run (And [RuleName b; lit [c]]) [] OF kb /\ kb <= 8).
  { destruct (n_rest [] [] (fun x => x) (or_introl eq_refl)) as (kb & KB & LB). exists (S (kb + 1)). split; [|cbn in LB; lia]. apply c_and. eapply ca_cons; [exact KB|]. apply ca_fail, n_nolit. discriminate. }
  destruct B as (kb & KB & LB). destruct r as [ks rest| |m rest]; [| |destruct (Q m rest eq_refl)].
  - destruct (peg_rest _ _ _ _ D) as [w E]. symmetry in E. apply app_eq_nil in E. destruct E as [_ ->].
    exists (S (S (k + 1) + (kb + 0))). split; [|lia]. apply c_or. eapply co_next; [|eapply co_next; [exact KB|apply co_nil]]. apply c_and. eapply ca_cons; [exact C|]. apply ca_fail, n_nolit. discriminate.
  - exists (S (S k + (kb + 0))). split; [|lia]. apply c_or. eapply co_next; [|eapply co_next; [exact KB|apply co_nil]]. apply c_and, ca_fail. exact C.
Qed.
Lemma few_calls : forall ls ks k0, ascii (ended c ls) -> Forall okay ls -> quiet rs e [] -> Forall2 (makes_calls (with_main rs e)) ls ks -> makes_calls (with_main rs e) [] k0 ->
  forall fuel debug, parse_with_debug fuel (ended c ls) R debug <> Fuel -> parse_calls fuel (ended c ls) R debug <= list_sum ks + k0 + 11 * length (ended c ls) + 12.
Proof.
  intros ls ks k0 A O Q H H0 fuel debug NF. pose proof A as A'. rewrite <- (app_nil_r (ended c ls)) in A'. destruct (ascii_lines c ls [] A') as [A1 _]. clear A'.
  assert (X : exists k, costs_rep G item_ 0 None (ended c ls) (OM []) k /\ k <= list_sum ks + k0 + 11 * length (ended c ls) + 11).
  { clear A NF. revert ks H O A1. induction ls as [|l ls IH]; intros ks H O A1.
    - inversion H; subst. destruct (n_end k0 Q H0) as (k & K & L). exists k. split; [apply cr_done; exact K|]. cbn. lia.
    - inversion H as [|? k ? ks' K H']; subst. apply Forall_cons_iff in O. destruct O as [O1 O2]. apply Forall_cons_iff in A1. destruct A1 as [A1 A2].
      destruct (IH ks' H' O2 A2) as (k2 & K2 & L2). destruct (n_line l k (ended c ls) A1 O1 K) as (k1 & K1 & L1). exists (k1 + k2). rewrite ended_cons_nil. split; [eapply cr_more; [discriminate|exact K1|exact K2]|].
      rewrite app_length. cbn [length list_sum fold_right]. unfold list_sum in *. cbn [fold_right]. lia. }
  destruct X as (k & K & L). pose proof (parse_calls_run R _ _ _ (OM []) (S (S k)) sane_R A NF) as Y.
  assert (Z : costs G (RuleName main) (ended c ls) (OM []) (S (S k))) by (eapply c_rule; [exact g_main|]; apply c_rep; exact K). specialize (Y Z ltac:(discriminate)). lia.
Qed.
End Recover.
