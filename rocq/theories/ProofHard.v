(** Rules that go on after an accepted text: proofs. *)
From Verif Require Import Base ModelAst ModelParser SpecPeg SpecPos SpecApi SpecStuck SpecWf SpecPower SpecLines SpecTiles SpecHard.
From Verif Require Import PegTools PegLeaf ProofParser ProofEngine ProofSim ProofApi ProofPower ProofTiles ProofLines.

Lemma and_cons_inv : forall G e es s r, peg G (And (e :: es)) s r ->
  (exists ts s1 r1, peg G e s (PMatch ts s1) /\ peg G (And es) s1 r1 /\ r = prepend ts r1) \/ (peg G e s r /\ stops r).
Proof.
  intros G e es s r D. inversion D as [| | | | | | | | | |e0 es0 s0 ts s1 r0 D1 D2|e0 es0 s0 r0 D1 St| | | | | | | | | | | |]; subst; [left; exists ts, s1, r0; repeat split; assumption|right; split; assumption].
Qed.
Lemma end_yes : forall G, peg G at_end [] (PMatch [] []).
Proof. intro G. exact (peg_not_ok G dot_ [] PFail (peg_dot_fail G) Logic.I). Qed.
Lemma end_no : forall G c s, peg G at_end (c :: s) PFail.
Proof. intros G c s. exact (peg_not_fail G dot_ _ _ _ (peg_dot_ok G c s)). Qed.

Lemma prepend_nil : forall r, prepend [] r = r.
Proof. intros [ts rest| |m rest]; reflexivity. Qed.
Lemma prepend_prepend : forall a b r, prepend a (prepend b r) = prepend (a ++ b) r.
Proof. intros a b [ts rest| |m rest]; cbn; rewrite ?app_assoc; reflexivity. Qed.

(** What [e !. x] does. *)
Lemma after_yes : forall G e x s ts r, peg G e s (PMatch ts []) -> peg G x [] r -> peg G (And [e; at_end; x]) s (prepend ts r).
Proof.
  intros G e x s ts r D X. refine (peg_and_cons G _ _ _ _ _ r D _). rewrite <- (prepend_nil r) at 1. refine (peg_and_cons G _ _ _ _ _ r (end_yes G) _).
  destruct r as [us rest| |m rest]; [|apply peg_and_stop; [exact X|exact Logic.I]|apply peg_and_stop; [exact X|exact Logic.I]].
  rewrite <- (app_nil_r us) at 1. exact (peg_and_cons G _ _ _ _ _ (PMatch [] rest) X (peg_and_nil G rest)).
Qed.
Lemma after_no : forall G e x s r, peg G e s r -> (forall ts, r <> PMatch ts []) -> exists r', peg G (And [e; at_end; x]) s r' /\ stops r' /\ (forall m rest, r' = PAbort m rest <-> r = PAbort m rest).
Proof.
  intros G e x s r D N. destruct r as [ts [|c rest]| |m rest].
  - destruct (N ts eq_refl).
  - exists PFail. split; [|split; [exact Logic.I|intros m r; split; discriminate]]. refine (peg_and_cons G _ _ _ _ _ PFail D _). apply peg_and_stop; [apply end_no|exact Logic.I].
  - exists PFail. split; [apply peg_and_stop; [exact D|exact Logic.I]|]. split; [exact Logic.I|intros m r; split; discriminate].
  - exists (PAbort m rest). split; [apply peg_and_stop; [exact D|exact Logic.I]|]. split; [exact Logic.I|intros m' r; split; intros [= -> ->]; reflexivity].
Qed.
(** And back. *)
Lemma after_inv : forall G e x s r, peg G (And [e; at_end; x]) s r ->
  (exists ts r', peg G e s (PMatch ts []) /\ peg G x [] r' /\ r = prepend ts r') \/ (exists r', peg G e s r' /\ (forall ts, r' <> PMatch ts []) /\ stops r /\ (forall m rest, r = PAbort m rest <-> r' = PAbort m rest)).
Proof.
  intros G e x s r D. destruct (and_cons_inv _ _ _ _ _ D) as [(ts & s1 & r1 & D1 & D2 & E)|[D1 St]].
  - destruct s1 as [|c s1].
    + left. destruct (and_cons_inv _ _ _ _ _ D2) as [(t2 & s2 & r2 & D3 & D4 & E2)|[D3 X]]; [|pose proof (peg_det _ _ _ _ (end_yes G) _ D3); subst r1; destruct X].
      pose proof (peg_det _ _ _ _ (end_yes G) _ D3) as Z. injection Z as <- <-. rewrite prepend_nil in E2. subst r1.
      destruct (and_cons_inv _ _ _ _ _ D4) as [(t3 & s3 & r3 & D5 & D6 & E3)|[D5 X]].
      * inversion D6; subst. exists ts, (PMatch t3 s3). split; [exact D1|]. split; [exact D5|]. cbn. rewrite app_nil_r. reflexivity.
      * exists ts, r2. repeat split; assumption.
    + right. exists (PMatch ts (c :: s1)). split; [exact D1|]. split; [discriminate|].
      assert (F : r1 = PFail). { refine (peg_det _ _ _ _ D2 _ _). apply peg_and_stop; [apply end_no|exact Logic.I]. }
      subst. split; [exact Logic.I|]. intros m rest. split; discriminate.
  - right. exists r. split; [exact D1|]. split; [intros ts ->; exact St|]. split; [exact St|]. intros m rest. reflexivity.
Qed.

Lemma no_end : forall G w s r, G w = Some (RuleName w) -> ~ peg G (RuleName w) s r.
Proof.
  intros G w s r E D. assert (X : forall e s r, peg G e s r -> e <> RuleName w); [|exact (X _ _ _ D eq_refl)]. clear D s r.
  intros e s r D. induction D as [| | | | | | | | | | | | | | | | | | | | | |n e s r Hn D IH|n s Hn]; try discriminate; intro Z; injection Z as ->.
  - rewrite E in Hn. injection Hn as <-. exact (IH eq_refl).
  - rewrite E in Hn. discriminate.
Qed.

Lemma whole_case : forall r, (exists ts, r = PMatch ts []) \/ (forall ts, r <> PMatch ts []).
Proof. intros [ts [|c rest]| |m rest]; [left; eauto|right; discriminate|right; discriminate|right; discriminate]. Qed.

Section Sequel.
Variable rs : rules.
Variable e : expr.
Variable x : expr.
Hypothesis SR : sane_rules rs.
Hypothesis SE : sane e.
Hypothesis SX : sane x.
Hypothesis MU : main_unused rs [e; x].
Variable s : str.
Hypothesis AS : ascii s.

Let Q : expr := And [e; at_end; x].
Let G := grammar_of (sequel rs e x).

Lemma e_ref : ~ has_ref main e.
Proof. exact (Forall_inv (proj2 MU)). Qed.
Lemma x_ref : ~ has_ref main x.
Proof. exact (Forall_inv (Forall_inv_tail (proj2 MU))). Qed.
Lemma q_ref : ~ has_ref main Q.
Proof.
  intro H. inversion H as [|y es J X| | |]; subst. destruct J as [<-|[<-|[<-|[]]]]; [exact (e_ref X)| |exact (x_ref X)].
  inversion X as [| | |y Y|]; subst. inversion Y.
Qed.
Lemma q_sane : sane Q.
Proof. cbn. repeat split; assumption. Qed.
Lemma q_unused : main_unused rs [e; Q].
Proof. split; [exact (proj1 MU)|]. constructor; [exact e_ref|]. constructor; [exact q_ref|constructor]. Qed.

Lemma e_takes : takes (with_main rs e) s <-> exists ts, peg G e s (PMatch ts []).
Proof. exact (with_accepts rs e Q s SR q_unused AS Q e SE e_ref). Qed.
Lemma q_takes : takes (sequel rs e x) s <-> exists ts, peg G Q s (PMatch ts []).
Proof. exact (with_accepts rs e Q s SR q_unused AS Q Q q_sane q_ref). Qed.
Lemma q_ok : forall ast, (exists fuel, parse fuel s (sequel rs e x) = Ok ast) <-> exists ts, ast = Rule main ts /\ peg G Q s (PMatch ts []).
Proof. intro ast. exact (with_ok rs e Q s SR q_unused AS Q Q q_sane q_ref ast). Qed.
Lemma e_finishes : finishes (with_main rs e) s <-> exists r, peg G e s r.
Proof. exact (with_finishes rs e Q s SR q_unused AS Q e SE e_ref). Qed.
Lemma q_finishes : finishes (sequel rs e x) s <-> exists r, peg G Q s r.
Proof. exact (with_finishes rs e Q s SR q_unused AS Q Q q_sane q_ref). Qed.

Lemma to_main : forall y r, ~ has_ref main y -> peg G y s r <-> peg_main (with_main rs y) s (wrap main r).
Proof.
  intros y r N. assert (MU2 : main_unused rs [y; Q]) by (split; [exact (proj1 MU)|constructor; [exact N|constructor; [exact q_ref|constructor]]]). split.
  - intro D. refine (peg_rule _ main y s r _ _); [exact (get_main rs y)|]. exact (move rs y Q s MU2 Q y y r N D).
  - intro D. unfold peg_main in D. inversion D as [| | | | | | | | | | | | | | | | | | | | | |n e' s' r' E D' H1 H2 H3|n s' E]; subst; unfold grammar_of in E; rewrite get_main in E; [|discriminate].
    injection E as <-. assert (r' = r) as ->. { destruct r' as [a b| |a b], r as [c d| |c d]; cbn in *; congruence. }
    exact (move rs y Q s MU2 y Q y r N D').
Qed.
Lemma any_complains : forall y m k, sane y -> ~ has_ref main y -> complains (with_main rs y) s m k <-> exists rest, peg G y s (PAbort m rest) /\ k + length rest = length s.
Proof.
  intros y m k S N. unfold complains. rewrite (parse_abort_iff s _ m k (with_sane rs y SR S) AS).
  split; intros (rest & D & K); exists rest; (split; [|exact K]); apply (to_main y (PAbort m rest) N); exact D.
Qed.

Lemma sequel_hangs : (forall r, ~ peg G x [] r) -> finishes (with_main rs e) s -> finishes (sequel rs e x) s <-> ~ takes (with_main rs e) s.
Proof.
  intros NX F. apply e_finishes in F. destruct F as [r D]. rewrite q_finishes, e_takes. split.
  - intros [q DQ] [ts T]. destruct (after_inv _ _ _ _ _ DQ) as [(us & r' & _ & X & _)|(r' & D' & N & _)]; [exact (NX r' X)|]. exact (N ts (peg_det _ _ _ _ D' _ T)).
  - intro N. destruct (whole_case r) as [[ts ->]|W]; [destruct N; exists ts; exact D|]. destruct (after_no _ _ x _ _ D W) as (r' & D' & _). exists r'. exact D'.
Qed.

Lemma sequel_complains : forall m k, peg G x [] (PAbort m []) -> complains (sequel rs e x) s m k <-> takes (with_main rs e) s /\ k = length s \/ complains (with_main rs e) s m k.
Proof.
  intros m k X. change (sequel rs e x) with (with_main rs Q). rewrite (any_complains Q m k q_sane q_ref), (any_complains e m k SE e_ref), e_takes. split.
  - intros (rest & D & K). destruct (after_inv _ _ _ _ _ D) as [(us & r' & T & X' & E)|(r' & D' & _ & _ & AB)].
    + left. split; [exists us; exact T|]. pose proof (peg_det _ _ _ _ X _ X') as <-. cbn in E. injection E as ->. cbn in K. lia.
    + right. exists rest. split; [|exact K]. rewrite <- (proj1 (AB m rest) eq_refl). exact D'.
  - intros [[[ts T] ->]|(rest & D & K)].
    + exists []. split; [exact (after_yes _ _ _ _ _ _ T X)|cbn; lia].
    + exists rest. split; [|exact K]. apply peg_and_stop; [exact D|exact Logic.I].
Qed.

Lemma sequel_tree : forall us, peg G x [] (PMatch us []) -> forall ast,
  (exists fuel, parse fuel s (sequel rs e x) = Ok ast) <-> exists ts, (exists fuel, parse fuel s (with_main rs e) = Ok (Rule main ts)) /\ ast = Rule main (ts ++ us).
Proof.
  intros us X ast. rewrite q_ok. split.
  - intros (ts & -> & D). destruct (after_inv _ _ _ _ _ D) as [(vs & r' & T & X' & E)|(r' & _ & _ & St & _)]; [|destruct St].
    pose proof (peg_det _ _ _ _ X _ X') as <-. cbn in E. injection E as ->. exists vs. split; [|reflexivity].
    apply (with_ok rs e Q s SR q_unused AS Q e SE e_ref). exists vs. split; [reflexivity|exact T].
  - intros (ts & T & ->). apply (with_ok rs e Q s SR q_unused AS Q e SE e_ref) in T. destruct T as (vs & E & T). injection E as ->.
    exists (vs ++ us). split; [reflexivity|]. exact (after_yes _ _ _ _ _ _ T X).
Qed.
End Sequel.

Section Public.
Variable rs : rules.
Variable e : expr.
Hypothesis SR : sane_rules rs.
Hypothesis SE : sane e.
Hypothesis MU : main_unused rs [e].

Lemma unused_with : forall x, ~ has_ref main x -> main_unused rs [e; x].
Proof. intros x N. split; [exact (proj1 MU)|]. constructor; [exact (Forall_inv (proj2 MU))|]. constructor; [exact N|constructor]. Qed.
Lemma name_ref : forall w, w <> main -> ~ has_ref main (RuleName w).
Proof. intros w N H. inversion H. subst. exact (N eq_refl). Qed.

Lemma hang_iff : forall w, w <> main -> rules_get rs w = Some (ref_rule w) -> forall s, ascii s -> finishes (with_main rs e) s ->
  (finishes (sequel rs e (ref_rule w)) s <-> ~ takes (with_main rs e) s).
Proof.
  intros w N E s A F. apply (sequel_hangs rs e (ref_rule w) SR SE Logic.I (unused_with _ (name_ref w N)) s A); [|exact F].
  intros r. apply no_end. unfold grammar_of, sequel. rewrite get_other by exact N. exact E.
Qed.
Lemma error_iff : forall m s k, ascii s -> (complains (sequel rs e (Simple (AError m))) s m k <-> takes (with_main rs e) s /\ k = length s \/ complains (with_main rs e) s m k).
Proof.
  intros m s k A. assert (N : ~ has_ref main (Simple (AError m))) by (intro H; inversion H).
  exact (sequel_complains rs e (Simple (AError m)) SR SE Logic.I (unused_with _ N) s A m k (peg_error _ m [])).
Qed.
Lemma missing_iff : forall w s k, ascii s -> w <> main -> rules_get rs w = None ->
  (complains (sequel rs e (ref_rule w)) s (missing_rule_msg w) k <-> takes (with_main rs e) s /\ k = length s \/ complains (with_main rs e) s (missing_rule_msg w) k).
Proof.
  intros w s k A N E. apply (sequel_complains rs e (ref_rule w) SR SE Logic.I (unused_with _ (name_ref w N)) s A).
  apply peg_rule_missing. unfold grammar_of, sequel. rewrite get_other by exact N. exact E.
Qed.
Lemma mark_iff : forall w, w <> main -> rules_get rs w = Some (lit []) -> forall s, ascii s -> forall ast,
  ((exists fuel, parse fuel s (sequel rs e (ref_rule w)) = Ok ast) <-> exists ts, (exists fuel, parse fuel s (with_main rs e) = Ok (Rule main ts)) /\ ast = Rule main (ts ++ [Rule w [Val []]])).
Proof.
  intros w N E s A ast. refine (sequel_tree rs e (ref_rule w) SR SE Logic.I (unused_with _ (name_ref w N)) s A [Rule w [Val []]] _ ast).
  refine (peg_rule _ w (lit []) [] (PMatch [Val []] []) _ (peg_lit_ok _ [] [])). unfold grammar_of, sequel. rewrite get_other by exact N. exact E.
Qed.
End Public.

(** * Tiles *)

Lemma column_refs : forall side nm P n, has_ref n (column side nm P) -> n = nm.
Proof.
  intros side nm P n H. unfold column in H. inversion H as [| |y es J X| |]; subst. apply in_app_or in J. destruct J as [J|[<-|[]]]; [|inversion X].
  clear H. revert J. generalize 0. induction P as [|t P IH]; intros k J; [destruct J|]. destruct J as [<-|J]; [|exact (IH _ J)].
  inversion X as [|y es K Y| | |]; subst. destruct K as [<-|[<-|[<-|[]]]]; inversion Y; reflexivity.
Qed.
Lemma tile_main_refs : forall n, has_ref n tile_main -> n = nm_top \/ n = nm_bottom.
Proof.
  intros n H. inversion H as [|y es J X| | |]; subst. destruct J as [<-|[<-|[<-|[]]]].
  - inversion X as [| | |y Y|]; subst. inversion Y.
  - inversion X as [| | |y Y|]; subst. inversion Y as [| | |y Z|]; subst. inversion Z as [|y es K U| | |]; subst. destruct K as [<-|[<-|[]]]; [inversion U; left; reflexivity|].
    inversion U as [| | |y V|]; subst. inversion V.
  - inversion X. right. reflexivity.
Qed.
Lemma tile_reach : forall P n, reachable (tile_rules P) n -> n = main \/ n = nm_top \/ n = nm_bottom.
Proof.
  intros P n R. induction R as [|n e m R IH E H]; [left; reflexivity|]. right. destruct IH as [->|[->| ->]].
  - injection E as <-. exact (tile_main_refs m H).
  - injection E as <-. left. exact (column_refs _ _ _ _ H).
  - injection E as <-. right. exact (column_refs _ _ _ _ H).
Qed.
Lemma tiles_get_and : forall w P n, n <> main -> n <> nm_w -> rules_get (tiles_and w P) n = rules_get (tile_rules P) n.
Proof. intros w P n _ N. unfold tiles_and. cbn [rules_get]. rewrite neq_eqb by (intro E; exact (N (eq_sym E))). reflexivity. Qed.
Lemma tiles_and_same : forall w P fuel s d, parse_with_debug fuel s (with_main (tiles_and w P) tile_main) d = parse_with_debug fuel s (tile_rules P) d.
Proof.
  intros w P fuel s d. symmetry. apply parse_reachable. intros n R. destruct (tile_reach P n R) as [->|[->| ->]].
  - rewrite get_main. reflexivity.
  - rewrite get_other by discriminate. symmetry. apply tiles_get_and; discriminate.
  - rewrite get_other by discriminate. symmetry. apply tiles_get_and; discriminate.
Qed.
Lemma tiles_same_main : forall P fuel s d, parse_with_debug fuel s (with_main (tile_rules P) tile_main) d = parse_with_debug fuel s (tile_rules P) d.
Proof.
  intros P fuel s d. symmetry. apply parse_reachable. intros n R. destruct (tile_reach P n R) as [->|[->| ->]];
    [rewrite get_main; reflexivity|rewrite get_other by discriminate; reflexivity|rewrite get_other by discriminate; reflexivity].
Qed.
Lemma tile_unused : forall P es, Forall (fun e => ~ has_ref main e) es -> main_unused (tile_rules P) es.
Proof.
  intros P es F. split; [|exact F]. intros n e N E H. destruct (G_names P n e E) as [X|[[X Y]|[X Y]]]; [exact (N X)| |]; subst; apply column_refs in H; discriminate.
Qed.
Lemma tile_and_unused : forall w P es, ~ has_ref main w -> Forall (fun e => ~ has_ref main e) es -> main_unused (tiles_and w P) es.
Proof.
  intros w P es W F. split; [|exact F]. intros n e N E. unfold tiles_and in E. cbn [rules_get] in E. destruct (str_eqb nm_w n); [injection E as <-; exact W|].
  exact (proj1 (tile_unused P es F) n e N E).
Qed.
Lemma tile_and_sane : forall w P, sane w -> sane_rules (tiles_and w P).
Proof. intros w P S n e E. unfold tiles_and in E. cbn [rules_get] in E. destruct (str_eqb nm_w n); [injection E as <-; exact S|exact (tiles_sane P n e E)]. Qed.
Lemma tile_main_ok : ~ has_ref main tile_main.
Proof. intro H. destruct (tile_main_refs main H) as [E|E]; discriminate. Qed.
Lemma tile_main_list : Forall (fun e => ~ has_ref main e) [tile_main].
Proof. constructor; [exact tile_main_ok|constructor]. Qed.
Lemma tile_main_sane : sane tile_main.
Proof. cbn. repeat split. Qed.

Lemma and_takes : forall w P s, takes (with_main (tiles_and w P) tile_main) s <-> takes (tile_rules P) s.
Proof. intros w P s. unfold takes, parse. split; intros (f & t & H); exists f, t; [rewrite <- (tiles_and_same w P)|rewrite tiles_and_same]; exact H. Qed.
Lemma and_finishes : forall w P s, finishes (with_main (tiles_and w P) tile_main) s.
Proof.
  intros w P s. exists (depth_factor (tile_rules P) * (length s + 1)). unfold parse. rewrite tiles_and_same. apply (proj2 (proj2 (tiles_answered P))). exact (le_n _).
Qed.
Lemma main_takes : forall P s, takes (with_main (tile_rules P) tile_main) s <-> takes (tile_rules P) s.
Proof. intros P s. unfold takes, parse. split; intros (f & t & H); exists f, t; [rewrite <- (tiles_same_main P)|rewrite tiles_same_main]; exact H. Qed.
Lemma main_finishes : forall P s, finishes (with_main (tile_rules P) tile_main) s.
Proof.
  intros P s. exists (depth_factor (tile_rules P) * (length s + 1)). unfold parse. rewrite tiles_same_main. apply (proj2 (proj2 (tiles_answered P))). exact (le_n _).
Qed.

(** Tiles give no messages. *)
Lemma column_error : forall side nm P m, ~ has_atom (AError m) (column side nm P).
Proof.
  intros side nm P m H. unfold column in H. inversion H as [| |y es J X| |]; subst. apply in_app_or in J. destruct J as [J|[<-|[]]]; [|inversion X].
  clear H. revert J. generalize 0. induction P as [|t P IH]; intros k J; [destruct J|]. destruct J as [<-|J]; [|exact (IH _ J)].
  inversion X as [|y es K Y| | |]; subst. destruct K as [<-|[<-|[<-|[]]]]; inversion Y.
Qed.
Lemma tile_main_error : forall m, ~ has_atom (AError m) tile_main.
Proof.
  intros m H. inversion H as [|y es J X| | |]; subst. destruct J as [<-|[<-|[<-|[]]]].
  - inversion X as [| | |y Y|]; subst. inversion Y.
  - inversion X as [| | |y Y|]; subst. inversion Y as [| | |y Z|]; subst. inversion Z as [|y es K U| | |]; subst. destruct K as [<-|[<-|[]]]; [inversion U|].
    inversion U as [| | |y V|]; subst. inversion V.
  - inversion X.
Qed.
Lemma tiles_no_message : forall P s m k, ~ complains (with_main (tile_rules P) tile_main) s m k.
Proof.
  intros P s m k (fuel & er & H & C & _). unfold parse in H. rewrite tiles_same_main in H. destruct (parse_critical_origin _ _ _ _ _ H C) as [(n & x & E & X)|(n & _ & E & U)].
  - cbn [tile_rules rules_get] in E. destruct (str_eqb main n); [injection E as <-; exact (tile_main_error _ X)|].
    destruct (str_eqb nm_top n); [injection E as <-; exact (column_error _ _ _ _ X)|]. destruct (str_eqb nm_bottom n); [injection E as <-; exact (column_error _ _ _ _ X)|discriminate].
  - assert (R : n = main \/ n = nm_top \/ n = nm_bottom).
    { destruct U as [->|(j & x & J & X)]; [left; reflexivity|]. cbn [tile_rules rules_get] in J. destruct (str_eqb main j); [injection J as <-; right; exact (tile_main_refs n X)|].
      destruct (str_eqb nm_top j); [injection J as <-; right; left; exact (column_refs _ _ _ _ X)|].
      destruct (str_eqb nm_bottom j); [injection J as <-; right; right; exact (column_refs _ _ _ _ X)|discriminate]. }
    destruct R as [->|[->| ->]]; discriminate.
Qed.

Lemma tile_dec : forall P s, takes (tile_rules P) s \/ ~ takes (tile_rules P) s.
Proof.
  intros P s. pose proof (proj2 (proj2 (tiles_answered P)) s false (depth_factor (tile_rules P) * (length s + 1)) (le_n _)) as N.
  destruct (parse_with_debug (depth_factor (tile_rules P) * (length s + 1)) s (tile_rules P) false) as [t|er| |] eqn:E; [left; eexists; exists t; exact E| | |destruct (N eq_refl)];
    right; intros (f & t & H); pose proof (ProofRefactor.parse_same _ _ _ _ _ _ E H ltac:(discriminate) ltac:(discriminate)); discriminate.
Qed.

Section Asked.
Variable P : list tile.
Hypothesis AT : ascii_tiles P.

Lemma takes_ascii : forall s, takes (tile_rules P) s -> ascii s.
Proof. intros s T. apply (takes_peg P s) in T. exact (proj1 T). Qed.

Lemma asked_hang : (exists s, ascii s /\ ~ finishes (hanging_tiles P) s) <-> solvable P.
Proof.
  assert (H : forall s, ascii s -> finishes (hanging_tiles P) s <-> ~ takes (tile_rules P) s).
  { intros s A. rewrite <- (and_takes (ref_rule nm_w) P s). apply hang_iff; [apply tile_and_sane; exact Logic.I|exact tile_main_sane|apply tile_and_unused; [intro R; inversion R|exact tile_main_list]|discriminate|reflexivity|exact A|apply and_finishes]. }
  rewrite <- (tiles_solve P AT). split.
  - intros (s & A & N). rewrite (H s A) in N. apply (tiles_solve P AT).
    destruct (tile_dec P s) as [T|T]; [apply (tiles_solve P AT); exists s; exact T|destruct (N T)].
  - intros [s T]. exists s. pose proof (takes_ascii s T) as A. split; [exact A|]. rewrite (H s A). intro N. exact (N T).
Qed.
Lemma asked_hang_none : (forall s, ascii s -> finishes (hanging_tiles P) s) <-> ~ solvable P.
Proof.
  rewrite <- asked_hang. split; [intros H (s & A & N); exact (N (H s A))|]. intros N s A.
  apply (hang_iff (tiles_and (ref_rule nm_w) P) tile_main); [apply tile_and_sane; exact Logic.I|exact tile_main_sane|apply tile_and_unused; [intro R; inversion R|exact tile_main_list]|discriminate|reflexivity|exact A|apply and_finishes|].
  rewrite and_takes. intro T. apply N, asked_hang. apply (tiles_solve P AT). exists s. exact T.
Qed.
Lemma asked_message : forall m, (exists s k, ascii s /\ complains (alarming_tiles P m) s m k) <-> solvable P.
Proof.
  intro m. rewrite <- (tiles_solve P AT).
  assert (H : forall s k, ascii s -> complains (alarming_tiles P m) s m k <-> takes (tile_rules P) s /\ k = length s).
  { intros s k A. unfold alarming_tiles. rewrite (error_iff (tile_rules P) tile_main (tiles_sane P) tile_main_sane (tile_unused P _ tile_main_list) m s k A), main_takes.
    split; [intros [X|X]; [exact X|destruct (tiles_no_message _ _ _ _ X)]|intro X; left; exact X]. }
  split.
  - intros (s & k & A & C). exists s. exact (proj1 (proj1 (H s k A) C)).
  - intros [s T]. pose proof (takes_ascii s T) as A. exists s, (length s). split; [exact A|]. apply H; [exact A|]. split; [exact T|reflexivity].
Qed.
Lemma asked_missing : (exists s k, ascii s /\ complains (missing_tiles P) s (missing_rule_msg nm_w) k) <-> solvable P.
Proof.
  rewrite <- (tiles_solve P AT).
  assert (H : forall s k, ascii s -> complains (missing_tiles P) s (missing_rule_msg nm_w) k <-> takes (tile_rules P) s /\ k = length s).
  { intros s k A. unfold missing_tiles. rewrite (missing_iff (tile_rules P) tile_main (tiles_sane P) tile_main_sane (tile_unused P _ tile_main_list) nm_w s k A); [|discriminate|reflexivity]. rewrite main_takes.
    split; [intros [X|X]; [exact X|destruct (tiles_no_message _ _ _ _ X)]|intro X; left; exact X]. }
  split.
  - intros (s & k & A & C). exists s. exact (proj1 (proj1 (H s k A) C)).
  - intros [s T]. pose proof (takes_ascii s T) as A. exists s, (length s). split; [exact A|]. apply H; [exact A|]. split; [exact T|reflexivity].
Qed.
Lemma asked_mark : (exists s fuel ast, ascii s /\ parse fuel s (marking_tiles P) = Ok ast /\ In nm_w (names ast)) <-> solvable P.
Proof.
  rewrite <- (tiles_solve P AT).
  assert (H : forall s ast, ascii s -> (exists fuel, parse fuel s (marking_tiles P) = Ok ast) <-> exists ts, (exists fuel, parse fuel s (with_main (tiles_and (lit []) P) tile_main) = Ok (Rule main ts)) /\ ast = Rule main (ts ++ [Rule nm_w [Val []]])).
  { intros s ast A. apply mark_iff; [apply tile_and_sane; exact Logic.I|exact tile_main_sane|apply tile_and_unused; [intro R; inversion R|exact tile_main_list]|discriminate|reflexivity|exact A]. }
  split.
  - intros (s & fuel & ast & A & E & _). apply (fun x => proj1 (H s ast A) (ex_intro _ fuel x)) in E. destruct E as (ts & [f E] & _). exists s. apply (and_takes (lit []) P). exists f. eexists. exact E.
  - intros [s T]. pose proof (takes_ascii s T) as A. apply (and_takes (lit []) P) in T. destruct T as (f & t & T).
    assert (X : exists ts, t = Rule main ts).
    { pose proof (parse_sound f s (with_main (tiles_and (lit []) P) tile_main) false) as S. unfold parse in T. rewrite T in S. destruct S as [_ S]; [apply with_sane; [apply tile_and_sane; exact Logic.I|exact tile_main_sane]|].
      destruct (peg_main_shape _ _ _ _ S) as (e' & ts & _ & Y & _). injection Y as ->. exists ts. reflexivity. }
    destruct X as [ts ->]. destruct (proj2 (H s (Rule main (ts ++ [Rule nm_w [Val []]])) A)) as [fuel E]; [exists ts; split; [exists f; exact T|reflexivity]|].
    exists s, fuel, (Rule main (ts ++ [Rule nm_w [Val []]])). split; [exact A|]. split; [exact E|]. cbn. right. rewrite flat_map_app. apply in_or_app. right. left. reflexivity.
Qed.
Lemma asked_all : (forall s, ascii s -> takes (other_tiles P) s) <-> ~ solvable P.
Proof.
  rewrite <- (tiles_solve P AT).
  assert (H : forall s, ascii s -> takes (other_tiles P) s <-> ~ takes (tile_rules P) s).
  { intros s A. rewrite <- (main_takes P s). destruct (complement_ok (tile_rules P) tile_main s (tiles_sane P) tile_main_sane (tile_unused P _ tile_main_list) A (main_finishes P s)) as [_ C]. split.
    - intros (f & ast & E). exact (proj1 (proj1 (C ast) (ex_intro _ f E))).
    - intro N. destruct (proj2 (C (Rule main (SpecTable.by_chars s))) (conj N eq_refl)) as [f E]. exists f. eexists. exact E. }
  split.
  - intros X [s T]. exact (proj1 (H s (takes_ascii s T)) (X s (takes_ascii s T)) T).
  - intros N s A. apply H; [exact A|]. intro T. exact (N (ex_intro _ s T)).
Qed.
End Asked.
