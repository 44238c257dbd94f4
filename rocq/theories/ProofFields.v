(** Proofs: texts that are made of fields with a separator between them. *)
From Verif Require Import Base ModelAst ModelParser ModelCost SpecPeg SpecPos SpecApi SpecReport SpecHang SpecLook SpecStuck SpecPower SpecLines SpecTable SpecFields.
From Verif Require Import ProofAst ProofParser ProofEngine ProofApi PegTools ProofReport ProofRun ProofRunDet ProofPower ProofLook ProofStuck ProofLines.

Definition seps (c : char) (ls : list str) : str := flat_map (fun l => c :: l) ls.

Lemma join_seps : forall c l ls, join c (l :: ls) = l ++ seps c ls.
Proof.
  intros c l ls. revert l. induction ls as [|k ls IH]; intro l; [cbn; rewrite app_nil_r; reflexivity|].
  change (join c (l :: k :: ls)) with (l ++ c :: join c (k :: ls)). rewrite IH. reflexivity.
Qed.
Lemma ended_seps : forall c f fs s, ended c (f :: fs) ++ s = f ++ seps c fs ++ c :: s.
Proof.
  intros c f fs s. revert f. induction fs as [|g fs IH]; intro f; [unfold ended; cbn [flat_map]; rewrite app_nil_r, <- app_assoc; reflexivity|].
  unfold ended in *. cbn [flat_map] in *. rewrite <- (app_assoc (f ++ [c])). rewrite IH. rewrite <- app_assoc. unfold seps. cbn. rewrite <- app_assoc. reflexivity.
Qed.
Lemma join_app : forall c fs l ls, join c (fs ++ l :: ls) = ended c fs ++ l ++ seps c ls.
Proof.
  intros c fs l ls. destruct fs as [|f fs]; [apply join_seps|]. cbn [app]. rewrite join_seps, ended_seps. unfold seps. rewrite flat_map_app. reflexivity.
Qed.

Section Fields.
Variable rs : rules.
Variable e : expr.
Variable c : char.
Hypothesis SR : sane_rules rs.
Hypothesis SE : sane e.
Hypothesis MU : main_unused rs [e].
Hypothesis ST : stranger (grammar_of rs) c e.

Let Tl := rep0 (And [lit [c]; e]) 0.
Let Opt := rep2 (lit [c]) 0 1.
Variable xs : list expr.
Hypothesis XS : xs = [] \/ xs = [Opt].
Let M := And (e :: Tl :: xs).
Let R := with_main rs M.
Let G := grammar_of R.

Lemma NE' : ~ has_ref main e.
Proof. destruct MU as [_ F]. inversion F; assumption. Qed.
Lemma MU3 : main_unused rs [e; e].
Proof. destruct MU as [A F]. split; [exact A|]. constructor; [exact NE'|exact F]. Qed.

Lemma to_G : forall s r, peg (grammar_of (line_rules rs e c)) e s r -> peg G e s r.
Proof. intros s r. exact (move rs e e s MU3 _ M e r NE'). Qed.
Lemma from_G : forall s r, peg G e s r -> peg (grammar_of (line_rules rs e c)) e s r.
Proof. intros s r. exact (move rs e e s MU3 M _ e r NE'). Qed.

Lemma sane_R : sane_rules R.
Proof. apply with_sane; [exact SR|]. destruct XS as [X|X]; unfold M; rewrite X; cbn; repeat split; try exact SE; lia. Qed.

Lemma main_R : forall s r, peg_main R s (wrap main r) <-> peg G M s r.
Proof.
  intros s r. split.
  - intro D. unfold peg_main in D. inversion D as [| | | | | | | | | | | | | | | | | | | | | |n e' s' r' E D' X Y Z|n s' E X Y Z]; subst; unfold grammar_of, R in E; rewrite get_main in E; [|discriminate].
    injection E as <-. destruct r, r'; cbn in Z; try discriminate; try exact D'; injection Z as -> ->; exact D'.
  - intro D. exact (peg_rule G main M s r (get_main rs _) D).
Qed.

Definition gd (l : str) (ks : list node) : Prop := peg G e l (PMatch ks []).
Definition bad (r : presult) : Prop := forall ks, r <> PMatch ks [].
Definition fend (tail : str) : Prop := tail = [] \/ exists t, tail = c :: t.

Lemma reads_gd : forall l ks, ascii l -> reads rs e l ks <-> gd l ks.
Proof. intros l ks A. rewrite (reads_iff rs e c SR SE MU l ks A). split; [apply to_G|apply from_G]. Qed.
Lemma takes_gd : forall l, ascii l -> takes (with_main rs e) l <-> exists ks, gd l ks.
Proof. intros l A. rewrite (takes_iff rs e c SR SE MU l A). split; intros [ks D]; exists ks; [apply to_G|apply from_G]; exact D. Qed.
Lemma finishes_gd : forall l, ascii l -> finishes (with_main rs e) l <-> exists r, peg G e l r.
Proof. intros l A. rewrite (finishes_iff rs e c SR SE MU l A). split; intros [r D]; exists r; [apply to_G|apply from_G]; exact D. Qed.
Lemma complains_gd : forall l m k, ascii l -> complains (with_main rs e) l m k <-> exists rest, peg G e l (PAbort m rest) /\ k + length rest = length l.
Proof. intros l m k A. rewrite (complains_iff rs e c SR SE MU l m k A). split; intros (rest & D & K); exists rest; (split; [|exact K]); [apply to_G|apply from_G]; exact D. Qed.
Lemma quiet_gd : forall l, ascii l -> quiet rs e l <-> exists r, peg G e l r /\ forall m rest, r <> PAbort m rest.
Proof. intros l A. rewrite (quiet_iff rs e c SR SE MU l A). split; intros (r & D & K); exists r; (split; [|exact K]); [apply to_G|apply from_G]; exact D. Qed.

Lemma there : forall l tail r, fend tail -> peg G e l r -> peg G e (l ++ tail) (put_before tail r).
Proof. intros l tail r E D. apply to_G. apply (e_there rs e c MU ST l tail r E). apply from_G. exact D. Qed.
Lemma back : forall l tail r', fend tail -> peg G e (l ++ tail) r' -> exists r, peg G e l r /\ r' = put_before tail r.
Proof.
  intros l tail r' E D. apply from_G in D. destruct (e_back rs e c MU ST l tail r' E D) as (r & P & X). exists r. split; [|exact X]. apply to_G. exact P.
Qed.
Lemma gd_noc : forall l ks, gd l ks -> ~ In c l.
Proof. intros l ks D. apply (no_c rs e c MU ST l ks). apply from_G. exact D. Qed.

Lemma litc : forall s, peg G (lit [c]) (c :: s) (PMatch [Val [c]] s).
Proof. intro s. exact (peg_lit_ok G [c] s). Qed.
Lemma litn : forall s, (forall s', s <> c :: s') -> peg G (lit [c]) s PFail.
Proof. intros s N. apply peg_lit_fail. intros rest E. exact (N rest E). Qed.

(** One turn of the loop. *)
Definition turn (r : presult) : presult := match r with PMatch ts rest => PMatch (Val [c] :: ts) rest | _ => r end.
Lemma turn_of : forall s r, peg G e s r -> peg G (And [lit [c]; e]) (c :: s) (turn r).
Proof.
  intros s r D. assert (P : peg G (And [e]) s r).
  { destruct r as [ts rest| |m rest]; [|apply peg_and_stop; [exact D|exact I]..].
    pose proof (peg_and_cons G e [] s ts rest (PMatch [] rest) D (peg_and_nil G rest)) as Q. cbn in Q. rewrite app_nil_r in Q. exact Q. }
  pose proof (peg_and_cons G _ _ _ _ _ _ (litc s) P) as Q. destruct r; exact Q.
Qed.
Lemma turn_no : forall s, (forall s', s <> c :: s') -> peg G (And [lit [c]; e]) s PFail.
Proof. intros s N. apply peg_and_stop; [exact (litn s N)|exact I]. Qed.
Lemma turn_e : forall s r, peg G (And [lit [c]; e]) (c :: s) r -> exists r1, peg G e s r1.
Proof.
  intros s r P. inversion P as [| | | | | | | | | |e1 es s0 ts s1 r2 P1 P2|e1 es s0 r1 P1 E| | | | | | | | | | | |]; subst.
  - pose proof (peg_det G _ _ _ P1 _ (litc s)) as X. injection X as -> ->.
    inversion P2 as [| | | | | | | | | |e1' es' s0' ts' s1' r2' Q1 Q2|e1' es' s0' r1' Q1 E'| | | | | | | | | | | |]; subst; eexists; exact Q1.
  - pose proof (peg_det G _ _ _ P1 _ (litc s)) as X. subst r. destruct E.
Qed.

Lemma tl_stop : forall s, (forall s', s <> c :: s') -> peg G Tl s (PMatch [] s).
Proof. intros s N. apply peg_rep_done; [discriminate|]. exact (turn_no s N). Qed.
Lemma tl_inv : forall s r, peg G Tl s r -> exists r1, peg G (And [lit [c]; e]) s r1 /\
  match r1 with PMatch ts s1 => exists r', peg G Tl s1 r' | _ => True end.
Proof.
  intros s r P. inversion P as [| | | | | | | | | | | | | | | | | |x mn mx s0 ts s1 r' N P1 P2|x mx s0 N P1|x mn mx s0 N Z P1|x mn mx s0 m rest N P1| |]; subst.
  - exists (PMatch ts s1). split; [exact P1|]. exists r'. exact P2.
  - exists PFail. split; [exact P1|exact I].
  - lia.
  - exists (PAbort m rest). split; [exact P1|exact I].
Qed.
Lemma tl_e : forall s r, peg G Tl (c :: s) r -> exists r1, peg G e s r1.
Proof. intros s r P. destruct (tl_inv _ _ P) as (r1 & P1 & _). exact (turn_e s r1 P1). Qed.

Definition skids (kss : list (list node)) : list node := flat_map (fun ks => Val [c] :: ks) kss.
Lemma join_skids : forall ks kss, join_kids c (ks :: kss) = ks ++ skids kss.
Proof.
  intros ks kss. revert ks. induction kss as [|k kss IH]; intro ks; [cbn; rewrite app_nil_r; reflexivity|].
  change (join_kids c (ks :: k :: kss)) with (ks ++ Val [c] :: join_kids c (k :: kss)). rewrite IH. reflexivity.
Qed.

Lemma seps_end : forall ls s, fend s -> fend (seps c ls ++ s).
Proof. intros [|l ls] s E; [exact E|]. right. exists (l ++ seps c ls ++ s). cbn. rewrite <- app_assoc. reflexivity. Qed.
Lemma good_turn : forall l ks s, gd l ks -> fend s -> peg G (And [lit [c]; e]) (c :: l ++ s) (PMatch (Val [c] :: ks) s).
Proof. intros l ks s D E. exact (turn_of _ _ (there l s _ E D)). Qed.
Lemma tl_lines : forall ls kss, Forall2 gd ls kss -> forall s r, fend s -> peg G Tl s r -> peg G Tl (seps c ls ++ s) (prepend (skids kss) r).
Proof.
  induction 1 as [|l ks ls kss D F IH]; intros s r E P; [destruct r; exact P|].
  pose proof (peg_rep_more G _ 0 None _ _ _ _ ltac:(discriminate) (good_turn l ks (seps c ls ++ s) D (seps_end ls s E)) (IH s r E P)) as Q.
  change (seps c (l :: ls) ++ s) with (c :: (l ++ seps c ls) ++ s). rewrite <- app_assoc. destruct r; [|exact Q..].
  cbn [prepend] in Q |- *. change (skids (ks :: kss)) with (Val [c] :: ks ++ skids kss). cbn [app] in Q |- *. rewrite <- app_assoc. exact Q.
Qed.
Lemma tl_inner : forall ls kss, Forall2 gd ls kss -> forall s r, fend s -> peg G Tl (seps c ls ++ s) r -> exists r', peg G Tl s r'.
Proof.
  induction 1 as [|l ks ls kss D F IH]; intros s r E P; [exists r; exact P|].
  change (seps c (l :: ls) ++ s) with (c :: (l ++ seps c ls) ++ s) in P. rewrite <- app_assoc in P. destruct (tl_inv _ _ P) as (r1 & P1 & X).
  pose proof (peg_det G _ _ _ P1 _ (good_turn l ks (seps c ls ++ s) D (seps_end ls s E))) as Y. subst r1. destruct X as [r' Q]. exact (IH s r' E Q).
Qed.

(** A match that leaves something leaves something that does not begin with the separator. *)
Lemma left_over : forall l ts rest tail, ~ In c l -> bad (PMatch ts rest) -> peg G e l (PMatch ts rest) -> forall s', rest ++ tail <> c :: s'.
Proof.
  intros l ts rest tail N B D s' E. destruct (peg_suffix G e _ _ D) as [p X]. destruct rest as [|d rest]; [exact (B ts eq_refl)|].
  injection E as -> _. apply N. rewrite X. apply in_or_app. right. left. reflexivity.
Qed.
Lemma tl_bad : forall l tail r, ~ In c l -> fend tail -> bad r -> peg G e l r ->
  peg G Tl (c :: l ++ tail) (match r with PMatch ts rest => PMatch (Val [c] :: ts) (rest ++ tail) | PFail => PMatch [] (c :: l ++ tail) | PAbort m rest => PAbort m (rest ++ tail) end).
Proof.
  intros l tail r N E B D. pose proof (turn_of _ _ (there l tail r E D)) as P. destruct r as [ts rest| |m rest]; cbn in P.
  - pose proof (peg_rep_more G _ 0 None _ _ _ _ ltac:(discriminate) P (tl_stop _ (left_over l ts rest tail N B D))) as Q. cbn in Q. rewrite app_nil_r in Q. exact Q.
  - apply peg_rep_done; [discriminate|exact P].
  - apply peg_rep_abort; [discriminate|exact P].
Qed.

(** What comes after the loop. *)
Definition fin (s : str) : list node * str :=
  match xs with [] => ([], s) | _ => match s with d :: s' => if N.eqb d c then ([Val [c]], s') else ([], s) | [] => ([], []) end end.
Lemma fin_ok : forall s, peg G (And xs) s (PMatch (fst (fin s)) (snd (fin s))).
Proof.
  intro s. unfold fin. destruct XS as [X0|X0]; rewrite X0; [apply peg_and_nil|].
  assert (P : peg G Opt s (PMatch (fst (match s with d :: s' => if N.eqb d c then ([Val [c]], s') else ([], s) | [] => ([], []) end)) (snd (match s with d :: s' => if N.eqb d c then ([Val [c]], s') else ([], s) | [] => ([], []) end)))).
  { destruct s as [|d s']; [apply peg_rep_done; [discriminate|]; apply litn; discriminate|]. destruct (N.eqb_spec d c) as [->|X].
    - pose proof (peg_rep_more G (lit [c]) 0 (Some 1) _ _ _ (PMatch [] s') ltac:(discriminate) (litc s')) as Q. cbn in Q. apply Q. apply peg_rep_full.
    - apply peg_rep_done; [discriminate|]. apply litn. intros s'' [= Y _]. exact (X Y). }
  pose proof (peg_and_cons G _ _ _ _ _ _ P (peg_and_nil G _)) as Q. cbn in Q. rewrite app_nil_r in Q. exact Q.
Qed.
Lemma tail_of : forall s r, peg G Tl s r -> peg G (And (Tl :: xs)) s (match r with PMatch ts rest => PMatch (ts ++ fst (fin rest)) (snd (fin rest)) | _ => r end).
Proof.
  intros s [ts rest| |m rest] P; [exact (peg_and_cons G _ _ _ _ _ _ P (fin_ok rest))|apply peg_and_stop; [exact P|exact I]..].
Qed.
Lemma fin_nil : fin [] = ([], []).
Proof. unfold fin. destruct xs; reflexivity. Qed.
Lemma fin_other : forall s, (forall s', s <> c :: s') -> fin s = ([], s).
Proof.
  intros s N. unfold fin. destruct xs; [reflexivity|]. destruct s as [|d s]; [reflexivity|]. destruct (N.eqb_spec d c) as [->|X]; [destruct (N s eq_refl)|reflexivity].
Qed.

Lemma M_good : forall fs kss, fs <> [] -> Forall2 gd fs kss -> peg G M (join c fs) (PMatch (join_kids c kss) []).
Proof.
  intros fs kss Z F. destruct F as [|l ks ls kss D F]; [destruct (Z eq_refl)|]. rewrite join_seps, join_skids.
  pose proof (tl_lines ls kss F [] (PMatch [] []) (or_introl eq_refl) (tl_stop [] ltac:(discriminate))) as P. rewrite app_nil_r in P. cbn in P. rewrite app_nil_r in P.
  apply tail_of in P. rewrite fin_nil in P. cbn in P. rewrite app_nil_r in P.
  assert (E : fend (seps c ls)) by (rewrite <- (app_nil_r (seps c ls)); apply seps_end; left; reflexivity).
  exact (peg_and_cons G _ _ _ _ _ _ (there l (seps c ls) _ E D) P).
Qed.

Definition bad_kids (kss : list (list node)) (ts : list node) : list node := match kss with [] => ts | _ => join_kids c kss ++ Val [c] :: ts end.
Definition bad_M (kss : list (list node)) (l tail : str) (r : presult) : presult :=
  match r with
  | PAbort m rest => PAbort m (rest ++ tail)
  | PMatch ts rest => PMatch (bad_kids kss ts) (rest ++ tail)
  | PFail => match kss with [] => PFail | _ => PMatch (join_kids c kss ++ fst (fin (c :: l ++ tail))) (snd (fin (c :: l ++ tail))) end
  end.
Lemma M_bad : forall fs kss, Forall2 gd fs kss -> forall l tail r, ~ In c l -> fend tail -> bad r -> peg G e l r -> peg G M (ended c fs ++ l ++ tail) (bad_M kss l tail r).
Proof.
  intros fs kss F l tail r N E B D. destruct F as [|f ks fs kss D0 F].
  - cbn [ended flat_map app]. pose proof (there l tail r E D) as P. destruct r as [ts rest| |m rest]; cbn in P |- *; [|apply peg_and_stop; [exact P|exact I]..].
    pose proof (left_over l ts rest tail N B D) as Q. pose proof (tail_of _ _ (tl_stop _ Q)) as T. cbn in T. rewrite (fin_other _ Q) in T. cbn in T.
    pose proof (peg_and_cons G _ _ _ _ _ _ P T) as U. cbn in U. rewrite app_nil_r in U. exact U.
  - rewrite ended_seps. pose proof (tl_lines fs kss F (c :: l ++ tail) _ (or_intror (ex_intro _ _ eq_refl)) (tl_bad l tail r N E B D)) as T. apply tail_of in T.
    assert (E' : fend (seps c fs ++ c :: l ++ tail)) by (apply seps_end; right; eexists; reflexivity).
    pose proof (peg_and_cons G _ _ _ _ _ _ (there f _ _ E' D0) T) as U. cbn [app prepend] in U. unfold bad_M, bad_kids. rewrite join_skids. destruct r as [ts rest| |m rest]; cbn [prepend app] in U |- *.
    + rewrite (fin_other _ (left_over l ts rest tail N B D)) in U. cbn in U. rewrite !app_nil_r in U. rewrite <- app_assoc. exact U.
    + rewrite !app_nil_r in U. rewrite <- app_assoc. exact U.
    + exact U.
Qed.

Lemma M_e : forall fs kss, Forall2 gd fs kss -> forall l tail r, fend tail -> peg G M (ended c fs ++ l ++ tail) r -> exists r1, peg G e l r1.
Proof.
  intros fs kss F l tail r E P. destruct F as [|f ks fs kss D0 F].
  - cbn [ended flat_map app] in P. assert (X : exists r1, peg G e (l ++ tail) r1).
    { unfold M in P. inversion P as [| | | | | | | | | |e1 es s0 ts s1 r2 P1 P2|e1 es s0 r1 P1 X| | | | | | | | | | | |]; subst; eexists; exact P1. }
    destruct X as [r1 X]. destruct (back _ _ _ E X) as (r2 & Y & _). exists r2. exact Y.
  - rewrite ended_seps in P. assert (E' : fend (seps c fs ++ c :: l ++ tail)) by (apply seps_end; right; eexists; reflexivity).
    pose proof (there f _ _ E' D0) as Q. cbn in Q. unfold M in P. inversion P as [| | | | | | | | | |e1 es s0 ts s1 r2 P1 P2|e1 es s0 r1 P1 X| | | | | | | | | | | |]; subst.
    + pose proof (peg_det G _ _ _ Q _ P1) as X. injection X as <- <-.
      assert (Y : exists r1, peg G Tl (seps c fs ++ c :: l ++ tail) r1).
      { inversion P2 as [| | | | | | | | | |e1' es' s0' ts' s1' r2' Q1 Q2|e1' es' s0' r1' Q1 X'| | | | | | | | | | | |]; subst; eexists; exact Q1. }
      destruct Y as [r1 Y]. destruct (tl_inner fs kss F _ _ (or_intror (ex_intro _ _ eq_refl)) Y) as [r3 Z]. destruct (tl_e _ _ Z) as [r4 W].
      destruct (back _ _ _ E W) as (r5 & V & _). exists r5. exact V.
    + pose proof (peg_det G _ _ _ Q _ P1) as Y. subst r. destruct X.
Qed.

Lemma bad_dec : forall r, bad r \/ exists ks, r = PMatch ks [].
Proof. intros [ts [|d rest]| |m rest]; [right; exists ts; reflexivity|left; intros ks; discriminate..]. Qed.
Lemma seps_fend : forall ls, fend (seps c ls).
Proof. intro ls. rewrite <- (app_nil_r (seps c ls)). apply seps_end. left. reflexivity. Qed.

Lemma M_split : forall ls fs kss r, fs ++ ls <> [] -> Forall2 gd fs kss -> peg G M (join c (fs ++ ls)) r ->
  (exists kss', Forall2 gd (fs ++ ls) kss') \/
  exists fs' l ls' kss' r1, fs ++ ls = fs' ++ l :: ls' /\ Forall2 gd fs' kss' /\ peg G e l r1 /\ bad r1.
Proof.
  induction ls as [|l ls IH]; intros fs kss r Z F P; [left; exists kss; rewrite app_nil_r; exact F|].
  pose proof P as P0. rewrite join_app in P. destruct (M_e fs kss F l (seps c ls) r (seps_fend ls) P) as [r1 D]. destruct (bad_dec r1) as [B|[ks ->]].
  - right. exists fs, l, ls, kss, r1. split; [reflexivity|]. split; [exact F|]. split; assumption.
  - replace (fs ++ l :: ls) with ((fs ++ [l]) ++ ls) in * by (rewrite <- app_assoc; reflexivity).
    apply (IH (fs ++ [l]) (kss ++ [ks]) r Z); [|exact P0]. apply Forall2_app; [exact F|]. constructor; [exact D|constructor].
Qed.

(** ** In terms of the parser *)

Lemma ascii_join : forall fs, ascii (join c fs) -> Forall ascii fs.
Proof.
  intros [|f fs]; [constructor|]. revert f. induction fs as [|g fs IH]; intros f A; [constructor; [exact A|constructor]|].
  change (join c (f :: g :: fs)) with (f ++ c :: join c (g :: fs)) in A. apply Forall_app in A. destruct A as [A1 A2]. inversion A2; subst. constructor; [exact A1|]. apply IH. assumption.
Qed.
Lemma reads_all : forall ls kss, Forall ascii ls -> Forall2 (reads rs e) ls kss <-> Forall2 gd ls kss.
Proof.
  intros ls kss A. split; intro F; revert A; induction F; intro A; constructor; inversion A; subst; auto; apply reads_gd; assumption.
Qed.
Lemma fields_of : forall s, exists fs, fs <> [] /\ s = join c fs /\ Forall (fun l => ~ In c l) fs.
Proof.
  induction s as [|d s (fs & Z & -> & F)]; [exists [[]]; split; [discriminate|]; split; [reflexivity|]; repeat constructor; intros []|].
  destruct (N.eq_dec d c) as [->|X].
  - exists ([] :: fs). split; [discriminate|]. destruct fs as [|f fs]; [destruct (Z eq_refl)|]. split; [reflexivity|]. constructor; [intros []|exact F].
  - destruct fs as [|f fs]; [destruct (Z eq_refl)|]. exists ((d :: f) :: fs). split; [discriminate|]. rewrite !join_seps. split; [reflexivity|].
    inversion F; subst. constructor; [|assumption]. intros [Y|Y]; [exact (X Y)|contradiction].
Qed.

Lemma wrapped_R : forall s r, peg_main R s r -> exists r0, r = wrap main r0 /\ peg G M s r0.
Proof.
  intros s r D. destruct (wrapped R s r ltac:(unfold R; rewrite get_main; discriminate) D) as [r0 ->]. exists r0. split; [reflexivity|]. apply main_R. exact D.
Qed.

(** What is accepted. *)
Lemma fields_accepted : forall s d ast, ascii s ->
  (exists fuel, parse_with_debug fuel s R d = Ok ast) <->
  (exists fs kss, fs <> [] /\ Forall2 (reads rs e) fs kss /\
     (s = join c fs /\ ast = Rule main (join_kids c kss) \/
      xs = [Opt] /\ quiet rs e [] /\ ~ takes (with_main rs e) [] /\ s = join c fs ++ [c] /\ ast = Rule main (join_kids c kss ++ [Val [c]]))).
Proof.
  intros s d ast A. rewrite (parse_accepts_iff s R d sane_R A ast). split.
  - intro D. destruct (wrapped_R _ _ D) as (r0 & E & P). destruct r0 as [ts rest| |]; try discriminate. injection E as -> <-.
    destruct (fields_of s) as (fs & Z & -> & F). destruct (M_split fs [] [] _ Z (Forall2_nil _) P) as [[kss H] | (fs' & l & ls & kss & r1 & E & H & D1 & B)]; cbn [app] in *.
    + exists fs, kss. split; [exact Z|]. split; [apply reads_all; [exact (ascii_join fs A)|exact H]|]. left. split; [reflexivity|].
      pose proof (peg_det G _ _ _ P _ (M_good fs kss Z H)) as X. injection X as ->. reflexivity.
    + subst fs. rewrite Forall_app in F. destruct F as [F1 F2]. inversion F2 as [|? ? N F3]; subst. pose proof (Forall_app ascii fs' (l :: ls)) as AA.
      pose proof (ascii_join _ A) as AF. apply AA in AF. destruct AF as [AF1 AF2]. inversion AF2 as [|? ? AL AF3]; subst.
      rewrite join_app in *. pose proof (peg_det G _ _ _ P _ (M_bad fs' kss H l (seps c ls) r1 N (seps_fend ls) B D1)) as X.
      destruct r1 as [us rest| |m rest]; cbn in X; [|destruct kss as [|k kss]; [discriminate|]|discriminate].
      * injection X as _ X. symmetry in X. apply app_eq_nil in X. destruct X as [-> _]. destruct (B us eq_refl).
      * injection X as X Y. unfold fin in X, Y. destruct XS as [Q|Q]; rewrite Q in X, Y; [discriminate|]. cbv beta iota in X, Y. rewrite N.eqb_refl in X, Y. cbn in X, Y.
        symmetry in Y. apply app_eq_nil in Y. destruct Y as [-> Y]. destruct ls as [|? ?]; [|discriminate]. cbn in A |- *.
        exists fs', (k :: kss). destruct fs' as [|f fs']; [inversion H|]. split; [discriminate|]. split; [apply reads_all; [exact AF1|exact H]|]. right.
        split; [exact Q|]. split; [apply quiet_gd; [constructor|]; exists PFail; split; [exact D1|discriminate]|].
        split; [intro T; apply takes_gd in T; [|constructor]; destruct T as [ks T]; pose proof (peg_det G _ _ _ D1 _ T); discriminate|].
        split; [rewrite join_seps, ended_seps, <- app_assoc; reflexivity|]. rewrite X. reflexivity.
  - intros (fs & kss & Z & F & H).
    destruct H as [(-> & ->) | (Q & QU & NT & -> & ->)].
    + apply (main_R _ (PMatch _ [])). apply M_good; [exact Z|]. apply reads_all; [exact (ascii_join fs A)|exact F].
    + apply (main_R _ (PMatch _ [])). apply Forall_app in A. destruct A as [A1 A2]. apply (reads_all fs kss (ascii_join fs A1)) in F.
      apply quiet_gd in QU; [|constructor]. destruct QU as (r & D & NA).
      assert (B : bad r). { intros ks ->. apply NT. apply takes_gd; [constructor|]. exists ks. exact D. }
      assert (r = PFail) as ->. { destruct r as [ts rest| |m rest]; [|reflexivity|destruct (NA _ _ eq_refl)]. destruct (peg_suffix G e _ _ D) as [p X]. symmetry in X. apply app_eq_nil in X. destruct X as [_ ->]. destruct (B ts eq_refl). }
      pose proof (M_bad fs kss F [] [] PFail (fun x => x) (or_introl eq_refl) B D) as P. destruct F as [|f ks fs kss D0 F]; [destruct (Z eq_refl)|].
      rewrite ended_seps in P. rewrite join_seps, <- app_assoc. cbn [app] in P |- *. unfold bad_M, fin in P. rewrite Q in P. cbv beta iota in P. rewrite N.eqb_refl in P. exact P.
Qed.

Lemma taken_gd : forall ls, Forall ascii ls -> Forall (takes (with_main rs e)) ls -> exists kss, Forall2 gd ls kss.
Proof.
  induction 1 as [|l ls A _ IH]; intro F; [exists []; constructor|]. inversion F as [|? ? T F']; subst.
  apply (takes_gd l A) in T. destruct T as [ks D]. destruct (IH F') as [kss H]. exists (ks :: kss). constructor; assumption.
Qed.

Lemma fields_stop : forall fs l tail, ascii (ended c fs ++ l ++ tail) -> Forall (takes (with_main rs e)) fs -> fend tail -> ~ In c l -> ~ takes (with_main rs e) l ->
  finishes R (ended c fs ++ l ++ tail) <-> finishes (with_main rs e) l.
Proof.
  intros fs l tail A F E N B. destruct (split_ascii c _ _ _ A) as (A1 & A2 & A3). destruct (taken_gd fs A1 F) as [kss H].
  rewrite (finishes_gd l A2). unfold finishes. rewrite (parse_terminates_iff _ R false sane_R A). split.
  - intros [r D]. destruct (wrapped_R _ _ D) as (r0 & _ & P). exact (M_e fs kss H l tail r0 E P).
  - intros [r P]. eexists. apply main_R. apply (M_bad fs kss H l tail r N E); [|exact P]. intros ks ->. apply B. apply takes_gd; [exact A2|]. exists ks. exact P.
Qed.
Lemma fields_complain : forall fs l tail m k, ascii (ended c fs ++ l ++ tail) -> Forall (takes (with_main rs e)) fs -> fend tail -> ~ In c l -> ~ takes (with_main rs e) l ->
  complains R (ended c fs ++ l ++ tail) m (length (ended c fs) + k) <-> complains (with_main rs e) l m k.
Proof.
  intros fs l tail m k A F E N B. destruct (split_ascii c _ _ _ A) as (A1 & A2 & A3). destruct (taken_gd fs A1 F) as [kss H].
  rewrite (complains_gd l m k A2). unfold complains. rewrite (parse_abort_iff _ R m _ sane_R A).
  assert (BB : forall r, peg G e l r -> bad r) by (intros r P ks ->; apply B; apply takes_gd; [exact A2|]; exists ks; exact P). split.
  - intros (rest & D & K). apply (main_R _ (PAbort m rest)) in D. destruct (M_e fs kss H l tail _ E D) as [r1 P].
    pose proof (peg_det G _ _ _ D _ (M_bad fs kss H l tail r1 N E (BB r1 P) P)) as X. destruct r1 as [ts r1| |m' r1]; cbn in X; [discriminate|destruct kss; discriminate|].
    injection X as <- ->. exists r1. split; [exact P|]. rewrite !app_length in K. unfold str, char in *. lia.
  - intros (rest & P & K). exists (rest ++ tail). split; [|rewrite !app_length; unfold str, char in *; lia]. apply (main_R _ (PAbort m (rest ++ tail))).
    exact (M_bad fs kss H l tail (PAbort m rest) N E (BB _ P) P).
Qed.
(** ** Where the error stands *)

Lemma uses_R : forall x a, uses G x a -> ~ has_ref main x -> uses (grammar_of rs) x a.
Proof.
  induction 1 as [x a H|n x x' a H E U IH]; intro N; [apply us_here; exact H|].
  assert (X : n <> main) by (intros ->; exact (N H)). unfold G, grammar_of, R in E. rewrite get_other in E by exact X.
  eapply us_rule; [exact H|exact E|]. apply IH. exact (proj1 MU _ _ X E).
Qed.
Lemma SG' : stranger G c e.
Proof. intros a U. exact (ST a (uses_R e a U NE')). Qed.

Definition nm (kss : list (list node)) : list str := flat_map (flat_map names) kss.

Lemma litc_e : forall s, pege G (lit [c]) (c :: s) (EMatch [Val [c]] s None []).
Proof. intro s. exact (ee_lit_ok G [c] s). Qed.
Lemma litn_e : forall d s, d <> c -> pege G (lit [c]) (d :: s) (EFail (Report (lit_msg [c]) s [])).
Proof. intros d s N. apply ee_lit_fail. apply ls_differ. congruence. Qed.
Lemma tl_stop_e : forall d s, d <> c -> pege G Tl (d :: s) (EMatch [] (d :: s) (Some (Report (lit_msg [c]) s [])) []).
Proof. intros d s N. apply ee_rep_done; [discriminate|]. apply ee_and_stop; [exact (litn_e d s N)|exact I]. Qed.

Lemma fin_c : forall s, exists ts rest, pege G (And xs) (c :: s) (EMatch ts rest None []) /\ (rest = c :: s \/ rest = s /\ xs <> []).
Proof.
  intro s. destruct XS as [X|X]; rewrite X.
  - exists [], (c :: s). split; [apply ee_and_nil|left; reflexivity].
  - exists [Val [c]], s. split; [|right; split; [reflexivity|discriminate]].
    pose proof (ee_rep_more G (lit [c]) 0 (Some 1) _ _ _ _ _ _ ltac:(discriminate) (litc_e s) (ee_rep_full G (lit [c]) s)) as P. cbn in P.
    exact (ee_and_cons G Opt [] _ _ _ _ _ _ P (ee_and_nil G s)).
Qed.
Lemma fin_d : forall d s, d <> c -> exists p, pege G (And xs) (d :: s) (EMatch [] (d :: s) p []) /\ (p = None \/ p = Some (Report (lit_msg [c]) s [])).
Proof.
  intros d s N. destruct XS as [X|X]; rewrite X.
  - exists None. split; [apply ee_and_nil|left; reflexivity].
  - exists (Some (Report (lit_msg [c]) s [])). split; [|right; reflexivity].
    pose proof (ee_rep_done G (lit [c]) (Some 1) _ _ ltac:(discriminate) (litn_e d s N)) as P.
    exact (ee_and_cons G Opt [] _ _ _ _ _ _ P (ee_and_nil G _)).
Qed.

Lemma gd_e : forall l ks tail, gd l ks -> fend tail -> exists p, pege G e (l ++ tail) (EMatch ks tail p (flat_map names ks)).
Proof.
  intros l ks tail D E. destruct (peg_pege G e _ _ (there l tail _ E D)) as (er & D0 & X). destruct er as [us rest p t0|q0|q0]; cbn in X; try discriminate. injection X as -> ->.
  assert (T : t0 = flat_map names ks) by exact (proj1 (proj1 (all_truthful G) _ _ _ D0)). subst t0. exists p. exact D0.
Qed.
Lemma turn_ok_e : forall s ts rest p t, pege G e s (EMatch ts rest p t) -> pege G (And [lit [c]; e]) (c :: s) (EMatch (Val [c] :: ts) rest p t).
Proof.
  intros s ts rest p t D. pose proof (ee_and_cons G e [] _ _ _ _ _ _ D (ee_and_nil G rest)) as P. cbn in P.
  pose proof (ee_and_cons G _ _ _ _ _ _ _ _ (litc_e s) P) as Q. cbn in Q. rewrite !app_nil_r in Q. destruct p as [[d m tr]|]; exact Q.
Qed.
Lemma tl_lines_e : forall ls kss, Forall2 gd ls kss -> forall s ts rest q t, fend s -> pege G Tl s (EMatch ts rest (Some q) t) ->
  exists ts', pege G Tl (seps c ls ++ s) (EMatch ts' rest (Some (shift (nm kss) q)) (nm kss ++ t)).
Proof.
  induction 1 as [|l ks ls kss D F IH]; intros s ts rest q t E P; [exists ts; destruct q; exact P|].
  destruct (IH s ts rest q t E P) as [ts' Q]. destruct (gd_e l ks _ D (seps_end ls s E)) as [p D0].
  change (seps c (l :: ls) ++ s) with (c :: (l ++ seps c ls) ++ s). rewrite <- app_assoc.
  pose proof (ee_rep_more G _ 0 None _ _ _ _ _ _ ltac:(discriminate) (turn_ok_e _ _ _ _ _ D0) Q) as W. cbn [after] in W. eexists.
  unfold nm in *. cbn [flat_map]. unfold SpecReport.shift in *. cbn [r_descr r_rest r_trail] in *. rewrite <- !app_assoc. exact W.
Qed.

(** The report of the whole, given what the bad field does. *)
Definition reported (text : str) (d m : str) (tr : list str) : Prop :=
  pege G M text (EFail (Report d m tr)) \/ exists ts d0 r0 t, pege G M text (EMatch ts (d0 :: r0) (Some (Report d m tr)) t).

Lemma rep_fail : forall fs kss, Forall2 gd fs kss -> forall s d m tr, s <> [] \/ fs = [] \/ xs = [] ->
  pege G e s (EFail (Report d m tr)) -> reported (ended c fs ++ s) d m (nm kss ++ tr).
Proof.
  intros fs kss F s d m tr Z P. destruct F as [|f ks fs kss D0 F].
  - left. apply ee_and_stop; [exact P|exact I].
  - right. rewrite ended_seps.
    assert (T : pege G Tl (c :: s) (EMatch [] (c :: s) (Some (Report d m tr)) [])).
    { apply ee_rep_done; [discriminate|]. exact (ee_and_cons G _ _ _ _ _ _ _ _ (litc_e s) (ee_and_stop G e [] s _ P I)). }
    destruct (tl_lines_e fs kss F (c :: s) _ _ _ _ (or_intror (ex_intro _ _ eq_refl)) T) as [ts' Q].
    destruct (fin_c s) as (us & rest & W & X).
    assert (E' : fend (seps c fs ++ c :: s)) by (apply seps_end; right; eexists; reflexivity). destruct (gd_e f ks _ D0 E') as [p D1].
    pose proof (ee_and_cons G _ _ _ _ _ _ _ _ D1 (ee_and_cons G _ _ _ _ _ _ _ _ Q W)) as V. cbn [after] in V.
    assert (Y : exists d0 r0, rest = d0 :: r0) by (destruct X as [-> | [-> X]]; [eexists; eexists; reflexivity|destruct s as [|d0 r0]; [destruct Z as [Z|[Z|Z]]; [destruct (Z eq_refl)|discriminate|destruct (X Z)]|eexists; eexists; reflexivity]]).
    destruct Y as (d0 & r0 & ->). do 4 eexists. unfold SpecReport.shift in V. cbn [r_descr r_rest r_trail] in V. unfold nm in *. cbn [flat_map]. rewrite <- app_assoc. exact V.
Qed.

Lemma tail_d : forall d s, d <> c -> pege G (And (Tl :: xs)) (d :: s) (EMatch [] (d :: s) (Some (Report (lit_msg [c]) s [])) []).
Proof.
  intros d s N. destruct (fin_d d s N) as (p & W & X). pose proof (ee_and_cons G _ _ _ _ _ _ _ _ (tl_stop_e d s N) W) as V. cbn [after] in V.
  destruct X as [-> | ->]; exact V.
Qed.
Lemma rep_left : forall fs kss, Forall2 gd fs kss -> forall s us d0 r0 p t, d0 <> c ->
  pege G e s (EMatch us (d0 :: r0) p t) -> reported (ended c fs ++ s) (lit_msg [c]) r0 (nm kss ++ t).
Proof.
  intros fs kss F s us d0 r0 p t N P. right. destruct F as [|f ks fs kss D0 F].
  - pose proof (ee_and_cons G _ _ _ _ _ _ _ _ P (tail_d d0 r0 N)) as V. cbn [after] in V. unfold SpecReport.shift in V. cbn [r_descr r_rest r_trail] in V. rewrite !app_nil_r in V. do 4 eexists. exact V.
  - rewrite ended_seps.
    assert (T : pege G Tl (c :: s) (EMatch (Val [c] :: us) (d0 :: r0) (Some (Report (lit_msg [c]) r0 t)) t)).
    { pose proof (ee_rep_more G _ 0 None _ _ _ _ _ _ ltac:(discriminate) (turn_ok_e _ _ _ _ _ P) (tl_stop_e d0 r0 N)) as V. cbn [after] in V.
      unfold SpecReport.shift in V. cbn [r_descr r_rest r_trail] in V. rewrite !app_nil_r in V. exact V. }
    destruct (tl_lines_e fs kss F (c :: s) _ _ _ _ (or_intror (ex_intro _ _ eq_refl)) T) as [ts' Q].
    destruct (fin_d d0 r0 N) as (p' & W & X).
    assert (E' : fend (seps c fs ++ c :: s)) by (apply seps_end; right; eexists; reflexivity). destruct (gd_e f ks _ D0 E') as [p1 D1].
    pose proof (ee_and_cons G _ _ _ _ _ _ _ _ D1 (ee_and_cons G _ _ _ _ _ _ _ _ Q W)) as V. cbn [after] in V.
    do 4 eexists. unfold SpecReport.shift in V. cbn [r_descr r_rest r_trail] in V. unfold nm in *. cbn [flat_map]. rewrite <- app_assoc.
    destruct X as [-> | ->]; cbn [r_descr r_rest r_trail] in V; rewrite ?app_nil_r in V; exact V.
Qed.

Lemma reported_parse : forall text d m tr debug, ascii text -> reported text d m tr ->
  exists fuel, parse_with_debug fuel text R debug = Err (error_at text debug Normal (Report d m (main :: tr))).
Proof.
  intros text d m tr debug A H. apply (parse_report_iff text R debug _ sane_R A); [discriminate|].
  destruct H as [H | (ts & d0 & r0 & t & H)]; (eexists; split; [eapply ee_rule; [exact (get_main rs _)|exact H]|]); [apply an_fail|apply an_pending].
Qed.

(** The bad field with a separator after it: the same report whatever follows. *)
Lemma bad_report' : forall fs kss l r, Forall2 gd fs kss -> ~ In c l -> bad r -> peg G e l r -> (forall m rest, r <> PAbort m rest) ->
  exists p m d tr, l ++ [c] = p ++ m /\ forall t, reported (ended c fs ++ l ++ c :: t) d (m ++ t) tr.
Proof.
  intros fs kss l r F N B P Q. pose proof (there l [c] r (or_intror (ex_intro _ [] eq_refl)) P) as P0. destruct (peg_pege G e _ _ P0) as (er & D0 & X).
  assert (SW : forall t, exists r', pege G e (l ++ c :: t) r' /\ res_swap [] t (l ++ [c]) er r').
  { intro t. destruct (swap_c G c [] t e l er SG') as (r' & D & S0); [rewrite app_nil_r; exact D0|]. exists r'. split; [|exact S0]. rewrite <- app_assoc in D. exact D. }
  destruct er as [ts rest p t0|q|q].
  - destruct r as [us rest0| |]; cbn in X; try discriminate. injection X as -> ->.
    destruct rest0 as [|d rest0]; [destruct (B us eq_refl)|]. destruct (peg_suffix G e _ _ P) as [p0 Z].
    assert (D : d <> c) by (intros ->; apply N; rewrite Z; apply in_or_app; right; left; reflexivity).
    exists (p0 ++ [d]), (rest0 ++ [c]), (lit_msg [c]), (nm kss ++ t0). split; [rewrite Z, <- !app_assoc; reflexivity|]. intro t.
    destruct (SW t) as (r' & D' & S0). destruct r' as [ts' rest' p' t'|q'|q']; cbn in S0; try contradiction.
    destruct S0 as (<- & <- & _ & pre & m & E1 & E2 & ->). rewrite app_nil_r in E2. subst m.
    assert (Y : (d :: rest0 ++ [c]) ++ t = d :: rest0 ++ c :: t) by (cbn [app]; rewrite <- app_assoc; reflexivity). rewrite Y in D'. clear Y. rewrite <- (app_assoc rest0). cbn [app].
    exact (rep_left fs kss F _ _ d _ _ _ D D').
  - destruct (SW []) as (r1 & _ & S1). destruct r1 as [|q1|]; cbn in S1; try contradiction. destruct S1 as (d & m & tr & p & E1 & E2 & _). subst q. rewrite app_nil_r in *.
    exists p, m, d, (nm kss ++ tr). split; [exact E1|]. intro t. destruct (SW t) as (r' & D' & S0). destruct r' as [|q'|]; cbn in S0; try contradiction.
    destruct S0 as (d' & m' & tr' & p' & E1' & E2' & ->). rewrite app_nil_r in E2'. injection E2' as <- <- <-. apply (rep_fail fs kss F); [|exact D'].
    left. destruct l; discriminate.
  - destruct r; cbn in X; try discriminate. destruct (Q _ _ eq_refl).
Qed.
(** The last field. *)
Lemma last_report' : forall fs kss l r, Forall2 gd fs kss -> l <> [] \/ fs = [] \/ xs = [] -> ~ In c l -> bad r -> peg G e l r -> (forall m rest, r <> PAbort m rest) ->
  exists p m d tr, l = p ++ m /\ reported (ended c fs ++ l) d m tr.
Proof.
  intros fs kss l r F Z N B P Q. destruct (peg_pege G e _ _ P) as (er & D & X). destruct er as [ts rest p t0|[d m tr]|q].
  - destruct r as [us rest0| |]; cbn in X; try discriminate. injection X as -> ->. destruct rest0 as [|d rest0]; [destruct (B us eq_refl)|]. destruct (peg_suffix G e _ _ P) as [p0 Y].
    assert (D' : d <> c) by (intros ->; apply N; rewrite Y; apply in_or_app; right; left; reflexivity).
    exists (p0 ++ [d]), rest0, (lit_msg [c]), (nm kss ++ t0). split; [rewrite Y, <- app_assoc; reflexivity|]. exact (rep_left fs kss F _ _ d _ _ _ D' D).
  - destruct (proj1 (pege_stands G) _ _ _ D) as [p E]. exists p, m, d, (nm kss ++ tr). split; [exact E|]. exact (rep_fail fs kss F l d m tr Z D).
  - destruct r; cbn in X; try discriminate. destruct (Q _ _ eq_refl).
Qed.

Lemma fields_error : forall fs l, ascii (ended c fs ++ l ++ [c]) -> Forall (takes (with_main rs e)) fs -> ~ In c l -> ~ takes (with_main rs e) l -> quiet rs e l ->
  exists p m d tr, l ++ [c] = p ++ m /\ forall t debug, ascii t -> exists fuel,
    parse_with_debug fuel (ended c fs ++ l ++ c :: t) R debug =
    Err (PError (pos_of (ended c fs ++ p)) d (tail_after is_nl (ended c fs ++ p)) (until_eol (m ++ t)) (if debug then tr else []) Normal).
Proof.
  intros fs l A F N B Q. destruct (split_ascii c _ _ _ A) as (A1 & A2 & A3). destruct (taken_gd fs A1 F) as [kss H].
  apply (quiet_gd l A2) in Q. destruct Q as (r & P & Q). destruct (bad_report' fs kss l r H N) as (p & m & d & tr & E & W).
  { intros ks ->. apply B. apply takes_gd; [exact A2|]. exists ks. exact P. }
  { exact P. } { exact Q. }
  exists p, m, d, (map (fun n => s_ "r:" ++ n) (main :: tr)). split; [exact E|]. intros t debug At.
  assert (A' : ascii (ended c fs ++ l ++ c :: t)) by (replace (ended c fs ++ l ++ c :: t) with ((ended c fs ++ l ++ [c]) ++ t) by (rewrite <- !app_assoc; reflexivity); apply Forall_app; split; assumption).
  destruct (reported_parse _ _ _ _ debug A' (W t)) as [fuel X]. exists fuel. rewrite X. f_equal.
  unfold error_at. cbn [r_rest r_descr r_trail].
  assert (Y : ended c fs ++ l ++ c :: t = ended c fs ++ p ++ m ++ t) by (f_equal; change (c :: t) with ([c] ++ t); rewrite !app_assoc; f_equal; exact E).
  rewrite Y, before_lines. reflexivity.
Qed.
Lemma fields_last_error : forall fs l, ascii (ended c fs ++ l) -> Forall (takes (with_main rs e)) fs -> l <> [] \/ fs = [] \/ xs = [] -> ~ In c l -> ~ takes (with_main rs e) l -> quiet rs e l ->
  exists p m d tr, l = p ++ m /\ forall debug, exists fuel,
    parse_with_debug fuel (ended c fs ++ l) R debug =
    Err (PError (pos_of (ended c fs ++ p)) d (tail_after is_nl (ended c fs ++ p)) (until_eol m) (if debug then tr else []) Normal).
Proof.
  intros fs l A F Z N B Q. destruct (ascii_lines c _ _ A) as (A1 & A2). destruct (taken_gd fs A1 F) as [kss H].
  apply (quiet_gd l A2) in Q. destruct Q as (r & P & Q). destruct (last_report' fs kss l r H Z N) as (p & m & d & tr & E & W).
  { intros ks ->. apply B. apply takes_gd; [exact A2|]. exists ks. exact P. }
  { exact P. } { exact Q. }
  exists p, m, d, (map (fun n => s_ "r:" ++ n) (main :: tr)). split; [exact E|]. intro debug.
  destruct (reported_parse _ _ _ _ debug A W) as [fuel X]. exists fuel. rewrite X. f_equal.
  unfold error_at. cbn [r_rest r_descr r_trail]. rewrite E, before_lines. reflexivity.
Qed.
End Fields.
