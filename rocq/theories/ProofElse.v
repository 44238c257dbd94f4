(** Statements with an optional branch: proofs. *)
From Verif Require Import Base ModelAst ModelParser ModelCost SpecPeg SpecPos SpecApi SpecWf SpecComments SpecElse.
From Verif Require Import PegTools ProofParser ProofEngine ProofApi ProofRun ProofRunDet ProofLines ProofSearch ProofComments Examples.

(** ** Rule sets that start with a reference *)

Section Start.
Variable rs : rules.
Variable nm : str.
Hypothesis M : rules_get rs main = Some (RuleName nm).
Hypothesis SR : sane_rules rs.
Notation G := (grammar_of rs).

Lemma start_accepts : forall s debug, ascii s -> forall ast, (exists fuel, parse_with_debug fuel s rs debug = Ok ast) <->
  exists t, ast = Rule main [t] /\ peg G (RuleName nm) s (PMatch [t] []).
Proof.
  intros s debug A ast. rewrite (parse_accepts_iff s rs debug SR A ast). split.
  - intro D. unfold peg_main in D. inversion D as [| | | | | | | | | | | | | | | | | | | | | |n0 e' s' r' E D' H1 H2 H3|]; subst.
    unfold grammar_of in E. rewrite M in E. injection E as <-.
    destruct r' as [ts y| |]; try discriminate. cbn in H3. injection H3 as <- ->. destruct (name_shape _ _ _ _ _ D') as [ks ->]. eexists. split; [reflexivity|exact D'].
  - intros (t & -> & D). exact (peg_rule G main _ s (PMatch [t] []) M D).
Qed.
Lemma start_rejects : forall s debug, ascii s -> peg G (RuleName nm) s PFail \/ (exists t rest, rest <> [] /\ peg G (RuleName nm) s (PMatch [t] rest)) ->
  exists fuel er, parse_with_debug fuel s rs debug = Err er /\ e_priority er = Normal.
Proof.
  intros s debug A H.
  assert (Q : exists r, peg_main rs s r /\ (r = PFail \/ exists ts rest, r = PMatch ts rest /\ rest <> [])).
  { destruct H as [D|(t & rest & N & D)].
    - exists PFail. split; [exact (peg_rule G main _ s PFail M D)|left; reflexivity].
    - exists (PMatch [Rule main [t]] rest). split; [exact (peg_rule G main _ s (PMatch [t] rest) M D)|right; eauto]. }
  destruct Q as (r & Q & R). destruct (proj2 (parse_terminates_iff s _ debug SR A) (ex_intro _ r Q)) as [fuel F].
  exists fuel. pose proof (parse_sound fuel s _ debug SR) as Y.
  destruct (parse_with_debug fuel s rs debug) as [t|er| |]; [| |destruct (Y A)|destruct (F eq_refl)].
  - destruct Y as [_ Y]. pose proof (peg_det _ _ _ _ Q _ Y) as E. destruct R as [->|(ts & rest & -> & N)]; [discriminate|]. injection E as _ ->. destruct (N eq_refl).
  - exists er. split; [reflexivity|]. destruct (e_priority er); [reflexivity|]. destruct Y as [_ (rest & Y & _)]. pose proof (peg_det _ _ _ _ Q _ Y) as E. destruct R as [->|(ts & rest' & -> & N)]; discriminate.
Qed.
End Start.

Section Marks.
Variables i e x : str.
Hypothesis CM : clear_marks i e x.
Notation text := (stm_text i e x).
Notation tree := (stm_tree i e x).

Lemma marks_i : i <> [].
Proof. exact (o_nonempty i x (proj1 CM)). Qed.
Lemma marks_x : x <> [].
Proof. exact (c_nonempty i x (proj1 CM)). Qed.
Lemma marks_e : e <> [].
Proof. exact (proj2 CM). Qed.
Lemma marks_ix : forall s, starts_with i s -> starts_with x s -> False.
Proof. exact (not_both i x (proj1 CM)). Qed.

Lemma text_nonempty : forall t, text t <> [].
Proof. intros [|a|a b]; cbn; [exact marks_x| |]; intro E; apply app_eq_nil in E; exact (marks_i (proj1 E)). Qed.

(** ** Counting *)

Scheme awaits_m := Minimality for awaits Sort Prop with after_m := Minimality for after Sort Prop.
Combined Scheme awaits_mind from awaits_m, after_m.

Fixpoint still_open (t : stm) : nat := match t with Leaf => 0 | If a => S (still_open a) | IfElse a b => still_open a + still_open b end.
Lemma text_awaits : forall t d rest, after i e x (d + still_open t) rest -> awaits i e x d (text t ++ rest).
Proof.
  induction t as [|a IHa|a IHa b IHb]; intros d rest H; cbn [stm_text still_open] in *.
  - apply aw_x. rewrite Nat.add_0_r in H. exact H.
  - rewrite <- app_assoc. apply aw_i. apply IHa. replace (S d + still_open a) with (d + S (still_open a)) by lia. exact H.
  - rewrite <- !app_assoc. apply aw_i. apply IHa. apply af_e. apply IHb. rewrite <- Nat.add_assoc. exact H.
Qed.
Lemma awaits_text : (forall d s, awaits i e x d s -> exists t l, length l <= d /\ s = text t ++ flat_map (fun b => e ++ text b) l) /\
  (forall d s, after i e x d s -> exists l, length l <= d /\ s = flat_map (fun b => e ++ text b) l).
Proof.
  apply awaits_mind.
  - intros d s _ (t & [|b l] & L & ->).
    + exists (If t), []. split; [cbn; lia|]. cbn. rewrite !app_nil_r. reflexivity.
    + exists (IfElse t b), l. cbn in L. split; [lia|]. cbn [stm_text flat_map]. rewrite <- !app_assoc. reflexivity.
  - intros d s _ (l & L & ->). exists Leaf, l. split; [exact L|reflexivity].
  - intro d. exists []. split; [cbn; lia|reflexivity].
  - intros d s _ (t & l & L & ->). exists (t :: l). split; [cbn; lia|]. cbn [flat_map]. rewrite <- app_assoc. reflexivity.
Qed.
Lemma counting : forall s, (exists t, s = text t) <-> awaits i e x 0 s.
Proof.
  intro s. split.
  - intros [t ->]. rewrite <- (app_nil_r (text t)). apply text_awaits. apply af_end.
  - intro H. destruct (proj1 awaits_text 0 s H) as (t & [|b l] & L & E); [|cbn in L; lia]. exists t. rewrite E. apply app_nil_r.
Qed.

(** ** Any rules that read a statement like this *)

Section Reading.
Variable G : str -> option expr.
Notation S_ := (RuleName nm_stmt).
Notation reads s t rest := (peg G S_ s (PMatch [tree t] rest)).
Hypothesis H_leaf : forall rest, reads (x ++ rest) Leaf rest.
Hypothesis H_both : forall s a r b rest, reads s a (e ++ r) -> reads r b rest -> reads (i ++ s) (IfElse a b) rest.
Hypothesis H_one : forall s a rest, reads s a rest -> (forall r, rest = e ++ r -> peg G S_ r PFail) -> reads (i ++ s) (If a) rest.
Hypothesis H_fail : forall s, peg G S_ s PFail -> peg G S_ (i ++ s) PFail.
Hypothesis H_other : forall s, ~ starts_with i s -> ~ starts_with x s -> peg G S_ s PFail.

Definition complete_before (t : stm) (rest : str) : Prop := takes_else t -> forall b r, rest <> e ++ text b ++ r.

Lemma reads_total : forall s,
  (exists t rest, reads s t rest /\ s = text t ++ rest /\ nearest t /\ complete_before t rest) \/
  (peg G S_ s PFail /\ forall t rest, s <> text t ++ rest).
Proof.
  intro s. remember (length s) as k eqn:K. assert (L : length s <= k) by lia. clear K. revert s L. induction k as [k IH] using lt_wf_ind. intros s L.
  destruct (starts_dec i s) as [(s1 & ->)|NI].
  - pose proof marks_i as MI. assert (IL : 1 <= length i) by (destruct i; [destruct (MI eq_refl)|cbn; lia]). rewrite app_length in L.
    destruct (IH (length s1) ltac:(lia) s1 (Nat.le_refl _)) as [(a & r & D & E & NE & CB)|(D & N)].
    + assert (LR : length r <= length s1) by (rewrite E, app_length; lia).
      destruct (starts_dec e r) as [(r1 & Er)|NS].
      * subst r. rewrite app_length in LR. destruct (IH (length r1) ltac:(lia) r1 (Nat.le_refl _)) as [(b & rest & D2 & E2 & NE2 & CB2)|(D2 & N2)].
        -- left. exists (IfElse a b), rest. split; [exact (H_both s1 a r1 b rest D D2)|]. split; [|split].
           ++ cbn. rewrite E, E2. rewrite <- !app_assoc. reflexivity.
           ++ cbn. split; [exact NE|]. split; [|exact NE2]. intro T. apply (CB T b rest). rewrite E2. reflexivity.
           ++ exact CB2.
        -- left. exists (If a), (e ++ r1). split; [|split; [|split]].
           ++ apply H_one; [exact D|]. intros r Q. apply app_inv_head in Q. subst r. exact D2.
           ++ cbn. rewrite E. rewrite <- !app_assoc. reflexivity.
           ++ exact NE.
           ++ intros _ b r Q. apply app_inv_head in Q. exact (N2 b r Q).
      * left. exists (If a), r. split; [|split; [|split]].
        -- apply H_one; [exact D|]. intros r1 Q. destruct NS. exists r1. exact Q.
        -- cbn. rewrite E. rewrite <- app_assoc. reflexivity.
        -- exact NE.
        -- intros _ b r1 Q. destruct NS. eexists. exact Q.
    + right. split; [exact (H_fail s1 D)|]. intros [|a|a b] rest Q; cbn in Q.
      * apply (marks_ix (i ++ s1)); [exists s1; reflexivity|exists rest; exact Q].
      * rewrite <- app_assoc in Q. apply app_inv_head in Q. exact (N a rest Q).
      * rewrite <- !app_assoc in Q. apply app_inv_head in Q. exact (N a _ Q).
  - destruct (starts_dec x s) as [(r & ->)|NX].
    + left. exists Leaf, r. split; [exact (H_leaf r)|]. split; [reflexivity|]. split; [exact I|intros []].
    + right. split; [exact (H_other s NI NX)|]. intros [|a|a b] rest Q; cbn in Q.
      * apply NX. exists rest. exact Q.
      * apply NI. rewrite <- app_assoc in Q. eexists. exact Q.
      * apply NI. rewrite <- !app_assoc in Q. eexists. exact Q.
Qed.

(** What is left over by a statement can be read as further second branches, up to where the parser stops. *)
Inductive tails : str -> str -> Prop :=
| ta_end s : tails s s
| ta_more s t r rest : reads s t r -> tails r rest -> tails (e ++ s) rest.

Lemma tails_trans : forall s r, tails s r -> forall rest, tails r rest -> tails s rest.
Proof. induction 1 as [s|s t r rest D _ IH]; intros rest' H; [exact H|]. exact (ta_more s t r rest' D (IH _ H)). Qed.

Lemma tree_inj : forall a b, tree a = tree b -> a = b.
Proof.
  induction a as [|a IHa|a IHa a' IHb]; intros [|b|b b'] H; cbn in H; try discriminate; try reflexivity.
  - injection H as H. rewrite (IHa b H). reflexivity.
  - injection H as H H'. rewrite (IHa b H), (IHb b' H'). reflexivity.
Qed.
Lemma reads_det : forall s t r t' r', reads s t r -> reads s t' r' -> t = t' /\ r = r'.
Proof. intros s t r t' r' D D'. pose proof (peg_det _ _ _ _ D _ D') as E. injection E as E ->. split; [exact (tree_inj t t' E)|reflexivity]. Qed.

Lemma reads_far : forall t rest, exists t' rest', reads (text t ++ rest) t' rest' /\ tails rest rest'.
Proof.
  assert (ONE : forall s a r rest, reads s a r -> tails rest r -> exists t' rest', reads (i ++ s) t' rest' /\ tails rest rest').
  { intros s a r rest D T. destruct (starts_dec e r) as [(r1 & ->)|NS].
    - destruct (reads_total r1) as [(b & r2 & D2 & _)|(D2 & _)].
      + exists (IfElse a b), r2. split; [exact (H_both s a r1 b r2 D D2)|]. apply (tails_trans _ _ T). exact (ta_more r1 b r2 r2 D2 (ta_end r2)).
      + exists (If a), (e ++ r1). split; [|exact T]. apply H_one; [exact D|]. intros r Q. apply app_inv_head in Q. subst r. exact D2.
    - exists (If a), r. split; [|exact T]. apply H_one; [exact D|]. intros r1 Q. destruct NS. exists r1. exact Q. }
  induction t as [|a IHa|a IHa b IHb]; intro rest; cbn [stm_text].
  - exists Leaf, rest. split; [exact (H_leaf rest)|apply ta_end].
  - destruct (IHa rest) as (a' & r & D & T). rewrite <- app_assoc. exact (ONE _ a' r rest D T).
  - destruct (IHa (e ++ text b ++ rest)) as (a' & r & D & T). rewrite <- !app_assoc. destruct (IHb rest) as (b' & r2 & D2 & T2).
    remember (e ++ text b ++ rest) as z eqn:Z in T. destruct T as [z|s1 t1 r1 r3 D1 T1].
    + exists (IfElse a' b'), r2. split; [|exact T2]. apply (H_both _ a' (text b ++ rest)); [rewrite Z in D; exact D|exact D2].
    + apply app_inv_head in Z. subst s1. destruct (reads_det _ _ _ _ _ D1 D2) as [_ ->]. exact (ONE _ a' r3 rest D (tails_trans _ _ T2 _ T1)).
Qed.

Lemma reads_whole : forall t, exists t', reads (text t) t' [] /\ text t' = text t /\ nearest t'.
Proof.
  intro t. destruct (reads_far t []) as (t' & r & D & T). rewrite app_nil_r in D.
  assert (R : r = []).
  { remember [] as z eqn:Z in T. destruct T as [z|s1 t1 r1 r3 D1 T1]; [exact Z|]. apply app_eq_nil in Z. destruct (marks_e (proj1 Z)). }
  subst r. exists t'. split; [exact D|]. destruct (reads_total (text t)) as [(t2 & r2 & D2 & E2 & N2 & _)|(D2 & _)].
  - destruct (reads_det _ _ _ _ _ D D2) as [<- <-]. rewrite app_nil_r in E2. split; [symmetry; exact E2|exact N2].
  - pose proof (peg_det _ _ _ _ D _ D2). discriminate.
Qed.
Lemma reads_nearest : forall t, nearest t -> forall rest, complete_before t rest -> reads (text t ++ rest) t rest.
Proof.
  induction t as [|a IHa|a IHa b IHb]; intros NE rest CB; cbn [stm_text].
  - exact (H_leaf rest).
  - rewrite <- app_assoc. apply H_one.
    + apply IHa; [exact NE|]. intros _. exact (CB I).
    + intros r ->. destruct (reads_total r) as [(b & r2 & _ & E & _)|(D & _)]; [|exact D]. exfalso. apply (CB I b r2). rewrite E. reflexivity.
  - destruct NE as (NA & CA & NB). rewrite <- !app_assoc. apply (H_both _ a (text b ++ rest)).
    + apply IHa; [exact NA|]. intro T. destruct (CA T).
    + apply IHb; [exact NB|]. exact CB.
Qed.
Lemma reads_iff : forall s t, reads s t [] <-> s = text t /\ nearest t.
Proof.
  intros s t. split.
  - intro D. destruct (reads_total s) as [(t2 & r2 & D2 & E2 & N2 & _)|(D2 & _)].
    + destruct (reads_det _ _ _ _ _ D D2) as [<- <-]. rewrite app_nil_r in E2. split; assumption.
    + pose proof (peg_det _ _ _ _ D _ D2). discriminate.
  - intros [-> NE]. pose proof (reads_nearest t NE [] ltac:(intros _ b r E; symmetry in E; apply app_eq_nil in E; destruct (marks_e (proj1 E)))) as D.
    rewrite app_nil_r in D. exact D.
Qed.
Lemma reads_tree : forall s n, peg G S_ s (PMatch [n] []) <-> exists t, s = text t /\ nearest t /\ n = tree t.
Proof.
  intros s n. split.
  - intro D. destruct (reads_total s) as [(t & r & D2 & E2 & N2 & _)|(D2 & _)].
    + pose proof (peg_det _ _ _ _ D _ D2) as E. injection E as -> <-. rewrite app_nil_r in E2. exists t. repeat split; assumption.
    + pose proof (peg_det _ _ _ _ D _ D2). discriminate.
  - intros (t & E & NE & ->). apply reads_iff. split; assumption.
Qed.
Lemma nearest_of : forall t, exists t', text t' = text t /\ nearest t' /\ forall u, text u = text t -> nearest u -> u = t'.
Proof.
  intro t. destruct (reads_whole t) as (t' & D & E & NE). exists t'. split; [exact E|]. split; [exact NE|]. intros u EU NU.
  pose proof (proj2 (reads_iff (text t) u) (conj (eq_sym EU) NU)) as D'. exact (proj1 (reads_det _ _ _ _ _ D' D)).
Qed.
Lemma fails_not : forall s, (forall t, s <> text t) ->
  peg G S_ s PFail \/ exists t rest, rest <> [] /\ peg G S_ s (PMatch [t] rest).
Proof.
  intros s N. destruct (reads_total s) as [(t & r & D & E & _)|(D & _)]; [right|left; exact D].
  exists (tree t), r. split; [|exact D]. intros ->. rewrite app_nil_r in E. exact (N t E).
Qed.
End Reading.

(** ** The rules with an optional part *)

Notation Go := (grammar_of (optional_rules i e x)).
Notation S_ := (RuleName nm_stmt).
Notation alt_i := (And [lit i; S_; Repeat (And [lit e; S_]) 0 (Some 1)]).
Lemma go_stmt : Go nm_stmt = Some (Or [alt_i; lit x]).
Proof. reflexivity. Qed.
Lemma o_sane : sane_rules (optional_rules i e x).
Proof. apply sane_rules_all. repeat constructor. Qed.

Lemma no_lit : forall G w s, ~ starts_with w s -> peg G (lit w) s PFail.
Proof. intros G w s N. apply peg_lit_fail. intros r E. apply N. exists r. exact E. Qed.
Lemma x_not_i : forall rest, ~ starts_with i (x ++ rest).
Proof. intros rest H. apply (marks_ix _ H). exists rest. reflexivity. Qed.
Lemma i_not_x : forall rest, ~ starts_with x (i ++ rest).
Proof. intros rest H. apply (marks_ix (i ++ rest)); [exists rest; reflexivity|exact H]. Qed.

Lemma o_leaf : forall rest, peg Go S_ (x ++ rest) (PMatch [tree Leaf] rest).
Proof.
  intro rest. refine (peg_rule Go nm_stmt _ _ (PMatch [Val x] rest) go_stmt _).
  apply peg_or_next; [apply peg_and_stop; [exact (no_lit Go i _ (x_not_i rest))|exact I]|].
  apply peg_or_first; [apply peg_lit_ok|discriminate].
Qed.
Lemma o_both : forall s a r b rest, peg Go S_ s (PMatch [tree a] (e ++ r)) -> peg Go S_ r (PMatch [tree b] rest) -> peg Go S_ (i ++ s) (PMatch [tree (IfElse a b)] rest).
Proof.
  intros s a r b rest D D'. refine (peg_rule Go nm_stmt _ _ (PMatch [Val i; tree a; Val e; tree b] rest) go_stmt _).
  apply peg_or_first; [|discriminate]. refine (peg_and_cons Go _ _ _ [Val i] s (PMatch [tree a; Val e; tree b] rest) (peg_lit_ok Go i s) _).
  refine (peg_and_cons Go _ _ _ [tree a] (e ++ r) (PMatch [Val e; tree b] rest) D _).
  refine (peg_and_cons Go _ _ _ [Val e; tree b] rest (PMatch [] rest) _ (peg_and_nil Go rest)).
  refine (peg_rep_more Go _ 0 (Some 1) _ [Val e; tree b] rest (PMatch [] rest) _ _ (peg_rep_full Go _ rest)); [discriminate|].
  refine (peg_and_cons Go _ _ _ [Val e] r (PMatch [tree b] rest) (peg_lit_ok Go e r) _).
  exact (peg_and_cons Go _ _ _ [tree b] rest (PMatch [] rest) D' (peg_and_nil Go rest)).
Qed.
Lemma o_one : forall s a rest, peg Go S_ s (PMatch [tree a] rest) -> (forall r, rest = e ++ r -> peg Go S_ r PFail) -> peg Go S_ (i ++ s) (PMatch [tree (If a)] rest).
Proof.
  intros s a rest D N. refine (peg_rule Go nm_stmt _ _ (PMatch [Val i; tree a] rest) go_stmt _).
  apply peg_or_first; [|discriminate]. refine (peg_and_cons Go _ _ _ [Val i] s (PMatch [tree a] rest) (peg_lit_ok Go i s) _).
  refine (peg_and_cons Go _ _ _ [tree a] rest (PMatch [] rest) D _).
  refine (peg_and_cons Go _ _ _ [] rest (PMatch [] rest) _ (peg_and_nil Go rest)).
  apply peg_rep_done; [discriminate|]. destruct (starts_dec e rest) as [(r & ->)|NS].
  - refine (peg_and_cons Go _ _ _ [Val e] r PFail (peg_lit_ok Go e r) _). apply peg_and_stop; [exact (N r eq_refl)|exact I].
  - apply peg_and_stop; [exact (no_lit Go e rest NS)|exact I].
Qed.
Lemma o_fail : forall s, peg Go S_ s PFail -> peg Go S_ (i ++ s) PFail.
Proof.
  intros s D. refine (peg_rule Go nm_stmt _ _ PFail go_stmt _). apply peg_or_next.
  - refine (peg_and_cons Go _ _ _ [Val i] s PFail (peg_lit_ok Go i s) _). apply peg_and_stop; [exact D|exact I].
  - apply peg_or_next; [exact (no_lit Go x _ (i_not_x s))|apply peg_or_nil].
Qed.
Lemma o_other : forall s, ~ starts_with i s -> ~ starts_with x s -> peg Go S_ s PFail.
Proof.
  intros s NI NX. refine (peg_rule Go nm_stmt _ _ PFail go_stmt _). apply peg_or_next; [apply peg_and_stop; [exact (no_lit Go i s NI)|exact I]|].
  apply peg_or_next; [exact (no_lit Go x s NX)|apply peg_or_nil].
Qed.

Lemma o_accepts : forall s debug, ascii s -> forall ast, (exists fuel, parse_with_debug fuel s (optional_rules i e x) debug = Ok ast) <->
  exists t, s = text t /\ nearest t /\ ast = Rule main [tree t].
Proof.
  intros s debug A ast. rewrite (start_accepts (optional_rules i e x) nm_stmt eq_refl o_sane s debug A ast). split.
  - intros (n & -> & D). apply (reads_tree Go o_leaf o_both o_one o_fail o_other) in D. destruct D as (t & E & NE & ->). exists t. repeat split; assumption.
  - intros (t & E & NE & ->). eexists. split; [reflexivity|]. apply (reads_tree Go o_leaf o_both o_one o_fail o_other). exists t. repeat split; assumption.
Qed.
Lemma o_rejects : forall s debug, ascii s -> (forall t, s <> text t) ->
  exists fuel er, parse_with_debug fuel s (optional_rules i e x) debug = Err er /\ e_priority er = Normal.
Proof.
  intros s debug A N. apply (start_rejects (optional_rules i e x) nm_stmt eq_refl o_sane s debug A). exact (fails_not Go o_leaf o_both o_one o_fail o_other s N).
Qed.
Lemma one_nearest : forall t, exists t', text t' = text t /\ nearest t' /\ forall u, text u = text t -> nearest u -> u = t'.
Proof. exact (nearest_of Go o_leaf o_both o_one o_fail o_other). Qed.

(** ** The rules with the long alternative first *)

Notation Gl := (grammar_of (long_first_rules i e x)).
Lemma gl_stmt : Gl nm_stmt = Some (Or [And [lit i; S_; lit e; S_]; And [lit i; S_]; lit x]).
Proof. reflexivity. Qed.
Lemma l_sane : sane_rules (long_first_rules i e x).
Proof. apply sane_rules_all. repeat constructor. Qed.
Lemma l_leaf : forall rest, peg Gl S_ (x ++ rest) (PMatch [tree Leaf] rest).
Proof.
  intro rest. refine (peg_rule Gl nm_stmt _ _ (PMatch [Val x] rest) gl_stmt _).
  apply peg_or_next; [apply peg_and_stop; [exact (no_lit Gl i _ (x_not_i rest))|exact I]|].
  apply peg_or_next; [apply peg_and_stop; [exact (no_lit Gl i _ (x_not_i rest))|exact I]|].
  apply peg_or_first; [apply peg_lit_ok|discriminate].
Qed.
Lemma l_both : forall s a r b rest, peg Gl S_ s (PMatch [tree a] (e ++ r)) -> peg Gl S_ r (PMatch [tree b] rest) -> peg Gl S_ (i ++ s) (PMatch [tree (IfElse a b)] rest).
Proof.
  intros s a r b rest D D'. refine (peg_rule Gl nm_stmt _ _ (PMatch [Val i; tree a; Val e; tree b] rest) gl_stmt _).
  apply peg_or_first; [|discriminate]. refine (peg_and_cons Gl _ _ _ [Val i] s (PMatch [tree a; Val e; tree b] rest) (peg_lit_ok Gl i s) _).
  refine (peg_and_cons Gl _ _ _ [tree a] (e ++ r) (PMatch [Val e; tree b] rest) D _).
  refine (peg_and_cons Gl _ _ _ [Val e] r (PMatch [tree b] rest) (peg_lit_ok Gl e r) _).
  exact (peg_and_cons Gl _ _ _ [tree b] rest (PMatch [] rest) D' (peg_and_nil Gl rest)).
Qed.
Lemma l_one : forall s a rest, peg Gl S_ s (PMatch [tree a] rest) -> (forall r, rest = e ++ r -> peg Gl S_ r PFail) -> peg Gl S_ (i ++ s) (PMatch [tree (If a)] rest).
Proof.
  intros s a rest D N. refine (peg_rule Gl nm_stmt _ _ (PMatch [Val i; tree a] rest) gl_stmt _). apply peg_or_next.
  - refine (peg_and_cons Gl _ _ _ [Val i] s PFail (peg_lit_ok Gl i s) _). refine (peg_and_cons Gl _ _ _ [tree a] rest PFail D _).
    destruct (starts_dec e rest) as [(r & ->)|NS].
    + refine (peg_and_cons Gl _ _ _ [Val e] r PFail (peg_lit_ok Gl e r) _). apply peg_and_stop; [exact (N r eq_refl)|exact I].
    + apply peg_and_stop; [exact (no_lit Gl e rest NS)|exact I].
  - apply peg_or_first; [|discriminate]. refine (peg_and_cons Gl _ _ _ [Val i] s (PMatch [tree a] rest) (peg_lit_ok Gl i s) _).
    exact (peg_and_cons Gl _ _ _ [tree a] rest (PMatch [] rest) D (peg_and_nil Gl rest)).
Qed.
Lemma l_fail : forall s, peg Gl S_ s PFail -> peg Gl S_ (i ++ s) PFail.
Proof.
  intros s D. refine (peg_rule Gl nm_stmt _ _ PFail gl_stmt _). apply peg_or_next; [|apply peg_or_next].
  - refine (peg_and_cons Gl _ _ _ [Val i] s PFail (peg_lit_ok Gl i s) _). apply peg_and_stop; [exact D|exact I].
  - refine (peg_and_cons Gl _ _ _ [Val i] s PFail (peg_lit_ok Gl i s) _). apply peg_and_stop; [exact D|exact I].
  - apply peg_or_next; [exact (no_lit Gl x _ (i_not_x s))|apply peg_or_nil].
Qed.
Lemma l_other : forall s, ~ starts_with i s -> ~ starts_with x s -> peg Gl S_ s PFail.
Proof.
  intros s NI NX. refine (peg_rule Gl nm_stmt _ _ PFail gl_stmt _). apply peg_or_next; [apply peg_and_stop; [exact (no_lit Gl i s NI)|exact I]|].
  apply peg_or_next; [apply peg_and_stop; [exact (no_lit Gl i s NI)|exact I]|].
  apply peg_or_next; [exact (no_lit Gl x s NX)|apply peg_or_nil].
Qed.
Lemma l_accepts : forall s debug, ascii s -> forall ast, (exists fuel, parse_with_debug fuel s (long_first_rules i e x) debug = Ok ast) <->
  exists t, s = text t /\ nearest t /\ ast = Rule main [tree t].
Proof.
  intros s debug A ast. rewrite (start_accepts (long_first_rules i e x) nm_stmt eq_refl l_sane s debug A ast). split.
  - intros (n & -> & D). apply (reads_tree Gl l_leaf l_both l_one l_fail l_other) in D. destruct D as (t & E & NE & ->). exists t. repeat split; assumption.
  - intros (t & E & NE & ->). eexists. split; [reflexivity|]. apply (reads_tree Gl l_leaf l_both l_one l_fail l_other). exists t. repeat split; assumption.
Qed.

(** ** The rules with the short alternative first *)

Notation Gs := (grammar_of (short_first_rules i e x)).
Lemma gs_stmt : Gs nm_stmt = Some (Or [And [lit i; S_]; And [lit i; S_; lit e; S_]; lit x]).
Proof. reflexivity. Qed.
Lemma s_sane : sane_rules (short_first_rules i e x).
Proof. apply sane_rules_all. repeat constructor. Qed.
Fixpoint ifs (n : nat) : stm := match n with 0 => Leaf | S k => If (ifs k) end.
Lemma ifs_text : forall n, text (ifs n) = copies n i ++ x.
Proof. induction n as [|n IH]; cbn; [reflexivity|]. rewrite IH, app_assoc. reflexivity. Qed.
Lemma s_reads : forall s,
  (exists n rest, s = text (ifs n) ++ rest /\ peg Gs S_ s (PMatch [tree (ifs n)] rest)) \/
  (peg Gs S_ s PFail /\ forall n rest, s <> text (ifs n) ++ rest).
Proof.
  intro s. remember (length s) as k eqn:K. assert (L : length s <= k) by lia. clear K. revert s L. induction k as [k IH] using lt_wf_ind. intros s L.
  destruct (starts_dec i s) as [(s1 & ->)|NI].
  - pose proof marks_i as MI. assert (IL : 1 <= length i) by (destruct i; [destruct (MI eq_refl)|cbn; lia]). rewrite app_length in L.
    destruct (IH (length s1) ltac:(lia) s1 (Nat.le_refl _)) as [(n & rest & E & D)|(D & N)].
    + left. exists (S n), rest. split; [cbn; rewrite E, <- app_assoc; reflexivity|].
      refine (peg_rule Gs nm_stmt _ _ (PMatch [Val i; tree (ifs n)] rest) gs_stmt _). apply peg_or_first; [|discriminate].
      refine (peg_and_cons Gs _ _ _ [Val i] s1 (PMatch [tree (ifs n)] rest) (peg_lit_ok Gs i s1) _).
      exact (peg_and_cons Gs _ _ _ [tree (ifs n)] rest (PMatch [] rest) D (peg_and_nil Gs rest)).
    + right. split.
      * refine (peg_rule Gs nm_stmt _ _ PFail gs_stmt _). apply peg_or_next; [|apply peg_or_next].
        -- refine (peg_and_cons Gs _ _ _ [Val i] s1 PFail (peg_lit_ok Gs i s1) _). apply peg_and_stop; [exact D|exact I].
        -- refine (peg_and_cons Gs _ _ _ [Val i] s1 PFail (peg_lit_ok Gs i s1) _). apply peg_and_stop; [exact D|exact I].
        -- apply peg_or_next; [exact (no_lit Gs x _ (i_not_x s1))|apply peg_or_nil].
      * intros [|n] rest Q; cbn in Q; [apply (i_not_x s1); exists rest; exact Q|]. rewrite <- app_assoc in Q. apply app_inv_head in Q. exact (N n rest Q).
  - destruct (starts_dec x s) as [(r & ->)|NX].
    + left. exists 0, r. split; [reflexivity|]. refine (peg_rule Gs nm_stmt _ _ (PMatch [Val x] r) gs_stmt _).
      apply peg_or_next; [apply peg_and_stop; [exact (no_lit Gs i _ (x_not_i r))|exact I]|].
      apply peg_or_next; [apply peg_and_stop; [exact (no_lit Gs i _ (x_not_i r))|exact I]|].
      apply peg_or_first; [apply peg_lit_ok|discriminate].
    + right. split.
      * refine (peg_rule Gs nm_stmt _ _ PFail gs_stmt _). apply peg_or_next; [apply peg_and_stop; [exact (no_lit Gs i s NI)|exact I]|].
        apply peg_or_next; [apply peg_and_stop; [exact (no_lit Gs i s NI)|exact I]|].
        apply peg_or_next; [exact (no_lit Gs x s NX)|apply peg_or_nil].
      * intros [|n] rest Q; cbn in Q; [apply NX; exists rest; exact Q|]. apply NI. rewrite <- app_assoc in Q. eexists. exact Q.
Qed.
Lemma ifs_prefix : forall n m rest, text (ifs n) = text (ifs m) ++ rest -> rest = [].
Proof.
  induction n as [|n IH]; intros [|m] rest E; cbn in E.
  - rewrite <- (app_nil_r x) in E at 1. apply app_inv_head in E. symmetry. exact E.
  - exfalso. rewrite <- app_assoc in E. apply (x_not_i []). rewrite app_nil_r, E. eexists. reflexivity.
  - exfalso. apply (i_not_x (text (ifs n))). exists rest. exact E.
  - rewrite <- app_assoc in E. apply app_inv_head in E. exact (IH m rest E).
Qed.
Lemma s_accepts : forall s debug, ascii s -> ((exists fuel ast, parse_with_debug fuel s (short_first_rules i e x) debug = Ok ast) <-> exists n, s = copies n i ++ x).
Proof.
  intros s debug A. split.
  - intros (fuel & ast & F). destruct (proj1 (start_accepts (short_first_rules i e x) nm_stmt eq_refl s_sane s debug A ast) (ex_intro _ fuel F)) as (t & -> & D).
    destruct (s_reads s) as [(n & rest & E & D')|[D' _]]; pose proof (peg_det _ _ _ _ D _ D') as Q; [|discriminate].
    injection Q as _ <-. exists n. rewrite E, app_nil_r. apply ifs_text.
  - intros (n & E). rewrite <- ifs_text in E. destruct (s_reads s) as [(m & rest & E' & D)|[_ N]].
    + rewrite E in E'. pose proof (ifs_prefix n m rest E'). subst rest.
      destruct (proj2 (start_accepts (short_first_rules i e x) nm_stmt eq_refl s_sane s debug A _) (ex_intro _ _ (conj eq_refl D))) as [fuel F]. eauto.
    + destruct (N n []). rewrite E, app_nil_r. reflexivity.
Qed.
End Marks.
