(** Blocks with several kinds of marks: proofs. *)
From Verif Require Import Base ModelAst ModelParser ModelCost SpecPeg SpecPos SpecApi SpecWf SpecComments SpecLines SpecBlocks.
From Verif Require Import PegTools ProofParser ProofEngine ProofApi ProofRun ProofRunDet ProofLines ProofSearch ProofComments Examples.

Lemma some_start : forall l s, (exists m, In m l /\ starts_with m s) \/ (forall m, In m l -> ~ starts_with m s).
Proof.
  induction l as [|m l IH]; intro s; [right; intros m []|]. destruct (starts_dec m s) as [H|H]; [left; exists m; split; [left; reflexivity|exact H]|].
  destruct (IH s) as [(m' & I' & H')|N]; [left; exists m'; split; [right; exact I'|exact H']|right; intros m' [<-|I']; [exact H|exact (N m' I')]].
Qed.
Lemma pick : forall G A (f : A -> expr) l a b s r, l = a ++ b :: r -> forall res, (forall x, In x a -> peg G (f x) s PFail) -> peg G (f b) s res -> res <> PFail -> peg G (Or (map f l)) s res.
Proof.
  intros G A f l a b s r -> res. induction a as [|x a IH]; intros H D N; cbn [map app].
  - apply peg_or_first; assumption.
  - apply peg_or_next; [apply H; left; reflexivity|]. apply IH; [|exact D|exact N]. intros y Y. apply H. right. exact Y.
Qed.
Lemma no_pick : forall G A (f : A -> expr) l s, (forall x, In x l -> peg G (f x) s PFail) -> peg G (Or (map f l)) s PFail.
Proof.
  intros G A f l s. induction l as [|x l IH]; intros H; cbn [map]; [apply peg_or_nil|]. apply peg_or_next; [apply H; left; reflexivity|]. apply IH. intros y Y. apply H. right. exact Y.
Qed.

Section All.
Variable ks : list kind.
Variable z : str.
Fixpoint all_before (l : list content) : Prop := match l with [] => True | i :: l => before ks (flat_map content_text l ++ z) i /\ all_before l end.
End All.
Lemma before_block : forall ks rest k l, before ks rest (Block k l) <-> In k ks /\ all_before ks (closing k ++ rest) l.
Proof. intros ks rest k l. reflexivity. Qed.

Lemma content_ind' : forall P : content -> Prop, (forall x, P (Char x)) -> (forall k l, Forall P l -> P (Block k l)) -> forall i, P i.
Proof.
  intros P H1 H2. fix F 1. intros [x|k l]; [apply H1|]. apply H2. induction l as [|i l IH]; constructor; [apply F|exact IH].
Qed.

Section Marks.
Variable ks : list kind.
Hypothesis CM : clear_marks ks.
Notation G := (grammar_of (block_rules ks)).
Notation item_ := (Or [RuleName nm_block; plain_char ks]).
Notation tail k := (Or [lit (closing k); error_ (complaint k)]).

Lemma open_mark_in : forall k, In k ks -> In (opens k) (marks ks).
Proof. intros k H. apply in_or_app. left. apply in_map. exact H. Qed.
Lemma close_mark_in : forall k, In k ks -> In (closing k) (marks ks).
Proof. intros k H. apply in_or_app. right. apply in_map. exact H. Qed.
Lemma one_mark : forall m m' s, In m (marks ks) -> In m' (marks ks) -> starts_with m s -> starts_with m' s -> m = m'.
Proof.
  intros m m' s H H' (a & ->) (b & E). destruct CM as [D _]. destruct (app_eq_app _ _ _ _ E) as (l & [[-> _]|[-> _]]).
  - symmetry. apply (D m' (m' ++ l) H' H). exists l. reflexivity.
  - apply (D m (m ++ l) H H'). exists l. reflexivity.
Qed.
Lemma mark_pos : forall m, In m (marks ks) -> 1 <= length m.
Proof. intros [|x m] H; [destruct CM as (_ & _ & _ & N); destruct (N H)|cbn; lia]. Qed.
Lemma open_close : forall k k' s, In k ks -> In k' ks -> starts_with (opens k) s -> starts_with (closing k') s -> False.
Proof.
  intros k k' s H H' S S'. destruct CM as (_ & _ & N & _). apply (N k k' H H'). exact (one_mark _ _ s (open_mark_in k H) (close_mark_in k' H') S S').
Qed.
Lemma nodup_map_eq : forall (A B : Type) (f : A -> B) (l : list A), NoDup (map f l) -> forall x y, In x l -> In y l -> f x = f y -> x = y.
Proof.
  intros A B f l. induction l as [|a l IH]; cbn [map]; intros N x y X Y E; [destruct X|]. apply NoDup_cons_iff in N. destruct N as [N1 N2].
  destruct X as [->|X]; destruct Y as [->|Y]; [reflexivity| | |exact (IH N2 x y X Y E)].
  - destruct N1. rewrite E. apply in_map. exact Y.
  - destruct N1. rewrite <- E. apply in_map. exact X.
Qed.
Lemma open_open : forall k k' s, In k ks -> In k' ks -> starts_with (opens k) s -> starts_with (opens k') s -> k = k'.
Proof.
  intros k k' s H H' S S'. apply (nodup_map_eq _ _ opens ks); [exact (proj1 (proj2 CM))|exact H|exact H'|]. exact (one_mark _ _ s (open_mark_in k H) (open_mark_in k' H') S S').
Qed.
Lemma no_mark_nil : no_mark ks [].
Proof. intros m H (r & E). pose proof (mark_pos m H). symmetry in E. apply app_eq_nil in E. destruct E as [-> _]. cbn in *. lia. Qed.

(** ** The stack *)

Lemma runs_det : forall st s v, runs ks st s v -> (forall k, In k st -> In k ks) -> forall v', runs ks st s v' -> v = v'.
Proof.
  induction 1 as [s|k st s v _ IH|k k' st s v K _ IH|k st x s v N _ IH|k st|k k' st s K NE]; intros IN v' H.
  - inversion H. reflexivity.
  - assert (KK : In k ks) by (apply IN; left; reflexivity). assert (SW : starts_with (closing k) (closing k ++ s)) by (exists s; reflexivity).
    remember (k :: st) as st1 eqn:ST in H. remember (closing k ++ s) as z eqn:Z in H. destruct H as [s1|k1 st1 s1 v1 R|k1 k2 st1 s1 v1 K2 R|k1 st1 x s1 v1 N R|k1 st1|k1 k2 st1 s1 K2 NE].
    + discriminate.
    + injection ST as -> ->. apply app_inv_head in Z. subst s1. apply IH; [|exact R]. intros y Y. apply IN. right. exact Y.
    + exfalso. apply (open_close k2 k (closing k ++ s) K2 KK); [rewrite <- Z; exists s1; reflexivity|exact SW].
    + exfalso. apply (N (closing k) (close_mark_in k KK)). rewrite Z. exact SW.
    + exfalso. pose proof (mark_pos _ (close_mark_in k KK)). symmetry in Z. apply app_eq_nil in Z. destruct Z as [Z _]. rewrite Z in *. cbn in *. lia.
    + exfalso. injection ST as -> ->. apply NE. apply (one_mark _ _ (closing k ++ s) (close_mark_in k2 K2) (close_mark_in k KK)); [rewrite <- Z; exists s1; reflexivity|exact SW].
  - assert (KK : In k ks) by (apply IN; left; reflexivity). assert (SW : starts_with (opens k') (opens k' ++ s)) by (exists s; reflexivity).
    remember (k :: st) as st1 eqn:ST in H. remember (opens k' ++ s) as z eqn:Z in H. destruct H as [s1|k1 st1 s1 v1 R|k1 k2 st1 s1 v1 K2 R|k1 st1 x s1 v1 N R|k1 st1|k1 k2 st1 s1 K2 NE].
    + discriminate.
    + exfalso. injection ST as -> ->. apply (open_close k' k (opens k' ++ s) K KK SW). rewrite <- Z. exists s1. reflexivity.
    + injection ST as -> ->. assert (E : k2 = k') by (apply (open_open _ _ (opens k' ++ s) K2 K); [rewrite <- Z; exists s1; reflexivity|exact SW]). subst k2.
      apply app_inv_head in Z. subst s1. apply IH; [|exact R]. intros y [<-|Y]; [exact K|exact (IN y Y)].
    + exfalso. apply (N (opens k') (open_mark_in k' K)). rewrite Z. exact SW.
    + exfalso. pose proof (mark_pos _ (open_mark_in k' K)). symmetry in Z. apply app_eq_nil in Z. destruct Z as [Z _]. rewrite Z in *. cbn in *. lia.
    + exfalso. apply (open_close k' k2 (opens k' ++ s) K K2 SW). rewrite <- Z. exists s1. reflexivity.
  - assert (KK : In k ks) by (apply IN; left; reflexivity).
    remember (k :: st) as st1 eqn:ST in H. remember (x :: s) as z eqn:Z in H. destruct H as [s1|k1 st1 s1 v1 R|k1 k2 st1 s1 v1 K2 R|k1 st1 x1 s1 v1 N1 R|k1 st1|k1 k2 st1 s1 K2 NE].
    + discriminate.
    + exfalso. injection ST as -> ->. apply (N (closing k) (close_mark_in k KK)). rewrite <- Z. exists s1. reflexivity.
    + exfalso. apply (N (opens k2) (open_mark_in k2 K2)). rewrite <- Z. exists s1. reflexivity.
    + injection ST as -> ->. injection Z as -> ->. apply IH; [exact IN|exact R].
    + discriminate.
    + exfalso. apply (N (closing k2) (close_mark_in k2 K2)). rewrite <- Z. exists s1. reflexivity.
  - remember (k :: st) as st1 eqn:ST in H. remember (@nil char) as z eqn:Z in H. assert (KK : In k ks) by (apply IN; left; reflexivity).
    destruct H as [s1|k1 st1 s1 v1 R|k1 k2 st1 s1 v1 K2 R|k1 st1 x s1 v1 N R|k1 st1|k1 k2 st1 s1 K2 NE].
    + discriminate.
    + exfalso. injection ST as -> ->. apply (no_mark_nil (closing k) (close_mark_in k KK)). exists s1. symmetry. exact Z.
    + exfalso. apply (no_mark_nil (opens k2) (open_mark_in k2 K2)). exists s1. symmetry. exact Z.
    + discriminate.
    + injection ST as -> ->. reflexivity.
    + exfalso. apply (no_mark_nil (closing k2) (close_mark_in k2 K2)). exists s1. symmetry. exact Z.
  - assert (KK : In k ks) by (apply IN; left; reflexivity). assert (SW : starts_with (closing k') (closing k' ++ s)) by (exists s; reflexivity).
    remember (k :: st) as st1 eqn:ST in H. remember (closing k' ++ s) as z eqn:Z in H. destruct H as [s1|k1 st1 s1 v1 R|k1 k2 st1 s1 v1 K2 R|k1 st1 x s1 v1 N R|k1 st1|k1 k2 st1 s1 K2 NE'].
    + discriminate.
    + exfalso. injection ST as -> ->. apply NE. apply (one_mark _ _ (closing k' ++ s) (close_mark_in k' K) (close_mark_in k KK) SW). rewrite <- Z. exists s1. reflexivity.
    + exfalso. apply (open_close k2 k' (closing k' ++ s) K2 K); [rewrite <- Z; exists s1; reflexivity|exact SW].
    + exfalso. apply (N (closing k') (close_mark_in k' K)). rewrite Z. exact SW.
    + exfalso. apply (no_mark_nil (closing k') (close_mark_in k' K)). exists s. exact Z.
    + injection ST as -> ->. rewrite Z. reflexivity.
Qed.

(** ** The rules *)

Lemma g_main : G main = Some (RuleName nm_block).
Proof. reflexivity. Qed.
Lemma g_block : G nm_block = Some (Or (map (block_of ks) ks)).
Proof. reflexivity. Qed.

Lemma block_not : forall s, (forall k, In k ks -> ~ starts_with (opens k) s) -> peg G (RuleName nm_block) s PFail.
Proof.
  intros s N. refine (peg_rule G nm_block _ s PFail g_block _). apply no_pick. intros k K. apply peg_and_stop; [|exact I]. apply peg_lit_fail. intros r E. apply (N k K). exists r. exact E.
Qed.
Lemma block_is : forall k s r, In k ks -> peg G (And [inside ks; tail k]) s r -> r <> PFail -> peg G (RuleName nm_block) (opens k ++ s) (wrap nm_block (prepend [Val (opens k)] r)).
Proof.
  intros k s r K D N. apply (peg_rule G nm_block _ _ _ g_block). destruct (in_split _ _ K) as (a & b & E).
  apply (pick G _ (block_of ks) ks a k _ b E).
  - intros x X. apply peg_and_stop; [|exact I]. apply peg_lit_fail. intros t F. assert (XK : In x ks) by (rewrite E; apply in_or_app; left; exact X).
    assert (x = k) by (apply (open_open x k (opens k ++ s) XK K); [exists t; exact F|exists s; reflexivity]). subst x.
    pose proof (proj1 (proj2 CM)) as ND. rewrite E, map_app in ND. cbn [map] in ND. apply NoDup_remove_2 in ND. apply ND. apply in_or_app. left. apply in_map. exact X.
  - exact (peg_and_cons G _ _ _ [Val (opens k)] s r (peg_lit_ok G (opens k) s) D).
  - destruct r; [discriminate|destruct (N eq_refl)|discriminate].
Qed.
Lemma plain_is : forall x s, no_mark ks (x :: s) -> peg G (plain_char ks) (x :: s) (PMatch [Val [x]] s).
Proof.
  intros x s N. refine (peg_and_cons G _ _ _ [] (x :: s) (PMatch [Val [x]] s) _ _).
  - refine (peg_not_ok G _ _ PFail _ I). apply no_pick. intros m M. apply peg_lit_fail. intros r E. apply (N m M). exists r. exact E.
  - exact (peg_and_cons G _ _ _ [Val [x]] s (PMatch [] s) (peg_dot_ok G x s) (peg_and_nil G s)).
Qed.
Lemma plain_not : forall m s, In m (marks ks) -> starts_with m s -> peg G (plain_char ks) s PFail.
Proof.
  intros m s M (r & ->). apply peg_and_stop; [|exact I]. destruct (in_split _ _ M) as (a & b & E).
  assert (X : exists m' r', peg G (Or (map lit (marks ks))) (m ++ r) (PMatch [Val m'] r')).
  { generalize (marks ks), M. intro l. induction l as [|y l IH]; intros L; [destruct L|]. destruct (starts_dec y (m ++ r)) as [(t & F)|F].
    - exists y, t. cbn [map]. apply peg_or_first; [|discriminate]. rewrite F. apply peg_lit_ok.
    - destruct L as [->|L]; [destruct F; exists r; reflexivity|]. destruct (IH L) as (m' & r' & D). exists m', r'. cbn [map]. apply peg_or_next; [|exact D]. apply peg_lit_fail. intros t T. apply F. exists t. exact T. }
  destruct X as (m' & r' & D). exact (peg_not_fail G _ _ _ _ D).
Qed.
Lemma plain_nil : peg G (plain_char ks) [] PFail.
Proof.
  refine (peg_and_cons G _ _ _ [] [] PFail _ _).
  - refine (peg_not_ok G _ _ PFail _ I). apply no_pick. intros m M. apply peg_lit_fail. intros r E. apply (no_mark_nil m M). exists r. exact E.
  - apply peg_and_stop; [apply peg_dot_fail|exact I].
Qed.

Lemma more : forall k s ts s1 r, peg G item_ s (PMatch ts s1) -> peg G (And [inside ks; tail k]) s1 r -> peg G (And [inside ks; tail k]) s (prepend ts r).
Proof.
  intros k s ts s1 r D H. inversion H as [| | | | | | | | | |e es s' us s2 r' D1 D2 E1 E2 E3|e es s' r' D1 ST E1 E2 E3| | | | | | | | | | | |]; subst.
  - replace (prepend ts (prepend us r')) with (prepend (ts ++ us) r') by (destruct r'; cbn; rewrite <- ?app_assoc; reflexivity).
    refine (peg_and_cons G _ _ _ (ts ++ us) s2 r' _ D2). exact (peg_rep_more G item_ 0 None _ ts s1 (PMatch us s2) ltac:(discriminate) D D1).
  - apply peg_and_stop; [|destruct r; [destruct ST|exact I|exact I]]. exact (peg_rep_more G item_ 0 None _ ts s1 r ltac:(discriminate) D D1).
Qed.
Lemma stop_here : forall k s, peg G (RuleName nm_block) s PFail -> peg G (plain_char ks) s PFail -> forall res, peg G (And [tail k]) s res -> peg G (And [inside ks; tail k]) s res.
Proof.
  intros k s D1 D2 res H. replace res with (prepend [] res) by (destruct res; reflexivity). refine (peg_and_cons G _ _ _ [] s res _ H).
  apply peg_rep_done; [discriminate|]. apply peg_or_next; [exact D1|]. apply peg_or_next; [exact D2|]. apply peg_or_nil.
Qed.
Lemma closes_here : forall k s, In k ks -> peg G (And [inside ks; tail k]) (closing k ++ s) (PMatch [Val (closing k)] s).
Proof.
  intros k s K. apply (stop_here k).
  - apply block_not. intros k' K' S. apply (open_close k' k _ K' K S). exists s. reflexivity.
  - apply (plain_not (closing k)); [exact (close_mark_in k K)|exists s; reflexivity].
  - refine (peg_and_cons G _ _ _ [Val (closing k)] s (PMatch [] s) _ (peg_and_nil G s)). apply peg_or_first; [apply peg_lit_ok|discriminate].
Qed.
Lemma misses_here : forall k s, peg G (RuleName nm_block) s PFail -> peg G (plain_char ks) s PFail -> ~ starts_with (closing k) s -> peg G (And [inside ks; tail k]) s (PAbort (complaint k) s).
Proof.
  intros k s D1 D2 N. apply (stop_here k); [exact D1|exact D2|]. apply peg_and_stop; [|exact I].
  apply peg_or_next; [apply peg_lit_fail; intros r E; apply N; exists r; exact E|]. apply peg_or_first; [apply peg_error|discriminate].
Qed.

(** The whole of it. *)
Lemma body_total : forall s k, In k ks ->
  (exists l rest, s = flat_map content_text l ++ closing k ++ rest /\ all_before ks (closing k ++ rest) l /\ (forall st v, runs ks st rest v -> runs ks (k :: st) s v) /\
    peg G (And [inside ks; tail k]) s (PMatch (map content_tree l ++ [Val (closing k)]) rest)) \/
  (exists j rest, In j ks /\ (forall st, runs ks (k :: st) s (Missing j rest)) /\ peg G (And [inside ks; tail k]) s (PAbort (complaint j) rest)).
Proof.
  intro s. remember (length s) as n eqn:K. assert (L : length s <= n) by lia. clear K. revert s L. induction n as [n IH] using lt_wf_ind. intros s L k K.
  destruct (starts_dec (closing k) s) as [(rest & ->)|C].
  { left. exists [], rest. split; [reflexivity|]. split; [exact I|]. split; [intros st v R; apply ru_close; exact R|]. exact (closes_here k rest K). }
  destruct (some_start (map opens ks) s) as [(m & M & (s1 & ->))|O].
  { apply in_map_iff in M. destruct M as (k' & <- & K'). pose proof (mark_pos _ (open_mark_in k' K')) as LO. rewrite app_length in L.
    destruct (IH (length s1) ltac:(lia) s1 (Nat.le_refl _) k' K') as [(l1 & r1 & E1 & B1 & R1 & D1)|(j & r1 & J & R1 & D1)].
    - assert (L1 : length r1 <= length s1) by (rewrite E1, !app_length; lia).
      assert (DI : peg G item_ (opens k' ++ s1) (PMatch [content_tree (Block k' l1)] r1)).
      { apply peg_or_first; [|discriminate]. exact (block_is k' s1 _ K' D1 ltac:(discriminate)). }
      destruct (IH (length r1) ltac:(lia) r1 (Nat.le_refl _) k K) as [(l2 & r2 & E2 & B2 & R2 & D2)|(j & r2 & J & R2 & D2)].
      + left. exists (Block k' l1 :: l2), r2. split; [|split; [|split]].
        * cbn [flat_map content_text]. rewrite E1, E2. rewrite <- !app_assoc. reflexivity.
        * cbn [all_before]. split; [|exact B2]. apply before_block. split; [exact K'|]. rewrite <- E2. exact B1.
        * intros st v R. apply ru_open; [exact K'|]. apply R1. apply R2. exact R.
        * exact (more k _ [content_tree (Block k' l1)] r1 _ DI D2).
      + right. exists j, r2. split; [exact J|]. split; [|exact (more k _ [content_tree (Block k' l1)] r1 _ DI D2)]. intro st. apply ru_open; [exact K'|]. apply R1. apply R2.
    - right. exists j, r1. split; [exact J|]. split; [intro st; apply ru_open; [exact K'|apply R1]|].
      apply peg_and_stop; [|exact I]. apply peg_rep_abort; [discriminate|]. apply peg_or_first; [|discriminate]. exact (block_is k' s1 _ K' D1 ltac:(discriminate)). }
  assert (BN : peg G (RuleName nm_block) s PFail). { apply block_not. intros k' K'. apply O. apply in_map. exact K'. }
  destruct (some_start (map closing ks) s) as [(m & M & SM)|CL].
  { right. exists k, s. apply in_map_iff in M. destruct M as (k' & <- & K'). split; [exact K|]. split.
    - intro st. destruct SM as (r & ->). apply ru_other; [exact K'|]. intro E. apply C. rewrite <- E. exists r. reflexivity.
    - apply misses_here; [exact BN| |exact C]. apply (plain_not (closing k')); [exact (close_mark_in k' K')|exact SM]. }
  assert (NM : no_mark ks s). { intros m M. apply in_app_or in M. destruct M as [M|M]; [exact (O m M)|exact (CL m M)]. }
  destruct s as [|x s].
  - right. exists k, []. split; [exact K|]. split; [intro st; apply ru_end|]. apply misses_here; [exact BN|exact plain_nil|exact C].
  - cbn [length] in L. assert (DI : peg G item_ (x :: s) (PMatch [Val [x]] s)). { apply peg_or_next; [exact BN|]. apply peg_or_first; [exact (plain_is x s NM)|discriminate]. }
    destruct (IH (length s) ltac:(lia) s (Nat.le_refl _) k K) as [(l & r & E & B & R & D)|(j & r & J & R & D)].
    + left. exists (Char x :: l), r. split; [cbn; rewrite <- E; reflexivity|]. split; [|split].
      * cbn [all_before before]. rewrite <- E. split; [exact NM|exact B].
      * intros st v H. apply ru_char; [exact NM|]. apply R. exact H.
      * exact (more k _ [Val [x]] s _ DI D).
    + right. exists j, r. split; [exact J|]. split; [intro st; apply ru_char; [exact NM|apply R]|]. exact (more k _ [Val [x]] s _ DI D).
Qed.

(** ** Trees *)

Lemma content_peg : forall i rest, before ks rest i -> peg G item_ (content_text i ++ rest) (PMatch [content_tree i] rest).
Proof.
  induction i as [x|k l IH] using content_ind'; intros rest B.
  - cbn [before] in B. apply peg_or_next; [|apply peg_or_first; [exact (plain_is x rest B)|discriminate]]. apply block_not. intros k K. apply B. exact (open_mark_in k K).
  - apply before_block in B. destruct B as [K B]. apply peg_or_first; [|discriminate]. cbn [content_text]. rewrite <- !app_assoc.
    apply (block_is k _ (PMatch (map content_tree l ++ [Val (closing k)]) rest) K); [|discriminate].
    induction l as [|i l IHl]; [exact (closes_here k rest K)|]. apply Forall_cons_iff in IH. destruct IH as [IH1 IH2]. cbn [all_before] in B. destruct B as [B1 B2].
    cbn [flat_map]. rewrite <- app_assoc. refine (more k _ [content_tree i] _ (PMatch (map content_tree l ++ [Val (closing k)]) rest) _ (IHl IH2 B2)). exact (IH1 _ B1).
Qed.
Lemma block_peg : forall k l rest, before ks rest (Block k l) -> peg G (RuleName nm_block) (content_text (Block k l) ++ rest) (PMatch [content_tree (Block k l)] rest).
Proof.
  intros k l rest B. pose proof (content_peg _ _ B) as D. apply before_block in B. destruct B as [K _]. cbn [content_text] in *. rewrite <- !app_assoc in *.
  destruct (body_total (flat_map content_text l ++ closing k ++ rest) k K) as [(l' & r' & _ & _ & _ & D')|(j & r' & _ & _ & D')].
  - pose proof (block_is k _ _ K D' ltac:(discriminate)) as D2. assert (D3 : peg G item_ (opens k ++ flat_map content_text l ++ closing k ++ rest) (PMatch [content_tree (Block k l')] r')) by (apply peg_or_first; [exact D2|discriminate]).
    pose proof (peg_det _ _ _ _ D _ D3) as E. injection E as E1 E2. subst r'. cbn [content_tree] in *. rewrite E1. exact D2.
  - pose proof (block_is k _ _ K D' ltac:(discriminate)) as D2. cbn in D2. assert (D3 : peg G item_ (opens k ++ flat_map content_text l ++ closing k ++ rest) (PAbort (complaint j) r')) by (apply peg_or_first; [exact D2|discriminate]).
    pose proof (peg_det _ _ _ _ D _ D3). discriminate.
Qed.

Lemma block_total : forall s,
  (exists k l rest, s = content_text (Block k l) ++ rest /\ before ks rest (Block k l) /\ (exists body, s = opens k ++ body /\ In k ks /\ runs ks [k] body (Closed rest)) /\ peg G (RuleName nm_block) s (PMatch [content_tree (Block k l)] rest)) \/
  (exists k body j rest, s = opens k ++ body /\ In k ks /\ runs ks [k] body (Missing j rest) /\ peg G (RuleName nm_block) s (PAbort (complaint j) rest)) \/
  ((forall k, In k ks -> ~ starts_with (opens k) s) /\ peg G (RuleName nm_block) s PFail).
Proof.
  intro s. destruct (some_start (map opens ks) s) as [(m & M & (b & ->))|O].
  - apply in_map_iff in M. destruct M as (k & <- & K). destruct (body_total b k K) as [(l & r & E & B & R & D)|(j & r & J & R & D)].
    + left. exists k, l, r. split; [cbn [content_text]; rewrite E, <- !app_assoc; reflexivity|]. split; [apply before_block; split; assumption|]. split.
      * exists b. split; [reflexivity|]. split; [exact K|]. apply R. apply ru_done.
      * exact (block_is k b _ K D ltac:(discriminate)).
    + right. left. exists k, b, j, r. split; [reflexivity|]. split; [exact K|]. split; [apply R|]. exact (block_is k b _ K D ltac:(discriminate)).
  - right. right. assert (N : forall k, In k ks -> ~ starts_with (opens k) s) by (intros k K; apply O; apply in_map; exact K). split; [exact N|]. exact (block_not s N).
Qed.

(** ** What [parse] makes of it *)

Lemma blocks_sane : sane_rules (block_rules ks).
Proof.
  apply sane_rules_all. unfold block_rules, rules_macro. constructor; [|constructor; [exact I|constructor]].
  cbn [snd]. apply sane_list. apply Forall_forall. intros e E. apply in_map_iff in E. destruct E as (k & <- & K).
  assert (X : sane (plain_char ks)). { cbn. split; [|split; exact I]. apply sane_list. apply Forall_forall. intros y Y. apply in_map_iff in Y. destruct Y as (m & <- & M). exact I. }
  cbn in X |- *. tauto.
Qed.
Lemma main_of : forall s r, peg G (RuleName nm_block) s r -> peg_main (block_rules ks) s (wrap main r).
Proof. intros s r D. exact (peg_rule G main _ s r g_main D). Qed.

Lemma blocks_tree : forall s debug, ascii s -> forall ast, (exists fuel, parse_with_debug fuel s (block_rules ks) debug = Ok ast) <->
  exists k l, s = content_text (Block k l) /\ before ks [] (Block k l) /\ ast = Rule main [content_tree (Block k l)].
Proof.
  intros s debug A ast. rewrite (parse_accepts_iff s _ debug blocks_sane A ast). split.
  - intro D. destruct (block_total s) as [(k & l & rest & E & B & _ & D')|[(k & b & j & rest & _ & _ & _ & D')|[_ D']]]; pose proof (peg_det _ _ _ _ D _ (main_of _ _ D')) as X; try discriminate.
    cbn in X. injection X as -> <-. exists k, l. rewrite app_nil_r in E. split; [exact E|]. split; [exact B|reflexivity].
  - intros (k & l & -> & B & ->). pose proof (block_peg k l [] B) as D. rewrite app_nil_r in D. exact (main_of _ _ D).
Qed.
Lemma blocks_accepts : forall s debug, ascii s -> (exists fuel ast, parse_with_debug fuel s (block_rules ks) debug = Ok ast) <->
  exists k body, In k ks /\ s = opens k ++ body /\ runs ks [k] body (Closed []).
Proof.
  intros s debug A. split.
  - intros (fuel & ast & E). pose proof (proj1 (parse_accepts_iff s _ debug blocks_sane A ast) (ex_intro _ fuel E)) as D.
    destruct (block_total s) as [(k & l & rest & _ & _ & (b & EB & K & R) & D')|[(k & b & j & rest & _ & _ & _ & D')|[_ D']]]; pose proof (peg_det _ _ _ _ D _ (main_of _ _ D')) as X; try discriminate.
    cbn in X. injection X as -> <-. exists k, b. repeat split; assumption.
  - intros (k & b & K & -> & R). destruct (block_total (opens k ++ b)) as [(k' & l & rest & _ & _ & (b' & EB & K' & R') & D')|[(k' & b' & j & rest & EB & K' & R' & D')|[N _]]].
    + assert (k = k') by (apply (open_open k k' (opens k ++ b) K K'); [exists b; reflexivity|exists b'; exact EB]). subst k'. apply app_inv_head in EB. subst b'.
      assert (IN : forall x, In x [k] -> In x ks) by (intros x [<-|[]]; exact K).
      pose proof (runs_det _ _ _ R IN _ R') as X. injection X as <-. destruct (proj2 (parse_accepts_iff (opens k ++ b) _ debug blocks_sane A _) (main_of _ _ D')) as [fuel F]. exists fuel. eexists. exact F.
    + exfalso. assert (k = k') by (apply (open_open k k' (opens k ++ b) K K'); [exists b; reflexivity|exists b'; exact EB]). subst k'. apply app_inv_head in EB. subst b'.
      assert (IN : forall x, In x [k] -> In x ks) by (intros x [<-|[]]; exact K). pose proof (runs_det _ _ _ R IN _ R'). discriminate.
    + exfalso. apply (N k K). exists b. reflexivity.
Qed.
Lemma blocks_message : forall s, ascii s -> forall m n,
  complains (block_rules ks) s m n <->
  exists k body j rest, In k ks /\ s = opens k ++ body /\ runs ks [k] body (Missing j rest) /\ m = complaint j /\ n + length rest = length s.
Proof.
  intros s A m n. unfold complains. rewrite (parse_abort_iff s _ m n blocks_sane A). split.
  - intros (rest & D & L). destruct (block_total s) as [(k & l & rest' & _ & _ & (b & EB & K & R) & D')|[(k & b & j & rest' & E & K & R & D')|[_ D']]]; pose proof (peg_det _ _ _ _ D _ (main_of _ _ D')) as X; try discriminate.
    cbn in X. injection X as -> <-. exists k, b, j, rest. repeat split; assumption.
  - intros (k & b & j & rest & K & -> & R & -> & L). exists rest. split; [|exact L].
    destruct (block_total (opens k ++ b)) as [(k' & l & rest' & _ & _ & (b' & EB & K' & R') & D')|[(k' & b' & j' & rest' & EB & K' & R' & D')|[N _]]].
    + exfalso. assert (k = k') by (apply (open_open k k' (opens k ++ b) K K'); [exists b; reflexivity|exists b'; exact EB]). subst k'. apply app_inv_head in EB. subst b'.
      assert (IN : forall x, In x [k] -> In x ks) by (intros x [<-|[]]; exact K). pose proof (runs_det _ _ _ R IN _ R'). discriminate.
    + assert (k = k') by (apply (open_open k k' (opens k ++ b) K K'); [exists b; reflexivity|exists b'; exact EB]). subst k'. apply app_inv_head in EB. subst b'.
      assert (IN : forall x, In x [k] -> In x ks) by (intros x [<-|[]]; exact K). pose proof (runs_det _ _ _ R IN _ R') as X. injection X as <- <-. exact (main_of _ _ D').
    + exfalso. apply (N k K). exists b. reflexivity.
Qed.
Lemma blocks_finish : forall s debug, ascii s -> exists fuel, parse_with_debug fuel s (block_rules ks) debug <> Fuel.
Proof.
  intros s debug A. apply (parse_terminates_iff s _ debug blocks_sane A).
  destruct (block_total s) as [(k & l & rest' & _ & _ & _ & D')|[(k & b & j & rest' & _ & _ & _ & D')|[_ D']]]; eexists; exact (main_of _ _ D').
Qed.
(** The only plain errors: no block at the start, or text after the block. *)
Lemma blocks_plain_error : forall s debug, ascii s ->
  (exists fuel er, parse_with_debug fuel s (block_rules ks) debug = Err er /\ e_priority er = Normal) <->
  (forall k, In k ks -> ~ starts_with (opens k) s) \/ (exists k body rest, In k ks /\ s = opens k ++ body /\ runs ks [k] body (Closed rest) /\ rest <> []).
Proof.
  intros s debug A. split.
  - intros (fuel & er & E & P). pose proof (parse_sound fuel s _ debug blocks_sane) as X. rewrite E, P in X. destruct X as [_ X].
    destruct (block_total s) as [(k & l & rest & _ & _ & (b & EB & K & R) & D)|[(k & b & j & rest & _ & _ & _ & D)|[N D]]]; [right|exfalso|left; exact N].
    + exists k, b, rest. split; [exact K|]. split; [exact EB|]. split; [exact R|]. destruct X as [X|(ts & r & X & [Y|Y])]; [|..|destruct (Y A)]; pose proof (peg_det _ _ _ _ X _ (main_of _ _ D)) as Z; [discriminate|].
      injection Z as _ ->. exact Y.
    + destruct X as [X|(ts & r & X & _)]; pose proof (peg_det _ _ _ _ X _ (main_of _ _ D)); discriminate.
  - intro H. destruct (blocks_finish s debug A) as [fuel F]. exists fuel. pose proof (parse_sound fuel s _ debug blocks_sane) as X.
    destruct (block_total s) as [(k & l & rest & _ & _ & (b & EB & K & R) & D)|[(k & b & j & rest & EB & K & R & D)|[N D]]].
    + assert (RN : rest <> []).
      { destruct H as [H|(k' & b' & rest' & K' & EB' & R' & RN)]; [destruct (H k K); exists b; exact EB|].
        assert (k = k') by (apply (open_open k k' s K K'); [exists b; exact EB|exists b'; exact EB']). subst k'. rewrite EB in EB'. apply app_inv_head in EB'. subst b'.
        assert (IN : forall x, In x [k] -> In x ks) by (intros x [<-|[]]; exact K). pose proof (runs_det _ _ _ R IN _ R') as Y. injection Y as ->. exact RN. }
      destruct (parse_with_debug fuel s (block_rules ks) debug) as [t|er| |]; [| |destruct (X A)|destruct (F eq_refl)].
      * destruct X as [_ X]. pose proof (peg_det _ _ _ _ X _ (main_of _ _ D)) as Z. injection Z as _ Z. subst rest. destruct (RN eq_refl).
      * exists er. split; [reflexivity|]. destruct (e_priority er); [reflexivity|]. destruct X as [_ (r & X & _)]. pose proof (peg_det _ _ _ _ X _ (main_of _ _ D)). discriminate.
    + exfalso. destruct H as [H|(k' & b' & rest' & K' & EB' & R' & RN)]; [destruct (H k K); exists b; exact EB|].
      assert (k = k') by (apply (open_open k k' s K K'); [exists b; exact EB|exists b'; exact EB']). subst k'. rewrite EB in EB'. apply app_inv_head in EB'. subst b'.
      assert (IN : forall x, In x [k] -> In x ks) by (intros x [<-|[]]; exact K). pose proof (runs_det _ _ _ R IN _ R'). discriminate.
    + destruct (parse_with_debug fuel s (block_rules ks) debug) as [t|er| |]; [| |destruct (X A)|destruct (F eq_refl)].
      * destruct X as [_ X]. pose proof (peg_det _ _ _ _ X _ (main_of _ _ D)). discriminate.
      * exists er. split; [reflexivity|]. destruct (e_priority er); [reflexivity|]. destruct X as [_ (r & X & _)]. pose proof (peg_det _ _ _ _ X _ (main_of _ _ D)). discriminate.
Qed.
(** Every text has its verdict. *)
Lemma runs_total : forall k s, In k ks -> exists v, runs ks [k] s v.
Proof.
  intros k s K. destruct (body_total s k K) as [(l & r & _ & _ & R & _)|(j & r & _ & R & _)]; eexists; [apply R; apply ru_done|apply R].
Qed.

(** ** Calls *)

Notation run := (costs G).
Notation n_ := (length ks).
Notation c_ := (20 + 8 * length ks).

Lemma q_lit : forall l s, run (lit l) (l ++ s) (OM s) 1.
Proof. intros l s. eapply c_match. apply peg_lit_ok. Qed.
Lemma q_nolit : forall l s, ~ starts_with l s -> run (lit l) s OF 1.
Proof. intros l s N. apply c_fail, peg_lit_fail. intros r E. apply N. exists r. exact E. Qed.
Lemma q_lits : forall l s, exists o k, costs_or G (map lit l) s o k /\ k <= length l /\ ((exists r, o = OM r /\ exists m, In m l /\ starts_with m s) \/ (o = OF /\ forall m, In m l -> ~ starts_with m s)).
Proof.
  induction l as [|m l IH]; intro s; cbn [map].
  - exists OF, 0. split; [apply co_nil|]. split; [lia|]. right. split; [reflexivity|]. intros m [].
  - destruct (starts_dec m s) as [(r & ->)|N].
    + exists (OM r), 1. split; [apply co_match, q_lit|]. split; [cbn; lia|]. left. exists r. split; [reflexivity|]. exists m. split; [left; reflexivity|exists r; reflexivity].
    + destruct (IH s) as (o & k & K & L & H). exists o, (1 + k). split; [eapply co_next; [exact (q_nolit m s N)|exact K]|]. split; [cbn; lia|].
      destruct H as [(r & -> & m' & M & SW)|[-> H]]; [left; exists r; split; [reflexivity|]; exists m'; split; [right; exact M|exact SW]|].
      right. split; [reflexivity|]. intros m' [<-|M]; [exact N|exact (H m' M)].
Qed.
Lemma marks_length : length (marks ks) = 2 * n_.
Proof. unfold marks. rewrite app_length, !map_length. lia. Qed.
Lemma q_plain : forall x s, no_mark ks (x :: s) -> exists k, run (plain_char ks) (x :: s) (OM s) k /\ k <= 4 + 2 * n_.
Proof.
  intros x s N. destruct (q_lits (marks ks) (x :: s)) as (o & k & K & L & [(r & -> & m & M & SW)|[-> _]]); [destruct (N m M SW)|]. rewrite marks_length in L.
  exists (S (S (S k) + (1 + 0))). split; [|lia]. apply c_and. eapply ca_cons; [eapply c_not_ok; [apply c_or; exact K|left; reflexivity]|]. eapply ca_cons; [eapply c_match; apply peg_dot_ok|apply ca_nil].
Qed.
Lemma q_noplain : forall s, s = [] \/ (exists m, In m (marks ks) /\ starts_with m s) -> exists k, run (plain_char ks) s OF k /\ k <= 4 + 2 * n_.
Proof.
  intros s H. destruct (q_lits (marks ks) s) as (o & k & K & L & [(r & -> & _)|[-> N]]); rewrite marks_length in L.
  - exists (S (S (S k))). split; [|lia]. apply c_and, ca_fail. eapply c_not_fail. apply c_or. exact K.
  - destruct H as [->|(m & M & SW)]; [|destruct (N m M SW)]. exists (S (S (S k) + 1)). split; [|lia].
    apply c_and. eapply ca_cons; [eapply c_not_ok; [apply c_or; exact K|left; reflexivity]|]. apply ca_fail. apply c_fail, peg_dot_fail.
Qed.
Lemma q_noblocks : forall l s, (forall k, In k l -> ~ starts_with (opens k) s) -> costs_or G (map (block_of ks) l) s OF (2 * length l).
Proof.
  induction l as [|k l IH]; intros s N; cbn [map length]; [apply co_nil|]. replace (2 * S (length l)) with (S 1 + 2 * length l) by lia. eapply co_next.
  - apply c_and, ca_fail. apply q_nolit. apply N. left. reflexivity.
  - apply IH. intros k' K'. apply N. right. exact K'.
Qed.
Lemma q_noblock : forall s, (forall k, In k ks -> ~ starts_with (opens k) s) -> run (RuleName nm_block) s OF (2 + 2 * n_).
Proof. intros s N. eapply c_rule; [exact g_block|]. apply c_or. exact (q_noblocks ks s N). Qed.
Lemma q_block : forall k s o c, In k ks -> costs_and G [inside ks; tail k] s o c -> (exists r, o = OM r) \/ o = OA -> exists c', run (RuleName nm_block) (opens k ++ s) o c' /\ c' <= 4 + 2 * n_ + c.
Proof.
  intros k s o c K C O. assert (X : forall l, incl l ks -> In k l -> exists c', costs_or G (map (block_of ks) l) (opens k ++ s) o c' /\ c' <= 2 * length l + c).
  { induction l as [|k1 l IH]; intros I1 L; [destruct L|]. cbn [map length]. destruct (starts_dec (opens k1) (opens k ++ s)) as [SW|N].
    - assert (k1 = k) by (apply (open_open k1 k _ (I1 k1 (or_introl eq_refl)) K SW); exists s; reflexivity). subst k1. exists (S (1 + c)). split; [|lia].
      assert (Y : run (block_of ks k) (opens k ++ s) o (S (1 + c))) by (apply c_and; eapply ca_cons; [apply q_lit|exact C]).
      destruct O as [[r ->]| ->]; [apply co_match; exact Y|apply co_halt; [exact Y|left; reflexivity]].
    - destruct L as [->|L]; [destruct N; exists s; reflexivity|]. destruct (IH (fun x X => I1 x (or_intror X)) L) as (c' & C' & B). exists (2 + c'). split; [|lia].
      eapply co_next; [|exact C']. apply c_and, ca_fail. apply q_nolit. exact N. }
  destruct (X ks (incl_refl _) K) as (c' & C' & B). exists (S (S c')). split; [|lia]. eapply c_rule; [exact g_block|]. apply c_or. exact C'.
Qed.
Lemma q_more : forall k s s1 o a b, run item_ s (OM s1) a -> costs_and G [inside ks; tail k] s1 o b -> o <> OC -> costs_and G [inside ks; tail k] s o (a + b).
Proof.
  intros k s s1 o a b A B N. inversion B as [|e es s' s2 o' k1 k2 C1 C2|e es s' k1 C1|e es s' o' k1 C1 H]; subst.
  - inversion C1; subst. replace (a + (S k0 + k2)) with (S (a + k0) + k2) by lia. eapply ca_cons; [|exact C2]. apply c_rep. eapply cr_more; [discriminate|exact A|assumption].
  - inversion C1; subst. replace (a + S k0) with (S (a + k0)) by lia. apply ca_fail. apply c_rep. eapply cr_more; [discriminate|exact A|assumption].
  - inversion C1; subst; [destruct (N eq_refl)|]. replace (a + S k0) with (S (a + k0)) by lia. apply ca_halt; [|exact H]. apply c_rep. eapply cr_more; [discriminate|exact A|assumption].
Qed.
Lemma q_none : forall k s, (forall k, In k ks -> ~ starts_with (opens k) s) -> s = [] \/ (exists m, In m (marks ks) /\ starts_with m s) ->
  forall o c, costs_and G [tail k] s o c -> exists c', costs_and G [inside ks; tail k] s o c' /\ c' <= 8 + 4 * n_ + c.
Proof.
  intros k s N H o c C. destruct (q_noplain s H) as (a & A & LA). exists (S (S ((2 + 2 * n_) + (a + 0))) + c). split; [|lia].
  eapply ca_cons; [|exact C]. apply c_rep, cr_done. apply c_or. eapply co_next; [exact (q_noblock s N)|]. eapply co_next; [exact A|apply co_nil].
Qed.
Lemma q_body : forall s k, In k ks -> exists o c, costs_and G [inside ks; tail k] s o c /\
  ((exists r, o = OM r /\ c + c_ * length r <= c_ * length s /\ length r < length s) \/ (o = OA /\ c <= c_ * length s + c_)).
Proof.
  intro s. remember (length s) as n eqn:K. assert (L : length s <= n) by lia.
  revert K. intros _.
  assert (Y : forall k, In k ks -> exists o c, costs_and G [inside ks; tail k] s o c /\
    ((exists r, o = OM r /\ c + c_ * length r <= c_ * length s /\ length r < length s) \/ (o = OA /\ c <= c_ * length s + c_))).
  2:{ intros k KK. destruct (Y k KK) as (o & c & C & [(r & -> & B1 & B2)|[-> B]]); eexists; exists c; (split; [exact C|]); [left; exists r; split; [reflexivity|]; split; nia|right; split; [reflexivity|nia]]. }
  revert s L. induction n as [n IH] using lt_wf_ind. intros s L k K.
  destruct (starts_dec (closing k) s) as [(rest & ->)|C].
  { pose proof (mark_pos _ (close_mark_in k K)). destruct (q_none k (closing k ++ rest)) with (o := OM rest) (c := S 1 + 0) as (c' & C' & B).
    - intros k' K' SW. apply (open_close k' k _ K' K SW). exists rest. reflexivity.
    - right. exists (closing k). split; [exact (close_mark_in k K)|exists rest; reflexivity].
    - eapply ca_cons; [apply c_or, co_match, q_lit|apply ca_nil].
    - exists (OM rest), c'. split; [exact C'|]. left. exists rest. rewrite app_length. split; [reflexivity|]. split; nia. }
  destruct (some_start (map opens ks) s) as [(m & M & (s1 & ->))|O].
  { apply in_map_iff in M. destruct M as (k' & <- & K'). pose proof (mark_pos _ (open_mark_in k' K')) as LO. rewrite app_length in L.
    destruct (IH (length s1) ltac:(lia) s1 (Nat.le_refl _) k' K') as (o1 & c1 & C1 & [(r1 & -> & B1 & L1)|[-> B1]]).
    - destruct (q_block k' s1 _ _ K' C1) as (c1' & C1' & B1'); [left; eexists; reflexivity|].
      destruct (IH (length r1) ltac:(lia) r1 (Nat.le_refl _) k K) as (o2 & c2 & C2 & H2). exists o2, (S c1' + c2). split.
      + eapply q_more; [apply c_or, co_match; exact C1'|exact C2|]. destruct H2 as [(r & -> & _)|[-> _]]; discriminate.
      + rewrite app_length. destruct H2 as [(r & -> & B2 & L2)|[-> B2]]; [left; exists r; split; [reflexivity|]; split; nia|right; split; [reflexivity|nia]].
    - destruct (q_block k' s1 _ _ K' C1) as (c1' & C1' & B1'); [right; reflexivity|]. exists OA, (S (S c1')). split.
      + apply ca_halt; [|left; reflexivity]. apply c_rep, cr_halt; [|left; reflexivity]. apply c_or, co_halt; [exact C1'|left; reflexivity].
      + right. split; [reflexivity|]. rewrite app_length. nia. }
  assert (NB : forall k, In k ks -> ~ starts_with (opens k) s) by (intros k' K'; apply O; apply in_map; exact K').
  destruct (some_start (map closing ks) s) as [(m & M & SM)|CL]; [|destruct s as [|x s]].
  - destruct (q_none k s NB) with (o := OA) (c := S (1 + 1)) as (c' & C' & B).
    + right. exists m. split; [apply in_or_app; right; exact M|exact SM].
    + apply ca_halt; [|left; reflexivity]. apply c_or. eapply co_next; [exact (q_nolit _ _ C)|]. apply co_halt; [eapply c_abort; apply peg_error|left; reflexivity].
    + exists OA, c'. split; [exact C'|]. right. split; [reflexivity|nia].
  - destruct (q_none k [] NB) with (o := OA) (c := S (1 + 1)) as (c' & C' & B).
    + left. reflexivity.
    + apply ca_halt; [|left; reflexivity]. apply c_or. eapply co_next; [exact (q_nolit _ _ C)|]. apply co_halt; [eapply c_abort; apply peg_error|left; reflexivity].
    + exists OA, c'. split; [exact C'|]. right. split; [reflexivity|nia].
  - assert (NM : no_mark ks (x :: s)). { intros m M. apply in_app_or in M. destruct M as [M|M]; [exact (O m M)|exact (CL m M)]. }
    cbn [length] in *. destruct (q_plain x s NM) as (a & A & LA). destruct (IH (length s) ltac:(lia) s (Nat.le_refl _) k K) as (o2 & c2 & C2 & H2).
    exists o2, (S ((2 + 2 * n_) + a) + c2). split.
    + eapply q_more; [apply c_or; eapply co_next; [exact (q_noblock _ NB)|]; apply co_match; exact A|exact C2|]. destruct H2 as [(r & -> & _)|[-> _]]; discriminate.
    + destruct H2 as [(r & -> & B2 & L2)|[-> B2]]; [left; exists r; split; [reflexivity|]; split; nia|right; split; [reflexivity|nia]].
Qed.
Lemma blocks_calls : forall s fuel debug, ascii s -> parse_with_debug fuel s (block_rules ks) debug <> Fuel -> parse_calls fuel s (block_rules ks) debug <= (20 + 8 * length ks) * (length s + 1).
Proof.
  intros s fuel debug A N.
  assert (Y : exists o c, run (RuleName main) s o c /\ o <> OC /\ c <= c_ * (length s + 1)).
  { destruct (some_start (map opens ks) s) as [(m & M & (b & ->))|O].
    - apply in_map_iff in M. destruct M as (k & <- & K). pose proof (mark_pos _ (open_mark_in k K)) as LO. rewrite app_length.
      destruct (q_body b k K) as (o & c & C & H). destruct (q_block k b o c K C) as (c' & C' & B); [destruct H as [(r & -> & _)|[-> _]]; [left; eexists; reflexivity|right; reflexivity]|].
      exists o, (S c'). split; [eapply c_rule; [exact g_main|exact C']|]. destruct H as [(r & -> & B1 & _)|[-> B1]]; (split; [discriminate|nia]).
    - exists OF. eexists. split; [eapply c_rule; [exact g_main|apply q_noblock]|split; [discriminate|nia]]. intros k K. apply O. apply in_map. exact K. }
  destruct Y as (o & c & C & NC & L). pose proof (parse_calls_run _ _ _ _ _ _ blocks_sane A N C NC). lia.
Qed.
End Marks.
