(** Proofs: an automaton as rules without recursion, and as a regular expression. *)
From Verif Require Import Base ModelAst ModelParser SpecPeg SpecPos SpecApi SpecWf SpecLoops SpecPower SpecRegex SpecSpeed SpecRegular SpecLang.
From Verif Require Import ProofAst ProofParser ProofEngine ProofApi ProofWf ProofBnf PegTools ProofLoops ProofPower ProofSpeed ProofDocs ProofFinite.

Lemma shorter_ind : forall P : str -> Prop, (forall s, (forall t, length t < length s -> P t) -> P s) -> forall s, P s.
Proof.
  intros P H s. enough (X : forall n s, length s < n -> P s) by exact (X (S (length s)) s (le_n _)).
  induction n as [|n IH]; intros t L; [lia|]. apply H. intros u Lu. apply IH. lia.
Qed.

Section Flat.
Variable M : automaton.
Hypothesis CM : closed M.
Hypothesis DM : deterministic M.

Definition delta (i : nat) (c : char) : option nat := option_map snd (find (fun p => N.eqb (fst p) c) (steps_of M i)).

Lemma steps_nodup : forall i, NoDup (map fst (steps_of M i)).
Proof.
  intro i. unfold steps_of. destruct (nth_error M i) as [[a steps]|] eqn:E; [|constructor]. exact (DM a steps (nth_error_In M i E)).
Qed.

Lemma delta_in : forall i c j, In (c, j) (steps_of M i) <-> delta i c = Some j.
Proof.
  intros i c j. unfold delta. generalize (steps_nodup i). induction (steps_of M i) as [|[c' j'] l IH]; cbn; intro N; [split; [intros []|discriminate]|].
  inversion N as [|x y NI N']; subst. destruct (N.eqb_spec c' c) as [->|D]; cbn.
  - split; [|intro E; injection E as ->; left; reflexivity]. intros [E|I]; [injection E as ->; reflexivity|]. destruct NI. apply in_map_iff. exists (c, j). split; [reflexivity|exact I].
  - rewrite <- (IH N'). split; [intros [E|I]; [injection E as E _; congruence|exact I]|auto].
Qed.

Lemma delta_bound : forall i c j, delta i c = Some j -> j < length M.
Proof.
  intros i c j D. apply delta_in in D. unfold steps_of in D. destruct (nth_error M i) as [[a steps]|] eqn:E; [|destruct D]. exact (proj2 CM a steps c j (nth_error_In M i E) D).
Qed.

Lemma step_chars_in : forall i j c, In c (step_chars M i j) <-> delta i c = Some j.
Proof.
  intros i j c. rewrite <- delta_in. unfold step_chars. rewrite in_map_iff. split.
  - intros ([c' j'] & E & I). apply filter_In in I. destruct I as [I J]. cbn in E, J. apply Nat.eqb_eq in J. subst. exact I.
  - intro I. exists (c, j). split; [reflexivity|]. apply filter_In. split; [exact I|apply Nat.eqb_refl].
Qed.

(** The first state from [k] on, after [i], and what is left of the text. *)
Fixpoint firstgo (k i : nat) (s : str) : option (nat * str) :=
  match s with
  | [] => None
  | c :: t => match delta i c with None => None | Some j => if j <? k then firstgo k j t else Some (j, t) end
  end.

(** The text leads from [i] to an end, with no state from [k] on after [i]. *)
Fixpoint stays (k i : nat) (s : str) : bool :=
  match s with
  | [] => ends_at M i
  | c :: t => match delta i c with None => false | Some j => if j <? k then stays k j t else false end
  end.

Lemma firstgo_short : forall k s i j t, firstgo k i s = Some (j, t) -> length t < length s.
Proof.
  intros k. induction s as [|c s IH]; intros i j t E; [discriminate|]. cbn [firstgo] in E. destruct (delta i c) as [x|]; [|discriminate]. cbn [length].
  destruct (x <? k); [specialize (IH x j t E); lia|injection E as _ <-; lia].
Qed.

Lemma firstgo_above : forall k s i j t, firstgo k i s = Some (j, t) -> k <= j.
Proof.
  intros k. induction s as [|c s IH]; intros i j t E; [discriminate|]. cbn [firstgo] in E. destruct (delta i c) as [x|]; [|discriminate].
  destruct (Nat.ltb_spec x k); [exact (IH x j t E)|]. injection E as <- _. assumption.
Qed.

Lemma firstgo_S : forall k s i, firstgo (S k) i s = match firstgo k i s with Some (j, t) => if j =? k then firstgo (S k) k t else Some (j, t) | None => None end.
Proof.
  intros k. induction s as [|c s IH]; intro i; [reflexivity|]. cbn [firstgo]. destruct (delta i c) as [j|]; [|reflexivity].
  destruct (Nat.ltb_spec j k), (Nat.ltb_spec j (S k)); try lia; [apply IH| |].
  - assert (j = k) by lia. subst. rewrite Nat.eqb_refl. reflexivity.
  - rewrite (proj2 (Nat.eqb_neq j k)) by lia. reflexivity.
Qed.

Lemma stays_S : forall k s i, stays (S k) i s = (stays k i s || match firstgo k i s with Some (j, t) => (j =? k) && stays (S k) k t | None => false end)%bool.
Proof.
  intros k. induction s as [|c s IH]; intro i; cbn [stays firstgo]; [rewrite orb_false_r; reflexivity|]. destruct (delta i c) as [j|]; [|reflexivity].
  destruct (Nat.ltb_spec j k), (Nat.ltb_spec j (S k)); try lia; [apply IH| |].
  - assert (j = k) by lia. subst. rewrite Nat.eqb_refl. reflexivity.
  - rewrite (proj2 (Nat.eqb_neq j k)) by lia. reflexivity.
Qed.

Lemma stays_or_goes : forall k s i, firstgo k i s <> None -> stays k i s = false.
Proof.
  intros k. induction s as [|c s IH]; intros i N; [destruct N; reflexivity|]. cbn [firstgo stays app] in *. destruct (delta i c) as [j|]; [|reflexivity]. destruct (j <? k); [exact (IH j N)|reflexivity].
Qed.

Lemma stays_all : forall s i, stays (length M) i s = true <-> runs M i s.
Proof.
  induction s as [|c s IH]; intro i; cbn [stays]; [symmetry; apply runs_end_iff|]. rewrite runs_step_iff. destruct (delta i c) as [j|] eqn:D.
  - rewrite (proj2 (Nat.ltb_lt j (length M)) (delta_bound i c j D)), IH. split; [intro R; exists j; split; [apply delta_in, D|exact R]|].
    intros (q' & I & R). apply delta_in in I. congruence.
  - split; [discriminate|]. intros (q' & I & R). apply delta_in in I. congruence.
Qed.

(** Where a loop at [k] stops. *)
Fixpoint turns (n k : nat) (s : str) : str :=
  match n with 0 => s | S m => match firstgo k k s with Some (j, t) => if j =? k then turns m k t else s | None => s end end.
Definition loops (k : nat) (s : str) : str := turns (length s) k s.

Lemma turns_enough : forall k n s, length s <= n -> turns n k s = loops k s.
Proof.
  intros k n s. revert s n. apply (shorter_ind (fun s => forall n, length s <= n -> turns n k s = loops k s)). unfold loops. intros s IH n L.
  destruct s as [|c s]; [destruct n; reflexivity|]. destruct n as [|n]; cbn [length] in L; [lia|]. cbn [length turns]. destruct (firstgo k k (c :: s)) as [[j t]|] eqn:E; [|reflexivity].
  destruct (j =? k); [|reflexivity]. pose proof (firstgo_short k _ k j t E) as Lt. cbn [length] in Lt.
  assert (X : length t < length (c :: s)) by (cbn; lia). rewrite (IH t X n ltac:(lia)), (IH t X (length s) ltac:(lia)). reflexivity.
Qed.

Lemma loops_step : forall k s, loops k s = match firstgo k k s with Some (j, t) => if j =? k then loops k t else s | None => s end.
Proof.
  intros k [|c s]; [reflexivity|]. unfold loops at 1. cbn [length turns]. destruct (firstgo k k (c :: s)) as [[j t]|] eqn:E; [|reflexivity]. destruct (j =? k); [|reflexivity].
  pose proof (firstgo_short k _ k j t E) as Lt. cbn [length] in Lt. apply turns_enough. lia.
Qed.

Lemma loops_ind : forall k (P : str -> Prop), (forall s, (forall t, firstgo k k s = Some (k, t) -> P t) -> P s) -> forall s, P s.
Proof.
  intros k P H. apply shorter_ind. intros s IH. apply H. intros t E. apply IH. exact (firstgo_short k s k k t E).
Qed.

Lemma loops_out : forall k s t, firstgo k k (loops k s) <> Some (k, t).
Proof.
  intros k s t. revert s. apply (loops_ind k). intros s IH. rewrite loops_step. destruct (firstgo k k s) as [[j u]|] eqn:E; [|congruence].
  destruct (Nat.eqb_spec j k) as [->|N]; [exact (IH u eq_refl)|congruence].
Qed.

Lemma loops_go : forall k s, firstgo (S k) k s = firstgo k k (loops k s).
Proof.
  intro k. apply (loops_ind k). intros s IH. rewrite firstgo_S, loops_step. destruct (firstgo k k s) as [[j u]|] eqn:E; [|congruence].
  destruct (Nat.eqb_spec j k) as [->|N]; [exact (IH u eq_refl)|congruence].
Qed.

Lemma loops_stay : forall k s, stays (S k) k s = stays k k (loops k s).
Proof.
  intro k. apply (loops_ind k). intros s IH. rewrite stays_S, loops_step. destruct (firstgo k k s) as [[j u]|] eqn:E; [|apply orb_false_r].
  rewrite (stays_or_goes k s k) by congruence. destruct (Nat.eqb_spec j k) as [->|N]; [exact (IH u eq_refl)|]. cbn. rewrite (stays_or_goes k s k) by congruence. reflexivity.
Qed.

Section Peg.
Variable G : str -> option expr.

Definition passes (k i j : nat) : Prop := forall s,
  match firstgo k i s with Some (j', t) => if j' =? j then exists ts, peg G (passing M k i j) s (PMatch ts t) else peg G (passing M k i j) s PFail
  | None => peg G (passing M k i j) s PFail end.

Lemma loop_peg : forall k, passes k k k -> forall s, exists ts, peg G (rep0 (passing M k k k) 0) s (PMatch ts (loops k s)).
Proof.
  intros k H. apply (loops_ind k). intros s IH. rewrite loops_step. specialize (H s). destruct (firstgo k k s) as [[j u]|] eqn:E.
  - destruct (Nat.eqb_spec j k) as [->|N].
    + destruct H as [ts P]. destruct (IH u eq_refl) as [us P']. exists (ts ++ us). exact (peg_rep_more G _ 0 None s ts u _ ltac:(discriminate) P P').
    + exists []. apply peg_rep_done; [discriminate|exact H].
  - exists []. apply peg_rep_done; [discriminate|exact H].
Qed.

Lemma and3 : forall k i e s, passes k i k -> passes k k k ->
  match firstgo k i s with
  | Some (j, t) => if j =? k then exists ts, forall r, peg G e (loops k t) r -> peg G (And [passing M k i k; rep0 (passing M k k k) 0; e]) s (prepend ts r)
                   else peg G (And [passing M k i k; rep0 (passing M k k k) 0; e]) s PFail
  | None => peg G (And [passing M k i k; rep0 (passing M k k k) 0; e]) s PFail
  end.
Proof.
  intros k i e s H1 H2. specialize (H1 s). destruct (firstgo k i s) as [[j t]|]; [|apply peg_and_stop; [exact H1|exact I]].
  destruct (j =? k); [|apply peg_and_stop; [exact H1|exact I]]. destruct H1 as [ts P1]. destruct (loop_peg k H2 t) as [us P2]. exists (ts ++ us). intros r P3.
  assert (E : prepend (ts ++ us) r = prepend ts (prepend us r)) by (destruct r; cbn; [rewrite app_assoc|..]; reflexivity). rewrite E.
  apply (peg_and_cons G _ _ s ts t _ P1). apply (peg_and_cons G _ _ t us (loops k t) _ P2).
  destruct r as [vs rest| |m rest].
  - change (PMatch vs rest) with (PMatch vs rest). rewrite <- (app_nil_r vs). exact (peg_and_cons G e [] _ vs rest (PMatch [] rest) P3 (peg_and_nil G rest)).
  - apply peg_and_stop; [exact P3|exact I].
  - apply peg_and_stop; [exact P3|exact I].
Qed.

Lemma or2_first : forall a b s ts t, peg G a s (PMatch ts t) -> peg G (Or [a; b]) s (PMatch ts t).
Proof. intros a b s ts t P. apply peg_or_first; [exact P|discriminate]. Qed.
Lemma or2_second : forall a b s r, peg G a s PFail -> peg G b s r -> peg G (Or [a; b]) s r.
Proof.
  intros a b s r P P'. apply peg_or_next; [exact P|]. destruct r as [ts t| |m t]; [apply peg_or_first; [exact P'|discriminate]| |apply peg_or_first; [exact P'|discriminate]].
  apply peg_or_next; [exact P'|constructor].
Qed.

Lemma passing_ok : forall k i j, k <= j -> passes k i j.
Proof.
  induction k as [|k IH]; intros i j L s.
  - cbn [passing]. destruct s as [|c t]; cbn [firstgo].
    + apply peg_class_fail. discriminate.
    + destruct (delta i c) as [j'|] eqn:D.
      * change (j' <? 0) with false. cbn iota. destruct (Nat.eqb_spec j' j) as [->|N].
        -- eexists. apply peg_class_ok. left. apply step_chars_in. exact D.
        -- apply peg_class_fail. intros c' t' E [I|(lo & hi & [] & _)]. injection E as <- <-. apply step_chars_in in I. congruence.
      * apply peg_class_fail. intros c' t' E [I|(lo & hi & [] & _)]. injection E as <- <-. apply step_chars_in in I. congruence.
  - cbn [passing]. pose proof (IH i j ltac:(lia) s) as H1. pose proof (and3 k i (passing M k k j) s (IH i k (le_n k)) (IH k k (le_n k))) as H2.
    rewrite firstgo_S. destruct (firstgo k i s) as [[j' t]|] eqn:E; [|exact (or2_second _ _ _ _ H1 H2)]. destruct (Nat.eqb_spec j' k) as [->|N].
    + rewrite (proj2 (Nat.eqb_neq k j)) in H1 by lia. destruct H2 as [ts H2]. rewrite loops_go. pose proof (IH k j ltac:(lia) (loops k t)) as H3.
      destruct (firstgo k k (loops k t)) as [[j' u]|]; [destruct (j' =? j)|].
      * destruct H3 as [us P]. exists (ts ++ us). exact (or2_second _ _ _ _ H1 (H2 _ P)).
      * exact (or2_second _ _ _ _ H1 (H2 _ H3)).
      * exact (or2_second _ _ _ _ H1 (H2 _ H3)).
    + destruct (j' =? j); [destruct H1 as [ts P]; exists ts; apply or2_first; exact P|exact (or2_second _ _ _ _ H1 H2)].
Qed.

Lemma ending_ok : forall k i s, if stays k i s then exists ts, peg G (ending M k i) s (PMatch ts []) else peg G (ending M k i) s PFail.
Proof.
  induction k as [|k IH]; intros i s.
  - cbn [ending]. destruct s as [|c t]; cbn [stays].
    + destruct (ends_at M i); [exists []; apply (peg_not_ok G dot_ [] PFail); [constructor|exact I]|apply peg_class_fail; discriminate].
    + assert (E : (match delta i c with Some j => if j <? 0 then stays 0 j t else false | None => false end) = false) by (destruct (delta i c); reflexivity). rewrite E.
      destruct (ends_at M i); [eapply peg_not_fail; apply peg_dot_ok|apply peg_class_fail]. intros c' t' _ [[]|(lo & hi & [] & _)].
  - cbn [ending]. pose proof (IH i s) as H1. pose proof (and3 k i (ending M k k) s (passing_ok k i k (le_n k)) (passing_ok k k k (le_n k))) as H2.
    rewrite stays_S. destruct (stays k i s); cbn [orb]; [destruct H1 as [ts P]; exists ts; apply or2_first; exact P|].
    destruct (firstgo k i s) as [[j t]|]; [|exact (or2_second _ _ _ _ H1 H2)]. destruct (j =? k); cbn [andb]; [|exact (or2_second _ _ _ _ H1 H2)].
    destruct H2 as [ts H2]. rewrite loops_stay. specialize (IH k (loops k t)). destruct (stays k k (loops k t)).
    + destruct IH as [us P]. exists (ts ++ us). exact (or2_second _ _ _ _ H1 (H2 _ P)).
    + exact (or2_second _ _ _ _ H1 (H2 _ IH)).
Qed.
End Peg.

(** * The rules *)

Lemma passing_sane : forall k i j, sane (passing M k i j).
Proof. induction k as [|k IH]; intros i j; cbn; [exact I|]. repeat split; apply IH. Qed.

Lemma ending_sane : forall k i, sane (ending M k i).
Proof. induction k as [|k IH]; intro i; cbn; [destruct (ends_at M i); exact I|]. repeat split; try apply IH; apply passing_sane. Qed.

Lemma passing_solid : forall G k i j, ~ may_be_empty G (passing M k i j).
Proof.
  intros G. induction k as [|k IH]; intros i j X; cbn in X; [inversion X|]. inversion X as [| | | |e es I E| | | |]; subst.
  destruct I as [<-|[<-|[]]]; [exact (IH _ _ E)|]. inversion E as [| | |e' es' E1 E2| | | | |]; subst. exact (IH _ _ E1).
Qed.

Lemma passing_names : forall k i j n, ~ occurs (RuleName n) (passing M k i j).
Proof.
  induction k as [|k IH]; intros i j n X; cbn in X; inversion X as [|e es I O|e es I O| |]; subst.
  destruct I as [<-|[<-|[]]]; [exact (IH _ _ _ O)|]. inversion O as [|e es I O'| | |]; subst. destruct I as [<-|[<-|[<-|[]]]]; [exact (IH _ _ _ O')| |exact (IH _ _ _ O')].
  inversion O' as [| | | |e mn mx O'']; subst. exact (IH _ _ _ O'').
Qed.

Lemma ending_names : forall k i n, ~ occurs (RuleName n) (ending M k i).
Proof.
  induction k as [|k IH]; intros i n X; cbn in X.
  - destruct (ends_at M i); inversion X as [| | |e O|]; subst; inversion O.
  - inversion X as [| |e es I O| |]; subst. destruct I as [<-|[<-|[]]]; [exact (IH _ _ O)|]. inversion O as [|e es I O'| | |]; subst.
    destruct I as [<-|[<-|[<-|[]]]]; [exact (passing_names _ _ _ _ O')| |exact (IH _ _ O')]. inversion O' as [| | | |e mn mx O'']; subst. exact (passing_names _ _ _ _ O'').
Qed.

Lemma passing_loops : forall G k i j x mn mx, occurs (Repeat x mn mx) (passing M k i j) -> ~ may_be_empty G x.
Proof.
  intros G. induction k as [|k IH]; intros i j x mn mx X; cbn in X; inversion X as [|e es I O|e es I O| |]; subst.
  destruct I as [<-|[<-|[]]]; [exact (IH _ _ _ _ _ O)|]. inversion O as [|e es I O'| | |]; subst. destruct I as [<-|[<-|[<-|[]]]]; [exact (IH _ _ _ _ _ O')| |exact (IH _ _ _ _ _ O')].
  inversion O' as [| | | |e mn' mx' O'']; subst; [apply passing_solid|exact (IH _ _ _ _ _ O'')].
Qed.

Lemma ending_loops : forall G k i x mn mx, occurs (Repeat x mn mx) (ending M k i) -> ~ may_be_empty G x.
Proof.
  intros G. induction k as [|k IH]; intros i x mn mx X; cbn in X.
  - destruct (ends_at M i); inversion X as [| | |e O|]; subst; inversion O.
  - inversion X as [| |e es I O| |]; subst. destruct I as [<-|[<-|[]]]; [exact (IH _ _ _ _ O)|]. inversion O as [|e es I O'| | |]; subst.
    destruct I as [<-|[<-|[<-|[]]]]; [exact (passing_loops _ _ _ _ _ _ _ O')| |exact (IH _ _ _ _ O')]. inversion O' as [| | | |e mn' mx' O'']; subst; [apply passing_solid|exact (passing_loops _ _ _ _ _ _ _ O'')].
Qed.

Lemma flat_get : forall n e, grammar_of (flat_rules M) n = Some e -> e = ending M (length M) 0.
Proof.
  intros n e E. apply rules_get_in in E. destruct E as [E|[]]. injection E as _ <-. reflexivity.
Qed.

Lemma flat_sane : sane_rules (flat_rules M).
Proof. intros n e E. apply flat_get in E. subst. apply ending_sane. Qed.

Lemma flat_no_recursion : no_recursion (grammar_of (flat_rules M)).
Proof.
  assert (N : forall a b, ~ refers (grammar_of (flat_rules M)) a b).
  { intros a b (_ & e & E & O). apply flat_get in E. subst. exact (ending_names _ _ _ O). }
  assert (T : forall a b, ~ clos_trans str (refers (grammar_of (flat_rules M))) a b).
  { intros a b C. induction C as [a b C|a b c _ IH _ _]; [exact (N a b C)|exact IH]. }
  intros n. apply T.
Qed.

Lemma flat_no_empty_loops : no_empty_loops (grammar_of (flat_rules M)).
Proof. intros n e x mn mx E O _. apply flat_get in E. subst. exact (ending_loops _ _ _ _ _ _ O). Qed.

Lemma flat_takes : forall s, ascii s -> (takes (flat_rules M) s <-> runs M 0 s).
Proof.
  intros s A. rewrite <- stays_all. pose proof (ending_ok (grammar_of (flat_rules M)) (length M) 0 s) as H.
  assert (E : grammar_of (flat_rules M) main = Some (ending M (length M) 0)) by reflexivity. split.
  - intros (fuel & ast & P). pose proof (proj1 (parse_accepts_iff s _ false flat_sane A ast) (ex_intro _ fuel P)) as X. destruct (stays (length M) 0 s); [reflexivity|].
    pose proof (peg_det _ _ _ _ X _ (peg_rule _ main _ s _ E H)). discriminate.
  - intro R. rewrite R in H. destruct H as [ts P]. destruct (proj2 (parse_accepts_iff s _ false flat_sane A (Rule main ts)) (peg_rule _ main _ s _ E P)) as [fuel F].
    exists fuel. eexists. exact F.
Qed.

(** * The regular expression *)

Lemma any_of_ok : forall cs s, matches (any_of cs) s <-> exists c, In c cs /\ s = [c].
Proof.
  induction cs as [|c cs IH]; intro s; cbn; [split; [intro X; inversion X|intros (c & [] & _)]|]. split.
  - intro X. apply alt_inv in X. destruct X as [X|X]; [inversion X; subst; exists c; auto|]. apply IH in X. destruct X as (c' & I & ->). exists c'. auto.
  - intros (c' & [<-|I] & ->); [apply m_left; constructor|apply m_right, IH; exists c'; auto].
Qed.

Lemma firstgo_app : forall k u v i j t, firstgo k i u = Some (j, t) -> firstgo k i (u ++ v) = Some (j, t ++ v).
Proof.
  intros k. induction u as [|c u IH]; intros v i j t E; [discriminate|]. cbn [firstgo stays app] in *. destruct (delta i c) as [x|]; [|discriminate].
  destruct (x <? k); [exact (IH v x j t E)|]. injection E as <- <-. reflexivity.
Qed.

Lemma firstgo_split : forall k s i j t, firstgo k i s = Some (j, t) -> exists u, s = u ++ t /\ firstgo k i u = Some (j, []).
Proof.
  intros k. induction s as [|c s IH]; intros i j t E; [discriminate|]. cbn [firstgo] in E. destruct (delta i c) as [x|] eqn:D; [|discriminate]. destruct (x <? k) eqn:B.
  - destruct (IH x j t E) as (u & -> & F). exists (c :: u). split; [reflexivity|]. cbn [firstgo]. rewrite D, B. exact F.
  - injection E as <- <-. exists [c]. split; [reflexivity|]. cbn [firstgo]. rewrite D, B. reflexivity.
Qed.

Definition goes (k i j : nat) (s : str) : Prop := firstgo k i s = Some (j, []).

Lemma star_loops : forall k r, (forall s, matches r s <-> goes k k k s) -> forall u v, matches (Star r) u -> loops k (u ++ v) = loops k v.
Proof.
  intros k r H u v X. remember (Star r) as x eqn:Ex. revert Ex. induction X as [| | | | | | |r' u w X1 _ X2 IH]; intro Ex; try discriminate Ex; [reflexivity|]. injection Ex as ->.
  apply H in X1. unfold goes in X1. rewrite <- app_assoc, loops_step, (firstgo_app k u (w ++ v) k k [] X1), Nat.eqb_refl. exact (IH eq_refl).
Qed.

Lemma loops_star : forall k r, (forall s, matches r s <-> goes k k k s) -> forall s, exists u, s = u ++ loops k s /\ matches (Star r) u.
Proof.
  intros k r H. apply (loops_ind k). intros s IH. rewrite loops_step. destruct (firstgo k k s) as [[j t]|] eqn:E; [|exists []; split; [reflexivity|constructor]].
  destruct (Nat.eqb_spec j k) as [->|N]; [|exists []; split; [reflexivity|constructor]]. destruct (IH t eq_refl) as (u & Eu & X). destruct (firstgo_split k s k k t E) as (w & -> & F).
  exists (w ++ u). split; [rewrite <- app_assoc, <- Eu; reflexivity|]. constructor; [apply H; exact F|exact X].
Qed.

Lemma cat3 : forall k i r1 r2 r3 s, (forall s, matches r1 s <-> goes k i k s) -> (forall s, matches r2 s <-> goes k k k s) ->
  (forall s, matches r3 s -> forall t, firstgo k k s <> Some (k, t)) ->
  (matches (Cat r1 (Cat (Star r2) r3)) s <-> exists t, firstgo k i s = Some (k, t) /\ matches r3 (loops k t)).
Proof.
  intros k i r1 r2 r3 s H1 H2 N. split.
  - intro X. apply cat_inv in X. destruct X as (u & v & -> & X1 & X). apply cat_inv in X. destruct X as (w & z & -> & X2 & X3). apply H1 in X1. exists (w ++ z).
    split; [exact (firstgo_app k u _ i k [] X1)|]. rewrite (star_loops k r2 H2 w z X2), loops_step.
    specialize (N z X3). destruct (firstgo k k z) as [[j t]|]; [|exact X3]. destruct (Nat.eqb_spec j k) as [->|_]; [destruct (N t eq_refl)|exact X3].
  - intros (t & E & X3). destruct (firstgo_split k s i k t E) as (u & -> & X1). destruct (loops_star k r2 H2 t) as (w & Ew & X2). rewrite Ew.
    constructor; [apply H1; exact X1|]. constructor; assumption.
Qed.

Lemma passing_regex_ok : forall k i j, k <= j -> forall s, matches (passing_regex M k i j) s <-> goes k i j s.
Proof.
  induction k as [|k IH]; intros i j L s.
  - cbn [passing_regex]. rewrite any_of_ok. unfold goes. destruct s as [|c [|c' s]]; cbn [firstgo].
    + split; [intros (c & _ & E); discriminate|discriminate].
    + destruct (delta i c) as [x|] eqn:D; split.
      * intros (c' & I & E). injection E as <-. apply step_chars_in in I. replace x with j by congruence. reflexivity.
      * intro E. change (x <? 0) with false in E. injection E as ->. exists c. split; [apply step_chars_in, D|reflexivity].
      * intros (c' & I & E). injection E as <-. apply step_chars_in in I. congruence.
      * discriminate.
    + split; [intros (x & _ & E); discriminate|]. destruct (delta i c) as [x|]; discriminate.
  - cbn [passing_regex]. unfold goes. rewrite firstgo_S. pose proof (IH i j ltac:(lia) s) as H1.
    pose proof (cat3 k i _ _ (passing_regex M k k j) s (IH i k (le_n k)) (IH k k (le_n k))) as H2.
    assert (N : forall s, matches (passing_regex M k k j) s -> forall t, firstgo k k s <> Some (k, t)).
    { intros z X t E. apply (IH k j ltac:(lia)) in X. unfold goes in X. rewrite E in X. injection X as X _. lia. }
    specialize (H2 N). unfold goes in H1. split.
    + intro X. apply alt_inv in X. destruct X as [X|X].
      * apply H1 in X. rewrite X. rewrite (proj2 (Nat.eqb_neq j k)) by lia. reflexivity.
      * apply H2 in X. destruct X as (t & E & X). rewrite E, Nat.eqb_refl, loops_go. apply (IH k j ltac:(lia)) in X. exact X.
    + destruct (firstgo k i s) as [[j' t]|] eqn:E; [|discriminate]. destruct (Nat.eqb_spec j' k) as [->|D]; intro X.
      * apply m_right, H2. exists t. split; [reflexivity|]. apply (IH k j ltac:(lia)). unfold goes. rewrite <- loops_go. exact X.
      * apply m_left, H1. exact X.
Qed.

Lemma ending_regex_ok : forall k i s, matches (ending_regex M k i) s <-> stays k i s = true.
Proof.
  induction k as [|k IH]; intros i s.
  - cbn [ending_regex]. destruct s as [|c s]; cbn [stays].
    + destruct (ends_at M i); split; intro X; [reflexivity|constructor|inversion X|discriminate].
    + assert (E : (match delta i c with Some j => if j <? 0 then stays 0 j s else false | None => false end) = false) by (destruct (delta i c); reflexivity). rewrite E.
      destruct (ends_at M i); split; intro X; try discriminate; inversion X.
  - cbn [ending_regex]. rewrite stays_S. pose proof (IH i s) as H1.
    pose proof (cat3 k i _ _ (ending_regex M k k) s (passing_regex_ok k i k (le_n k)) (passing_regex_ok k k k (le_n k))) as H2.
    assert (N : forall s, matches (ending_regex M k k) s -> forall t, firstgo k k s <> Some (k, t)).
    { intros z X t E. apply IH in X. rewrite (stays_or_goes k z k) in X by congruence. discriminate. }
    specialize (H2 N). rewrite orb_true_iff. split.
    + intro X. apply alt_inv in X. destruct X as [X|X]; [left; apply H1, X|right]. apply H2 in X. destruct X as (t & E & X). rewrite E, Nat.eqb_refl, loops_stay. apply IH, X.
    + intros [X|X]; [apply m_left, H1, X|apply m_right, H2]. destruct (firstgo k i s) as [[j t]|]; [|discriminate]. apply andb_true_iff in X. destruct X as [D X].
      apply Nat.eqb_eq in D. subst. exists t. split; [reflexivity|]. apply IH. rewrite <- loops_stay. exact X.
Qed.

Lemma automaton_regex_ok : forall s, matches (automaton_regex M) s <-> runs M 0 s.
Proof. intro s. unfold automaton_regex. rewrite ending_regex_ok. apply stays_all. Qed.
End Flat.

(** * Long texts *)

Lemma twice_in : forall l : list nat, ~ NoDup l -> exists a l1 l2 l3, l = l1 ++ a :: l2 ++ a :: l3.
Proof.
  induction l as [|x l IH]; intro N; [destruct N; constructor|]. destruct (in_dec Nat.eq_dec x l) as [I|NI].
  - apply in_split in I. destruct I as (l2 & l3 & ->). exists x, [], l2, l3. reflexivity.
  - destruct IH as (a & l1 & l2 & l3 & ->); [intro X; apply N; constructor; assumption|]. exists a, (x :: l1), l2, l3. reflexivity.
Qed.

Section Pump.
Variable M : automaton.
Hypothesis CM : closed M.

Inductive leads : nat -> str -> nat -> Prop :=
| leads_nil q : leads q [] q
| leads_step q c q' s p : In (c, q') (steps_of M q) -> leads q' s p -> leads q (c :: s) p.

(** The states of a run, with the first and the last one. *)
Inductive trail : nat -> str -> list nat -> Prop :=
| trail_end q : ends_at M q = true -> trail q [] [q]
| trail_step q c q' s l : In (c, q') (steps_of M q) -> trail q' s l -> trail q (c :: s) (q :: l).

Lemma runs_trail : forall s q, q < length M -> runs M q s -> exists l, trail q s l /\ length l = S (length s) /\ incl l (seq 0 (length M)).
Proof.
  induction s as [|c s IH]; intros q L R.
  - apply runs_end_iff in R. exists [q]. split; [constructor; exact R|]. split; [reflexivity|]. intros x [<-|[]]. apply in_seq. lia.
  - apply runs_step_iff in R. destruct R as (q' & I & R). assert (L' : q' < length M).
    { unfold steps_of in I. destruct (nth_error M q) as [[a steps]|] eqn:E; [|destruct I]. exact (proj2 CM a steps c q' (nth_error_In M q E) I). }
    destruct (IH q' L' R) as (l & T & E & B). exists (q :: l). split; [econstructor; eassumption|]. split; [cbn; lia|]. intros x [<-|X]; [apply in_seq; lia|exact (B x X)].
Qed.

Lemma trail_split : forall q s l, trail q s l -> forall l1 a l2, l = l1 ++ a :: l2 -> exists u v, s = u ++ v /\ length u = length l1 /\ leads q u a /\ trail a v (a :: l2).
Proof.
  intros q s l T. induction T as [q E|q c q' s l I T IH]; intros l1 a l2 El.
  - destruct l1 as [|x [|y l1]]; [|discriminate|discriminate]. injection El as <- <-. exists [], []. split; [reflexivity|]. split; [reflexivity|]. split; constructor. exact E.
  - destruct l1 as [|x l1]; injection El as Ex El; subst.
    + exists [], (c :: s). split; [reflexivity|]. split; [reflexivity|]. split; [constructor|]. econstructor; eassumption.
    + destruct (IH l1 a l2 eq_refl) as (u & v & -> & Lu & Ld & Tv). exists (c :: u), v. split; [reflexivity|]. split; [cbn; lia|]. split; [econstructor; eassumption|exact Tv].
Qed.

Lemma leads_runs : forall q u p, leads q u p -> forall v, runs M p v -> runs M q (u ++ v).
Proof. intros q u p L. induction L as [q|q c q' s p I L IH]; intros v R; [exact R|]. cbn [app]. apply runs_step_iff. exists q'. split; [exact I|exact (IH v R)]. Qed.

Lemma trail_runs : forall q s l, trail q s l -> runs M q s.
Proof. intros q s l T. induction T as [q E|q c q' s l I T IH]; [apply runs_end_iff, E|apply runs_step_iff; exists q'; split; assumption]. Qed.

Lemma pump : forall s, runs M 0 s -> length M <= length s -> exists u v w, s = u ++ v ++ w /\ v <> [] /\ length (u ++ v) <= length M /\ forall n, runs M 0 (u ++ times n v ++ w).
Proof.
  intros s R L.
  destruct (runs_trail s 0 (proj1 CM) R) as (l & T & El & B).
  assert (D : ~ NoDup (firstn (S (length M)) l)).
  { intro N. pose proof (NoDup_incl_length N (l' := seq 0 (length M))) as X. rewrite firstn_length_le, seq_length in X by lia. enough (S (length M) <= length M) by lia. apply X.
    intros q I. apply B. rewrite <- (firstn_skipn (S (length M)) l). apply in_or_app. left. exact I. }
  apply twice_in in D. destruct D as (a & l1 & l2 & l3 & E).
  assert (El' : l = l1 ++ a :: (l2 ++ a :: (l3 ++ skipn (S (length M)) l))).
  { rewrite <- (firstn_skipn (S (length M)) l) at 1. rewrite E, <- app_assoc. cbn [app]. rewrite <- app_assoc. reflexivity. }
  destruct (trail_split 0 s l T l1 a _ El') as (u & vw & -> & Lu & Ld & T1). destruct (trail_split a vw _ T1 (a :: l2) a _ eq_refl) as (v & w & -> & Lv & Ld2 & T2).
  exists u, v, w. split; [reflexivity|]. split; [intros ->; discriminate|]. split.
  - rewrite app_length, Lu, Lv. cbn [length]. apply (f_equal (@length nat)) in E. rewrite firstn_length_le in E by lia. rewrite app_length in E. cbn [length] in E. rewrite app_length in E. cbn [length] in E. lia.
  - intro n. apply (leads_runs 0 u a Ld). induction n as [|n IH]; [exact (trail_runs _ _ _ T2)|]. cbn [times]. rewrite <- app_assoc. exact (leads_runs a v a Ld2 _ IH).
Qed.
End Pump.

Lemma times_cons : forall n (x : char), times (S n) [x] = x :: times n [x].
Proof. reflexivity. Qed.

Lemma times_front : forall (x y : char) u v n m, x <> y -> times n [x] ++ times m [y] = u ++ v -> length u <= n -> u = times (length u) [x] /\ v = times (n - length u) [x] ++ times m [y].
Proof.
  intros x y u v n m N. revert n. induction u as [|c u IH]; intros n E L; [rewrite Nat.sub_0_r; split; [reflexivity|symmetry; exact E]|].
  destruct n as [|n]; cbn [length] in L; [lia|]. rewrite times_cons in E. cbn [app] in E. injection E as <- E. destruct (IH n E ltac:(lia)) as [Eu Ev]. split; [|exact Ev].
  cbn [length]. rewrite times_cons. f_equal. exact Eu.
Qed.

Lemma times_add : forall n m (x : char), times n [x] ++ times m [x] = times (n + m) [x].
Proof. induction n as [|n IH]; intros m x; [reflexivity|]. cbn [times plus]. rewrite <- app_assoc, IH. reflexivity. Qed.

Lemma times_prefix : forall (x : char) u v n, u ++ v = times n [x] -> u = times (length u) [x].
Proof.
  intros x u v. induction u as [|c u IH]; intros n E; [reflexivity|]. destruct n as [|n]; [discriminate|]. rewrite times_cons in E. cbn [app] in E. injection E as -> E.
  cbn [length]. rewrite times_cons. f_equal. exact (IH n E).
Qed.

Lemma pairs_need_more : forall M x y, closed M -> x <> y -> (forall n, runs M 0 (times n [x] ++ times n [y])) -> exists n m, n < m /\ runs M 0 (times n [x] ++ times m [y]).
Proof.
  intros M x y CM N H. set (k := length M). destruct (pump M CM _ (H k)) as (u & v & w & E & Nv & L & P).
  { rewrite app_length. assert (X : forall n, length (times n [x]) = n) by (induction n as [|n IH]; [reflexivity|cbn; congruence]). rewrite X. lia. }
  rewrite app_assoc in E. destruct (times_front x y (u ++ v) w k k N E L) as [Euv Ew]. rewrite app_length in Euv.
  pose proof (times_prefix x u v _ Euv) as Eu. exists (k - length v), k. specialize (P 0). cbn [times app] in P. rewrite app_length in Ew. rewrite Ew in P.
  assert (P' : runs M 0 (times (length u) [x] ++ times (k - (length u + length v)) [x] ++ times k [y])) by (rewrite <- Eu; exact P). rewrite app_assoc, times_add in P'.
  rewrite app_length in L. assert (0 < length v) by (destruct v; [congruence|cbn; lia]). split; [lia|]. replace (k - length v) with (length u + (k - (length u + length v))) by lia. exact P'.
Qed.
