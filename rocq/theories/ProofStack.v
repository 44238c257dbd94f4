(** Automata with a stack, and the rules made from them. *)
From Verif Require Import Base ModelAst ModelParser SpecPeg SpecPos SpecApi SpecLang SpecPower SpecStack.
From Verif Require Import PegTools ProofParser ProofEngine ProofApi ProofTable ProofPower.

(** * Names *)

Lemma run_head : forall (a b : N) i j x y, a <> b -> (forall z, x <> a :: z) -> (forall z, y <> a :: z) ->
  repeat a i ++ x = repeat a j ++ y -> i = j /\ x = y.
Proof.
  intros a b i. induction i as [|i IH]; intros [|j] x y N X Y E; cbn [repeat app] in E.
  - split; [reflexivity|exact E].
  - exfalso. exact (X _ E).
  - exfalso. exact (Y _ (eq_sym E)).
  - injection E as E. destruct (IH j x y N X Y E) as [-> ->]. split; reflexivity.
Qed.

Lemma name_parts : forall q A x q' A' x', (forall z, x <> 107%N :: z) -> (forall z, x' <> 107%N :: z) ->
  repeat 115%N (S q) ++ repeat 107%N (S A) ++ x = repeat 115%N (S q') ++ repeat 107%N (S A') ++ x' -> q = q' /\ A = A' /\ x = x'.
Proof.
  intros q A x q' A' x' X X' E. apply (run_head _ 107%N) in E as [E1 E2]; [|discriminate..].
  apply (run_head _ 115%N) in E2 as [E3 E4]; [|discriminate|exact X|exact X']. injection E1 as ->. injection E3 as ->. split; [reflexivity|split; [reflexivity|exact E4]].
Qed.

Lemma pop_name_inj : forall q A p q' A' p', pop_name q A p = pop_name q' A' p' -> q = q' /\ A = A' /\ p = p'.
Proof.
  intros q A p q' A' p' E. apply name_parts in E as (-> & -> & E1); [|discriminate..].
  apply (f_equal (@length _)) in E1. rewrite !repeat_length in E1. injection E1 as ->. auto.
Qed.

Lemma stay_name_alt : forall q A, stay_name q A = repeat 115%N (S q) ++ repeat 107%N (S A) ++ [].
Proof. intros q A. rewrite app_nil_r. reflexivity. Qed.

Lemma stay_name_inj : forall q A q' A', stay_name q A = stay_name q' A' -> q = q' /\ A = A'.
Proof. intros q A q' A' E. rewrite !stay_name_alt in E. apply name_parts in E as (-> & -> & _); [auto|discriminate..]. Qed.

Lemma names_apart : forall q A q' A' p', stay_name q A <> pop_name q' A' p'.
Proof. intros q A q' A' p' E. rewrite stay_name_alt in E. apply name_parts in E as (_ & _ & X); discriminate. Qed.

(** If all definitions of a name agree, the name has that definition. *)
Lemma get_in : forall (rs : rules) n e, In (n, e) rs -> (forall e', In (n, e') rs -> e' = e) -> rules_get rs n = Some e.
Proof.
  induction rs as [|[m x] rs IH]; intros n e IN U; [destruct IN|]. cbn [rules_get]. destruct (str_eqb m n) eqn:E.
  - apply str_eqb_eq in E. subst m. rewrite (U x (or_introl eq_refl)). reflexivity.
  - destruct IN as [Y|IN]; [injection Y as -> ->; rewrite (proj2 (str_eqb_eq _ _) eq_refl) in E; discriminate|].
    apply IH; [exact IN|]. intros e' IN'. apply U. right. exact IN'.
Qed.

Lemma get_In : forall (rs : rules) n e, rules_get rs n = Some e -> In (n, e) rs.
Proof.
  induction rs as [|[m x] rs IH]; intros n e; [discriminate|]. cbn [rules_get]. destruct (str_eqb m n) eqn:E; [|intro H; right; exact (IH _ _ H)].
  apply str_eqb_eq in E. subst m. intros [= ->]. left. reflexivity.
Qed.

Section Machine.
Variable M : machine.
Hypothesis PR : proper M.

Lemma defs_in : forall n e, In (n, e) (machine_defs M) -> exists q A, q < states M /\ A < symbols M /\
  (n = stay_name q A /\ e = stay_expr M q A \/ exists p, p < states M /\ n = pop_name q A p /\ e = pop_expr M q A p).
Proof.
  intros n e IN. unfold machine_defs in IN. apply in_flat_map in IN as (q & Q & IN). apply in_flat_map in IN as (A & HA & IN). apply in_seq in Q. apply in_seq in HA.
  exists q, A. split; [lia|]. split; [lia|]. destruct IN as [Y|IN]; [injection Y as <- <-; left; auto|]. apply in_map_iff in IN as (p & Y & P). injection Y as <- <-. apply in_seq in P.
  right. exists p. split; [lia|auto].
Qed.

Lemma get_stay : forall q A, q < states M -> A < symbols M -> rules_get (machine_defs M) (stay_name q A) = Some (stay_expr M q A).
Proof.
  intros q A Q HA. apply get_in.
  - unfold machine_defs. apply in_flat_map. exists q. split; [apply in_seq; lia|]. apply in_flat_map. exists A. split; [apply in_seq; lia|]. left. reflexivity.
  - intros e IN. destruct (defs_in _ _ IN) as (q' & A' & _ & _ & [[E ->]|(p & _ & E & _)]); [|exfalso; exact (names_apart _ _ _ _ _ E)].
    apply stay_name_inj in E as [-> ->]. reflexivity.
Qed.

Lemma get_pop : forall q A p, q < states M -> A < symbols M -> p < states M -> rules_get (machine_defs M) (pop_name q A p) = Some (pop_expr M q A p).
Proof.
  intros q A p Q HA P. apply get_in.
  - unfold machine_defs. apply in_flat_map. exists q. split; [apply in_seq; lia|]. apply in_flat_map. exists A. split; [apply in_seq; lia|]. right.
    apply in_map_iff. exists p. split; [reflexivity|apply in_seq; lia].
  - intros e IN. destruct (defs_in _ _ IN) as (q' & A' & _ & _ & [[E _]|(p' & _ & E & ->)]); [exfalso; exact (names_apart _ _ _ _ _ (eq_sym E))|].
    apply pop_name_inj in E as (-> & -> & ->). reflexivity.
Qed.

(** * The run of a deterministic machine, as far as it goes *)

Hypothesis DT : deterministic M.

Definition key_eqb (a b : nat * nat * char) : bool := Nat.eqb (fst (fst a)) (fst (fst b)) && Nat.eqb (snd (fst a)) (snd (fst b)) && N.eqb (snd a) (snd b).

Lemma key_eqb_eq : forall a b, key_eqb a b = true <-> a = b.
Proof.
  intros [[q A] c] [[q' A'] c']. unfold key_eqb. cbn [fst snd]. rewrite !andb_true_iff, !Nat.eqb_eq, N.eqb_eq. split; [intros [[-> ->] ->]; reflexivity|intros [= -> -> ->]; auto].
Qed.

Definition next (q A : nat) (c : char) : option (nat * list nat) := option_map snd (find (fun m => key_eqb (fst m) (q, A, c)) (moves M)).

Lemma next_in : forall q A c x, next q A c = Some x <-> In ((q, A, c), x) (moves M).
Proof.
  intros q A c x. unfold next. split.
  - intro H. destruct (find _ _) as [[k y]|] eqn:F; [|discriminate]. injection H as <-. apply find_some in F as [F K]. cbn [fst] in K. apply key_eqb_eq in K. subst k. exact F.
  - intro IN. destruct (find _ _) as [[k y]|] eqn:F.
    + apply find_some in F as [F K]. cbn [fst] in K. apply key_eqb_eq in K. subst k. cbn. f_equal. exact (DT _ _ _ F IN).
    + exfalso. pose proof (find_none _ _ F _ IN) as K. cbn [fst] in K. assert (key_eqb (q, A, c) (q, A, c) = true) by (apply key_eqb_eq; reflexivity). congruence.
Qed.

Fixpoint go (q : nat) (st : list nat) (s : str) : nat * list nat * str :=
  match s with
  | [] => (q, st, [])
  | c :: s' =>
    match st with
    | [] => (q, [], s)
    | A :: st' => match next q A c with Some (r, w) => go r (w ++ st') s' | None => (q, st, s) end
    end
  end.

Lemma go_nil : forall q s, go q [] s = (q, [], s).
Proof. intros q [|c s]; reflexivity. Qed.

Lemma go_app : forall s q x y, go q (x ++ y) s = let '(r, x', s') := go q x s in match x' with [] => go r y s' | _ => (r, x' ++ y, s') end.
Proof.
  induction s as [|c s IH]; intros q x y.
  - cbn [go]. destruct x; reflexivity.
  - destruct x as [|A x]; [reflexivity|]. cbn [app go]. destruct (next q A c) as [[r w]|]; [|reflexivity]. rewrite app_assoc. apply IH.
Qed.

Lemma go_shorter : forall s q x r x' s', go q x s = (r, x', s') -> length s' <= length s.
Proof.
  induction s as [|c s IH]; intros q x r x' s' E; cbn [go] in E; [injection E as _ _ <-; lia|].
  destruct x as [|A x]; [injection E as _ _ <-; cbn; lia|]. destruct (next q A c) as [[t w]|]; [|injection E as _ _ <-; cbn; lia]. apply IH in E. cbn. lia.
Qed.

Lemma go_states : forall s q x r x' s', q < states M -> go q x s = (r, x', s') -> r < states M.
Proof.
  induction s as [|c s IH]; intros q x r x' s' Q E; cbn [go] in E; [injection E as <- _ _; exact Q|].
  destruct x as [|A x]; [injection E as <- _ _; exact Q|]. destruct (next q A c) as [[t w]|] eqn:N; [|injection E as <- _ _; exact Q].
  apply (IH _ _ _ _ _ (proj1 (proj2 (proj2 (proj2 PR)) _ _ _ _ _ (proj1 (next_in _ _ _ _) N))) E).
Qed.

Lemma reads_go : forall s q st, reads M q st s <-> exists r st', go q st s = (r, st', []) /\ In r (finals M).
Proof.
  induction s as [|c s IH]; intros q st.
  - cbn [go]. split; [intro R; inversion R; subst; exists q, st; auto|]. intros (r & st' & [= <- <-] & F). constructor. exact F.
  - cbn [go]. destruct st as [|A st].
    + split; [intro R; inversion R|]. intros (r & st' & [=] & _).
    + destruct (next q A c) as [[r w]|] eqn:N.
      * rewrite <- IH. apply next_in in N. split; [|intro R; econstructor; eassumption]. intro R. inversion R as [|? ? ? ? r' w' ? IN R']; subst. pose proof (DT _ _ _ N IN) as E. injection E as <- <-. exact R'.
      * split; [intro R; inversion R as [|? ? ? ? r' w' ? IN R']; subst; apply next_in in IN; congruence|]. intros (r & st' & [=] & _).
Qed.

Lemma empties_go : forall s q st, empties M q st s <-> exists r, go q st s = (r, [], []).
Proof.
  induction s as [|c s IH]; intros q st.
  - cbn [go]. split; [intro R; inversion R; subst; exists q; auto|]. intros (r & [= <- ->]). constructor.
  - cbn [go]. destruct st as [|A st].
    + split; [intro R; inversion R|]. intros (r & [=]).
    + destruct (next q A c) as [[r w]|] eqn:N.
      * rewrite <- IH. apply next_in in N. split; [|intro R; econstructor; eassumption]. intro R. inversion R as [|? ? ? ? r' w' ? IN R']; subst. pose proof (DT _ _ _ N IN) as E. injection E as <- <-. exact R'.
      * split; [intro R; inversion R as [|? ? ? ? r' w' ? IN R']; subst; apply next_in in IN; congruence|]. intros (r & [=]).
Qed.

(** * What the rules do *)

Variable start : expr.
Let rs : rules := (main, start) :: machine_defs M.
Let G := grammar_of rs.

Lemma main_apart : forall q x, main <> repeat 115%N (S q) ++ x.
Proof. intros q x E. apply (f_equal (@hd_error _)) in E. discriminate. Qed.

Lemma G_stay : forall q A, q < states M -> A < symbols M -> G (stay_name q A) = Some (stay_expr M q A).
Proof. intros q A Q HA. unfold G, grammar_of, rs. cbn [rules_get]. rewrite neq_eqb by apply main_apart. apply get_stay; assumption. Qed.

Lemma G_pop : forall q A p, q < states M -> A < symbols M -> p < states M -> G (pop_name q A p) = Some (pop_expr M q A p).
Proof. intros q A p Q HA P. unfold G, grammar_of, rs. cbn [rules_get]. rewrite neq_eqb by apply main_apart. apply get_pop; assumption. Qed.

(** An expression matches up to [rest] if [ok], and fails otherwise. *)
Definition matches (e : expr) (s rest : str) : Prop := exists ts, peg G e s (PMatch ts rest).
Definition fails (e : expr) (s : str) : Prop := peg G e s PFail.

Lemma or_fails : forall es s, Forall (fun e => fails e s) es -> fails (Or es) s.
Proof. intros es s F. induction F as [|e es F _ IH]; [constructor|]. apply peg_or_next; assumption. Qed.

Lemma or_matches : forall es s rest, Forall (fun e => fails e s \/ matches e s rest) es -> Exists (fun e => matches e s rest) es -> matches (Or es) s rest.
Proof.
  intros es s rest F. induction F as [|e es [X|[ts X]] _ IH]; intro E; [inversion E| |].
  - inversion E as [? ? [ts Y]|? ? E']; subst; [pose proof (peg_det _ _ _ _ X _ Y); discriminate|]. destruct (IH E') as [ts D]. exists ts. apply peg_or_next; assumption.
  - exists ts. apply peg_or_first; [exact X|discriminate].
Qed.

Lemma and_matches : forall e es s s1 rest, matches e s s1 -> matches (And es) s1 rest -> matches (And (e :: es)) s rest.
Proof. intros e es s s1 rest [ts D] [us D']. eexists. exact (peg_and_cons G _ _ _ _ _ _ D D'). Qed.

Lemma and_fails1 : forall e es s, fails e s -> fails (And (e :: es)) s.
Proof. intros e es s D. apply peg_and_stop; [exact D|exact Logic.I]. Qed.

Lemma and_fails2 : forall e es s s1, matches e s s1 -> fails (And es) s1 -> fails (And (e :: es)) s.
Proof. intros e es s s1 [ts D] D'. exact (peg_and_cons G _ _ _ _ _ _ D D'). Qed.

Lemma rule_matches : forall n e s rest, G n = Some e -> matches e s rest -> matches (RuleName n) s rest.
Proof. intros n e s rest E [ts D]. eexists. exact (peg_rule G n e s _ E D). Qed.

Lemma rule_fails : forall n e s, G n = Some e -> fails e s -> fails (RuleName n) s.
Proof. intros n e s E D. exact (peg_rule G n e s _ E D). Qed.

(** The two rules of a state and a symbol are right for the text [s]. *)
Definition pop_right (s : str) : Prop := forall q A p, q < states M -> A < symbols M -> p < states M ->
  (exists rest, go q [A] s = (p, [], rest) /\ matches (RuleName (pop_name q A p)) s rest) \/
  ((forall rest, go q [A] s <> (p, [], rest)) /\ fails (RuleName (pop_name q A p)) s).

Definition staying (q : nat) (st : list nat) (s : str) : Prop := exists r B st', go q st s = (r, B :: st', []) /\ In r (finals M).

Definition stay_right (s : str) : Prop := forall q A, q < states M -> A < symbols M ->
  (staying q [A] s /\ matches (RuleName (stay_name q A)) s []) \/ (~ staying q [A] s /\ fails (RuleName (stay_name q A)) s).

(** A list of ways does what is wanted. *)
Definition ways_do (ways : list (list expr)) (s : str) (ok : str -> Prop) : Prop :=
  (exists rest, ok rest /\ Forall (fun es => fails (And es) s \/ matches (And es) s rest) ways /\ Exists (fun es => matches (And es) s rest) ways) \/
  ((forall rest, ~ ok rest) /\ Forall (fun es => fails (And es) s) ways).

Lemma symbols_ok : forall q A c r w, next q A c = Some (r, w) -> r < states M /\ Forall (fun B => B < symbols M) w.
Proof. intros q A c r w N. apply next_in in N. exact (proj2 (proj2 (proj2 PR)) _ _ _ _ _ N). Qed.

(** The first reference of the ways through state [q]. *)
Lemma step_ways : forall n s r B (tails : nat -> list (list expr)) (ok : nat -> str -> str -> Prop),
  length s <= n -> (forall s', length s' <= n -> pop_right s') -> r < states M -> B < symbols M ->
  (forall q s', q < states M -> length s' <= n -> ways_do (tails q) s' (ok q s')) ->
  let ways := flat_map (fun q => map (cons (ref_rule (pop_name r B q))) (tails q)) (seq 0 (states M)) in
  ways_do ways s (fun rest => exists p s', go r [B] s = (p, [], s') /\ ok p s' rest).
Proof.
  intros n s r B tails ok L PO R HB TL ways. destruct (go r [B] s) as [[p x] s'] eqn:E.
  assert (P : p < states M) by (exact (go_states _ _ _ _ _ _ R E)). assert (L' : length s' <= n) by (pose proof (go_shorter _ _ _ _ _ _ E); lia).
  assert (OTHER : forall q, q < states M -> (p, x) <> (q, []) -> Forall (fun es => fails (And es) s) (map (cons (ref_rule (pop_name r B q))) (tails q))).
  { intros q Q X. apply Forall_forall. intros es IN. apply in_map_iff in IN as (es' & <- & _). apply and_fails1.
    destruct (PO s L r B q R HB Q) as [(rest & E' & _)|[_ F]]; [|exact F]. exfalso. apply X. rewrite E in E'. congruence. }
  destruct x as [|C x].
  - assert (FIRST : matches (RuleName (pop_name r B p)) s s').
    { destruct (PO s L r B p R HB P) as [(rest & E' & D)|[X _]]; [|exfalso; exact (X _ E)]. rewrite E in E'. injection E' as <-. exact D. }
    destruct (TL p s' P L') as [(rest & OK & ALL & EX)|[NO ALL]].
    + left. exists rest. split; [exists p, s'; split; [reflexivity|exact OK]|]. split.
      * apply Forall_forall. intros es IN. apply in_flat_map in IN as (q & Q & IN). apply in_seq in Q. destruct (Nat.eq_dec q p) as [->|X].
        -- apply in_map_iff in IN as (es' & <- & IN). rewrite Forall_forall in ALL. destruct (ALL es' IN) as [F|D]; [left; exact (and_fails2 _ _ _ _ FIRST F)|right; exact (and_matches _ _ _ _ _ FIRST D)].
        -- left. pose proof (OTHER q ltac:(lia) ltac:(congruence)) as O. rewrite Forall_forall in O. exact (O es IN).
      * apply Exists_exists in EX as (es & IN & D). apply Exists_exists. exists (ref_rule (pop_name r B p) :: es). split; [|exact (and_matches _ _ _ _ _ FIRST D)].
        apply in_flat_map. exists p. split; [apply in_seq; lia|]. apply in_map. exact IN.
    + right. split; [intros rest (p' & s1 & [= <- <-] & OK); exact (NO rest OK)|]. apply Forall_forall. intros es IN. apply in_flat_map in IN as (q & Q & IN). apply in_seq in Q. destruct (Nat.eq_dec q p) as [->|X].
      * apply in_map_iff in IN as (es' & <- & IN). rewrite Forall_forall in ALL. exact (and_fails2 _ _ _ _ FIRST (ALL es' IN)).
      * pose proof (OTHER q ltac:(lia) ltac:(congruence)) as O. rewrite Forall_forall in O. exact (O es IN).
  - right. split; [intros rest (p' & s1 & [=] & _)|]. apply Forall_forall. intros es IN. apply in_flat_map in IN as (q & Q & IN). apply in_seq in Q.
    pose proof (OTHER q ltac:(lia) ltac:(congruence)) as O. rewrite Forall_forall in O. exact (O es IN).
Qed.

Lemma ways_iff : forall ways s ok ok', (forall rest, ok rest <-> ok' rest) -> ways_do ways s ok -> ways_do ways s ok'.
Proof. intros ways s ok ok' E [(rest & OK & X)|[NO X]]; [left; exists rest; split; [apply E, OK|exact X]|right; split; [intros rest OK; apply (NO rest), E, OK|exact X]]. Qed.

Lemma go_cons : forall r B w s, go r (B :: w) s = let '(p, x', s') := go r [B] s in match x' with [] => go p w s' | _ => (p, x' ++ w, s') end.
Proof. intros r B w s. exact (go_app s r [B] w). Qed.

Lemma pops_do : forall n p, (forall s', length s' <= n -> pop_right s') -> p < states M -> forall w r s, length s <= n -> r < states M -> Forall (fun B => B < symbols M) w ->
  ways_do (pops (states M) r w p) s (fun rest => go r w s = (p, [], rest)).
Proof.
  intros n p PO P. induction w as [|B w IH]; intros r s L R F.
  - cbn [pops]. destruct (Nat.eqb_spec r p) as [->|X].
    + left. exists s. split; [apply go_nil|]. assert (D : matches (And []) s s) by (exists []; constructor). split; [constructor; [right; exact D|constructor]|left; exact D].
    + right. split; [intros rest E; rewrite go_nil in E; congruence|constructor].
  - inversion F as [|? ? HB F']; subst. cbn [pops].
    refine (ways_iff _ _ _ _ _ (step_ways n s r B (fun q => pops (states M) q w p) (fun q s' rest => go q w s' = (p, [], rest)) L PO R HB _)).
    + intro rest. rewrite (go_cons r B w s). destruct (go r [B] s) as [[q x] s']. split.
      * intros (q' & s1 & [= <- -> <-] & E). exact E.
      * destruct x as [|C x]; [intro E; exists q, s'; auto|discriminate].
    + intros q s' Q L'. apply IH; assumption.
Qed.

Lemma stays_do : forall n, (forall s', length s' <= n -> pop_right s') -> (forall s', length s' <= n -> stay_right s') -> forall w r s, length s <= n -> r < states M -> Forall (fun B => B < symbols M) w ->
  ways_do (stays (states M) r w) s (fun rest => rest = [] /\ staying r w s).
Proof.
  intros n PO SO. induction w as [|B w IH]; intros r s L R F.
  - right. split; [|constructor]. intros rest [_ (q & B & st & E & _)]. rewrite go_nil in E. discriminate.
  - inversion F as [|? ? HB F']; subst. cbn [stays].
    assert (ST : ways_do (flat_map (fun q => map (cons (ref_rule (pop_name r B q))) (stays (states M) q w)) (seq 0 (states M))) s
                   (fun rest => exists p s', go r [B] s = (p, [], s') /\ rest = [] /\ staying p w s')).
    { apply (step_ways n s r B (fun q => stays (states M) q w) (fun q s' rest => rest = [] /\ staying q w s') L PO R HB). intros q s' Q L'. apply IH; assumption. }
    assert (ONE : forall rest, matches (RuleName (stay_name r B)) s rest -> matches (And [RuleName (stay_name r B)]) s rest).
    { intros rest D. apply (and_matches _ _ _ _ _ D). exists []. constructor. }
    assert (CASES : staying r (B :: w) s <-> staying r [B] s \/ exists p s', go r [B] s = (p, [], s') /\ staying p w s').
    { unfold staying. rewrite (go_cons r B w s). destruct (go r [B] s) as [[q x] s'] eqn:E. destruct x as [|C x].
      - split; [intro H; right; exists q, s'; auto|]. intros [(r1 & B1 & st1 & [=] & _)|(p & s1 & [= <- <-] & H)]. exact H.
      - cbv beta iota. cbn [app]. split.
        + intros (r1 & B1 & st1 & [= <- <- <- ->] & H). left. exists q, C, x. auto.
        + intros [(r1 & B1 & st1 & [= <- <- <- ->] & H)|(p & s1 & [=] & _)]. exists q, C, (x ++ w). auto. }
    destruct (SO s L r B R HB) as [[Y D]|[NY D]].
    + left. exists []. split; [split; [reflexivity|apply CASES; left; exact Y]|]. split; [|left; exact (ONE _ D)]. constructor; [right; exact (ONE _ D)|].
      destruct ST as [(rest & (p & s' & E & _) & _)|[_ ALL]].
      * exfalso. destruct Y as (r1 & B1 & st1 & E1 & _). congruence.
      * eapply Forall_impl; [|exact ALL]. intros es X. left. exact X.
    + destruct ST as [(rest & (p & s' & E & -> & Y) & ALL & EX)|[NO ALL]].
      * left. exists []. split; [split; [reflexivity|apply CASES; right; exists p, s'; auto]|]. split; [|right; exact EX]. constructor; [left; apply and_fails1; exact D|exact ALL].
      * right. split; [|constructor; [apply and_fails1; exact D|exact ALL]]. intros rest [-> Y]. apply CASES in Y as [Y|(p & s' & E & Y)]; [contradiction|]. apply (NO []). exists p, s'. auto.
Qed.

(** A choice of moves, read on a text that starts with [c], does what the ways of the move for [c] do. *)
Lemma choices_nil : forall q A ways, Forall (fun e => fails e []) (choices M q A ways).
Proof.
  intros q A ways. unfold choices. apply Forall_forall. intros e IN. apply in_flat_map in IN as ([[[q' A'] c] [r w]] & _ & IN). destruct (Nat.eqb q q' && Nat.eqb A A'); [|destruct IN].
  apply in_map_iff in IN as (es & <- & _). apply and_fails1. apply peg_lit_fail. discriminate.
Qed.

Lemma lit_here : forall c s, matches (lit [c]) (c :: s) s.
Proof. intros c s. exists [Val [c]]. exact (peg_lit_ok G [c] s). Qed.

Lemma lit_other : forall c d s, d <> c -> fails (lit [d]) (c :: s).
Proof. intros c d s X. apply peg_lit_fail. intros rest E. injection E as E _. congruence. Qed.

Lemma choices_do : forall q A (ways : nat -> list nat -> list (list expr)) c s ok,
  match next q A c with Some (r, w) => ways_do (ways r w) s ok | None => forall rest, ~ ok rest end ->
  (exists rest, ok rest /\ Forall (fun e => fails e (c :: s) \/ matches e (c :: s) rest) (choices M q A ways) /\ Exists (fun e => matches e (c :: s) rest) (choices M q A ways)) \/
  ((forall rest, ~ ok rest) /\ Forall (fun e => fails e (c :: s)) (choices M q A ways)).
Proof.
  intros q A ways c s ok H.
  assert (SHAPE : forall e, In e (choices M q A ways) -> exists d r w es, next q A d = Some (r, w) /\ In es (ways r w) /\ e = And (lit [d] :: es)).
  { intros e IN. unfold choices in IN. apply in_flat_map in IN as ([[[q' A'] d] [r w]] & MV & IN). destruct (Nat.eqb q q' && Nat.eqb A A') eqn:K; [|destruct IN].
    apply andb_true_iff in K as [K1 K2]. apply Nat.eqb_eq in K1. apply Nat.eqb_eq in K2. subst q' A'. apply in_map_iff in IN as (es & <- & IN). exists d, r, w, es. split; [apply next_in; exact MV|auto]. }
  destruct (next q A c) as [[r w]|] eqn:N; [destruct H as [(rest & OK & ALL & EX)|[NO ALL]]|].
  - left. exists rest. split; [exact OK|]. rewrite Forall_forall in ALL. split.
    + apply Forall_forall. intros e IN. destruct (SHAPE e IN) as (d & r' & w' & es & N' & IN' & ->). destruct (N.eq_dec d c) as [->|X].
      * rewrite N in N'. injection N' as <- <-. destruct (ALL es IN') as [F|D]; [left; exact (and_fails2 _ _ _ _ (lit_here c s) F)|right; exact (and_matches _ _ _ _ _ (lit_here c s) D)].
      * left. apply and_fails1. apply lit_other. exact X.
    + apply Exists_exists in EX as (es & IN & D). apply Exists_exists. exists (And (lit [c] :: es)). split; [|exact (and_matches _ _ _ _ _ (lit_here c s) D)].
      unfold choices. apply in_flat_map. exists ((q, A, c), (r, w)). split; [apply next_in; exact N|]. rewrite !Nat.eqb_refl. cbn [andb]. apply in_map_iff. exists es. auto.
  - right. split; [exact NO|]. rewrite Forall_forall in ALL. apply Forall_forall. intros e IN. destruct (SHAPE e IN) as (d & r' & w' & es & N' & IN' & ->). destruct (N.eq_dec d c) as [->|X].
    + rewrite N in N'. injection N' as <- <-. exact (and_fails2 _ _ _ _ (lit_here c s) (ALL es IN')).
    + apply and_fails1. apply lit_other. exact X.
  - right. split; [exact H|]. apply Forall_forall. intros e IN. destruct (SHAPE e IN) as (d & r' & w' & es & N' & IN' & ->). apply and_fails1. apply lit_other. congruence.
Qed.

Lemma finals_dec : forall q, existsb (Nat.eqb q) (finals M) = true <-> In q (finals M).
Proof. intro q. rewrite existsb_exists. split; [intros (x & IN & E); apply Nat.eqb_eq in E; subst x; exact IN|intro IN; exists q; split; [exact IN|apply Nat.eqb_refl]]. Qed.

Lemma end_here : matches at_end [] [].
Proof. exists []. apply (peg_not_ok G dot_ [] PFail); [apply peg_dot_fail|exact Logic.I]. Qed.

Lemma end_not : forall c s, fails at_end (c :: s).
Proof. intros c s. exact (peg_not_fail G dot_ (c :: s) _ _ (peg_dot_ok G c s)). Qed.

Lemma all_right : forall n s, length s <= n -> pop_right s /\ stay_right s.
Proof.
  induction n as [|n IH]; intros s L.
  - destruct s as [|c s]; [|cbn in L; lia]. split.
    + intros q A p Q HA P. right. split; [intros rest E; discriminate|]. apply (rule_fails _ _ _ (G_pop q A p Q HA P)). apply or_fails. apply choices_nil.
    + intros q A Q HA. destruct (existsb (Nat.eqb q) (finals M)) eqn:F.
      * left. split; [exists q, A, []; split; [reflexivity|apply finals_dec; exact F]|]. apply (rule_matches _ _ _ _ (G_stay q A Q HA)). unfold stay_expr. rewrite F. apply or_matches.
        -- apply Forall_app. split; [eapply Forall_impl; [|apply choices_nil]; intros e X; left; exact X|constructor; [right; exact end_here|constructor]].
        -- apply Exists_app. right. left. exact end_here.
      * right. split; [intros (r & B & st & [= <- _ _] & IN); apply finals_dec in IN; congruence|]. apply (rule_fails _ _ _ (G_stay q A Q HA)). unfold stay_expr. rewrite F, app_nil_r. apply or_fails. apply choices_nil.
  - destruct s as [|c s]; [apply IH; cbn; lia|]. cbn [length] in L.
    assert (PO : forall s', length s' <= n -> pop_right s') by (intros s' L'; apply IH, L'). assert (SO : forall s', length s' <= n -> stay_right s') by (intros s' L'; apply IH, L').
    split.
    + intros q A p Q HA P.
      assert (C : match next q A c with Some (r, w) => ways_do (pops (states M) r w p) s (fun rest => go q [A] (c :: s) = (p, [], rest)) | None => forall rest, ~ go q [A] (c :: s) = (p, [], rest) end).
      { cbn [go]. destruct (next q A c) as [[r w]|] eqn:N; [|intros rest E; discriminate]. rewrite app_nil_r. destruct (symbols_ok _ _ _ _ _ N) as [R W]. apply (pops_do n); auto. lia. }
      destruct (choices_do q A (fun r w => pops (states M) r w p) c s _ C) as [(rest & OK & ALL & EX)|[NO ALL]].
      * left. exists rest. split; [exact OK|]. apply (rule_matches _ _ _ _ (G_pop q A p Q HA P)). apply or_matches; assumption.
      * right. split; [exact NO|]. apply (rule_fails _ _ _ (G_pop q A p Q HA P)). apply or_fails. exact ALL.
    + intros q A Q HA.
      assert (C : match next q A c with Some (r, w) => ways_do (stays (states M) r w) s (fun rest : str => rest = [] /\ staying q [A] (c :: s)) | None => forall rest : str, ~ (rest = [] /\ staying q [A] (c :: s)) end).
      { unfold staying. cbn [go]. destruct (next q A c) as [[r w]|] eqn:N; [|intros rest [_ (r & B & st & [=] & _)]]. rewrite app_nil_r. destruct (symbols_ok _ _ _ _ _ N) as [R W]. apply (stays_do n); auto. lia. }
      assert (TAIL : Forall (fun e => fails e (c :: s)) (if existsb (Nat.eqb q) (finals M) then [at_end] else [])).
      { destruct (existsb _ _); [constructor; [apply end_not|constructor]|constructor]. }
      destruct (choices_do q A (stays (states M)) c s _ C) as [(rest & [-> OK] & ALL & EX)|[NO ALL]].
      * left. split; [exact OK|]. apply (rule_matches _ _ _ _ (G_stay q A Q HA)). apply or_matches.
        -- apply Forall_app. split; [exact ALL|]. eapply Forall_impl; [|exact TAIL]. intros e X. left. exact X.
        -- apply Exists_app. left. exact EX.
      * right. split; [intro Y; apply (NO []); auto|]. apply (rule_fails _ _ _ (G_stay q A Q HA)). apply or_fails. apply Forall_app. split; assumption.
Qed.

(** * The parser *)

Lemma pops_sane : forall n w r p es, In es (pops n r w p) -> Forall sane es.
Proof.
  induction w as [|B w IH]; intros r p es IN; cbn [pops] in IN.
  - destruct (Nat.eqb r p); [destruct IN as [<-|[]]; constructor|destruct IN].
  - apply in_flat_map in IN as (q & _ & IN). apply in_map_iff in IN as (es' & <- & IN). constructor; [exact Logic.I|exact (IH _ _ _ IN)].
Qed.

Lemma stays_sane : forall n w r es, In es (stays n r w) -> Forall sane es.
Proof.
  induction w as [|B w IH]; intros r es IN; cbn [stays] in IN; [destruct IN|]. destruct IN as [<-|IN]; [repeat constructor|].
  apply in_flat_map in IN as (q & _ & IN). apply in_map_iff in IN as (es' & <- & IN). constructor; [exact Logic.I|exact (IH _ _ IN)].
Qed.

Lemma choices_sane : forall q A ways, (forall r w es, In es (ways r w) -> Forall sane es) -> Forall sane (choices M q A ways).
Proof.
  intros q A ways H. apply Forall_forall. intros e IN. unfold choices in IN. apply in_flat_map in IN as ([[[q' A'] d] [r w]] & _ & IN). destruct (Nat.eqb q q' && Nat.eqb A A'); [|destruct IN].
  apply in_map_iff in IN as (es & <- & IN). cbn [sane fold_right]. split; [exact Logic.I|]. apply sane_list. exact (H r w es IN).
Qed.

Lemma machine_sane : sane start -> sane_rules rs.
Proof.
  intros SS n e E. apply get_In in E. destruct E as [Y|IN]; [injection Y as _ <-; exact SS|].
  destruct (defs_in _ _ IN) as (q & A & _ & _ & [[_ ->]|(p & _ & _ & ->)]); unfold stay_expr, pop_expr; cbn [sane]; apply sane_list.
  - apply Forall_app. split; [apply choices_sane; intros r w es; apply stays_sane|]. destruct (existsb _ _); repeat constructor.
  - apply choices_sane. intros r w es. apply pops_sane.
Qed.

Lemma decides : forall s d (P : Prop), sane start -> ascii s -> (matches start s [] /\ P) \/ (~ P /\ (fails start s \/ exists rest, rest <> [] /\ matches start s rest)) ->
  exists bound, forall fuel, bound <= fuel ->
  (P /\ exists ast, parse_with_debug fuel s rs d = Ok ast) \/ (~ P /\ exists er, parse_with_debug fuel s rs d = Err er /\ e_priority er = Normal).
Proof.
  intros s d P SS A X. pose proof (machine_sane SS) as SN.
  assert (exists p, peg G start s p /\ match p with PAbort _ _ => False | PMatch _ [] => P | _ => ~ P end) as (p & D & HP).
  { destruct X as [[[ts D] HP]|[NP [D|(rest & NE & ts & D)]]]; eexists; (split; [exact D|]); try assumption. destruct rest; [contradiction|exact NP]. }
  assert (MD : peg_main rs s (wrap main p)) by (exact (peg_rule G main start s p eq_refl D)).
  destruct (proj2 (parse_terminates_iff s rs d SN A) (ex_intro _ _ MD)) as [fuel NF]. exists fuel. intros fuel' L.
  assert (E : parse_with_debug fuel' s rs d <> Fuel) by (destruct (parse_with_debug_mono fuel fuel' s rs d L) as [E|E]; [contradiction|congruence]).
  pose proof (parse_sound fuel' s rs d SN) as H.
  destruct (parse_with_debug fuel' s rs d) as [t|er| |] eqn:R; [| |contradiction|contradiction].
  - left. split; [|exists t; reflexivity]. pose proof (proj1 (parse_accepts_iff s rs d SN A t) (ex_intro _ _ R)) as D'. pose proof (peg_det _ _ _ _ MD _ D') as Q.
    destruct p as [ts rest| |]; [|discriminate|discriminate]. cbn [wrap] in Q. injection Q as _ ->. exact HP.
  - right. split.
    + intro Y. destruct p as [ts [|c rest]| |]; [|exact (HP Y)|exact (HP Y)|exact HP].
      destruct (proj2 (parse_accepts_iff s rs d SN A (Rule main ts)) MD) as [f' H'].
      pose proof (ProofTable.parse_same _ _ _ _ _ _ _ SN A R H' ltac:(discriminate) ltac:(discriminate)). discriminate.
    + exists er. split; [reflexivity|]. destruct H as [_ H]. destruct (e_priority er); [reflexivity|]. destruct H as (rest & H & _).
      pose proof (peg_det _ _ _ _ MD _ H) as Q. destruct p; [discriminate|discriminate|contradiction].
Qed.

End Machine.

(** A choice of the rules that read away the first symbol. *)
Lemma pops_choice : forall M start s es, proper M -> deterministic M -> (forall p, In p es -> p < states M) ->
  let r := fst (fst (go M 0 [0] s)) in
  (exists rest, go M 0 [0] s = (r, [], rest) /\ In r es /\
     Forall (fun e => fails M start e s \/ matches M start e s rest) (map (fun p => ref_rule (pop_name 0 0 p)) es) /\
     Exists (fun e => matches M start e s rest) (map (fun p => ref_rule (pop_name 0 0 p)) es)) \/
  ((forall p rest, In p es -> go M 0 [0] s <> (p, [], rest)) /\ Forall (fun e => fails M start e s) (map (fun p => ref_rule (pop_name 0 0 p)) es)).
Proof.
  intros M start s es PR DT B r. destruct (all_right M PR DT start (length s) s (le_n _)) as [PO _].
  pose proof (fun p IN => PO 0 0 p (proj1 PR) (proj1 (proj2 PR)) (B p IN)) as C.
  destruct (go M 0 [0] s) as [[q x] s'] eqn:E. cbn [fst] in r. subst r.
  assert (DEC : (x = [] /\ In q es) \/ ~ (x = [] /\ In q es)).
  { destruct x as [|]; [|right; intros [X _]; discriminate]. destruct (in_dec Nat.eq_dec q es) as [IN|N]; [left; auto|right; intros [_ IN]; contradiction]. }
  destruct DEC as [[-> IN]|N].
  - left. exists s'. split; [reflexivity|]. split; [exact IN|]. split.
    + apply Forall_forall. intros e I'. apply in_map_iff in I' as (p & <- & I'). destruct (C p I') as [(rest & [= <- <-] & D)|[_ D]]; [right; exact D|left; exact D].
    + apply Exists_exists. exists (ref_rule (pop_name 0 0 q)). split; [apply in_map_iff; exists q; auto|]. destruct (C q IN) as [(rest & [= <-] & D)|[X _]]; [exact D|exfalso; exact (X _ eq_refl)].
  - right. split; [intros p rest IN [= <- -> _]; apply N; auto|]. apply Forall_forall. intros e I'. apply in_map_iff in I' as (p & <- & I').
    destruct (C p I') as [(rest & [= <- -> <-] & D)|[_ D]]; [exfalso; apply N; auto|exact D].
Qed.

Lemma machine_decides : forall M, proper M -> deterministic M -> forall s debug, ascii s -> exists bound, forall fuel, bound <= fuel ->
  (reads M 0 [0] s /\ exists ast, parse_with_debug fuel s (machine_rules M) debug = Ok ast) \/
  (~ reads M 0 [0] s /\ exists er, parse_with_debug fuel s (machine_rules M) debug = Err er /\ e_priority er = Normal).
Proof.
  intros M PR DT s debug A. apply decides.
  - cbn [sane fold_right]. split; [exact Logic.I|]. apply sane_list. apply Forall_forall. intros e IN. apply in_map_iff in IN as (p & <- & _). exact Logic.I.
  - exact A.
  - set (start := Or _). destruct (all_right M PR DT start (length s) s (le_n _)) as [_ SO]. specialize (SO 0 0 (proj1 PR) (proj1 (proj2 PR))).
    pose proof (pops_choice M start s (finals M) PR DT ltac:(apply Forall_forall; exact (proj1 (proj2 (proj2 PR))))) as C. cbv zeta in C.
    rewrite (reads_go M DT). destruct SO as [[(r & B & st' & E & F) D]|[NO D]].
    + left. split; [|exists r, (B :: st'); auto]. apply or_matches; [|left; exact D]. constructor; [right; exact D|].
      destruct C as [(rest & E' & _)|[_ C]]; [rewrite E in E'; discriminate|]. eapply Forall_impl; [|exact C]. intros e X. left. exact X.
    + destruct C as [(rest & E & IN & ALL & EX)|[N C]].
      * assert (D' : matches M start start s rest) by (apply or_matches; [constructor; [left; exact D|exact ALL]|right; exact EX]). destruct rest as [|c rest].
        -- left. split; [exact D'|]. eexists. exists []. split; [exact E|exact IN].
        -- right. split; [|right; exists (c :: rest); split; [discriminate|exact D']]. intros (r & st' & E' & _). rewrite E in E'. discriminate.
      * right. split; [|left; apply or_fails; constructor; assumption]. intros (r & st' & E & F). destruct st' as [|B st']; [exact (N r [] F E)|]. apply NO. exists r, B, st'. auto.
Qed.

Lemma emptying_decides : forall M, proper M -> deterministic M -> forall s debug, ascii s -> exists bound, forall fuel, bound <= fuel ->
  (empties M 0 [0] s /\ exists ast, parse_with_debug fuel s (emptying_rules M) debug = Ok ast) \/
  (~ empties M 0 [0] s /\ exists er, parse_with_debug fuel s (emptying_rules M) debug = Err er /\ e_priority er = Normal).
Proof.
  intros M PR DT s debug A. apply decides.
  - cbn [sane]. apply sane_list. apply Forall_forall. intros e IN. apply in_map_iff in IN as (p & <- & _). exact Logic.I.
  - exact A.
  - set (start := Or _).
    pose proof (pops_choice M start s (seq 0 (states M)) PR DT ltac:(intros p IN; apply in_seq in IN; lia)) as C. cbv zeta in C.
    rewrite (empties_go M DT). destruct C as [(rest & E & IN & ALL & EX)|[N C]].
    + assert (D' : matches M start start s rest) by (apply or_matches; assumption). destruct rest as [|c rest].
      * left. split; [exact D'|]. eexists. exact E.
      * right. split; [|right; exists (c :: rest); split; [discriminate|exact D']]. intros (r & E'). rewrite E in E'. discriminate.
    + right. split; [|left; apply or_fails; exact C]. intros (r & E). refine (N r [] _ E). apply in_seq. split; [lia|]. exact (go_states M PR DT _ _ _ _ _ _ (proj1 PR) E).
Qed.
