(** Proofs: questions about rules without recursion can be answered by a program. *)
From Verif Require Import Base ModelAst ModelParser SpecPeg SpecPos SpecApi SpecWf SpecLoops SpecPower SpecRegex SpecSpeed SpecRegular SpecLang.
From Verif Require Import ProofAst ProofParser ProofEngine ProofApi ProofWf ProofBnf ProofLoops ProofPower ProofSpeed ProofFinite ProofRegular.

Section Search.
Variable M : automaton.
Hypothesis CM : closed M.

Fixpoint runsb (q : nat) (s : str) : bool :=
  match s with [] => ends_at M q | c :: t => existsb (fun p => N.eqb (fst p) c && runsb (snd p) t) (steps_of M q) end.

Lemma runsb_ok : forall s q, runsb q s = true <-> runs M q s.
Proof.
  induction s as [|c s IH]; intro q; cbn [runsb]; [symmetry; apply runs_end_iff|]. rewrite runs_step_iff, existsb_exists. split.
  - intros ([c' q'] & I & E). apply andb_true_iff in E. destruct E as [E R]. apply N.eqb_eq in E. cbn in E, R. subst. exists q'. split; [exact I|apply IH, R].
  - intros (q' & I & R). exists (c, q'). split; [exact I|]. cbn. rewrite N.eqb_refl. apply IH, R.
Qed.

(** All texts of up to [n] chars of [cs]. *)
Fixpoint texts (cs : list char) (n : nat) : list str := match n with 0 => [[]] | S k => [] :: flat_map (fun c => map (cons c) (texts cs k)) cs end.

Lemma texts_in : forall cs n s, length s <= n -> Forall (fun c => In c cs) s -> In s (texts cs n).
Proof.
  intros cs. induction n as [|n IH]; intros [|c s] L F; cbn [length] in L; [left; reflexivity|lia|left; reflexivity|right].
  inversion F as [|x y Ic Fs]; subst. apply in_flat_map. exists c. split; [exact Ic|]. apply in_map, IH; [lia|exact Fs].
Qed.

Lemma runs_chars : forall s q, runs M q s -> Forall (fun c => In c (chars_of M)) s.
Proof.
  induction s as [|c s IH]; intros q R; [constructor|]. apply runs_step_iff in R. destruct R as (q' & I & R). constructor; [|exact (IH q' R)].
  unfold chars_of. apply nodup_In, in_flat_map. unfold steps_of in I. destruct (nth_error M q) as [x|] eqn:E; [|destruct I]. exists x. split; [exact (nth_error_In M q E)|].
  apply in_map_iff. exists (c, q'). split; [reflexivity|exact I].
Qed.

Lemma short_run : forall s, runs M 0 s -> exists s', runs M 0 s' /\ length s' < length M.
Proof.
  apply (shorter_ind (fun s => runs M 0 s -> exists s', runs M 0 s' /\ length s' < length M)). intros s IH R. destruct (Nat.lt_ge_cases (length s) (length M)) as [L|L]; [exists s; auto|].
  destruct (pump M CM s R L) as (u & v & w & -> & N & _ & P). specialize (P 0). cbn [times app] in P. apply (IH (u ++ w)); [|exact P].
  rewrite !app_length. destruct v; [congruence|cbn; lia].
Qed.

Lemma some_run : {s | runs M 0 s} + {forall s, ~ runs M 0 s}.
Proof.
  destruct (find (runsb 0) (texts (chars_of M) (length M))) as [s|] eqn:F.
  - left. exists s. apply find_some in F. apply runsb_ok, F.
  - right. intros s R. destruct (short_run s R) as (s' & R' & L). pose proof (find_none _ _ F s' (texts_in (chars_of M) (length M) s' ltac:(lia) (runs_chars s' 0 R'))) as X.
    apply runsb_ok in R'. congruence.
Qed.
End Search.

Fixpoint saneb (e : expr) : bool :=
  match e with
  | And es | Or es => forallb saneb es
  | Not e1 => saneb e1
  | Repeat e1 mn mx => saneb e1 && match mx with Some m => (1 <=? m) && (mn <=? m) | None => true end
  | _ => true
  end.

Lemma saneb_ok : forall e, saneb e = true <-> sane e.
Proof.
  assert (L : forall es, Forall (fun e => saneb e = true <-> sane e) es -> (forallb saneb es = true <-> fold_right (fun x P => sane x /\ P) True es)).
  { intros es F. induction F as [|x es X F IH]; cbn; [tauto|]. rewrite andb_true_iff, X, IH. reflexivity. }
  intro e. induction e as [x|es IH|es IH|e IH|e mn mx IH|m] using expr_ind'; cbn [saneb sane]; [tauto|exact (L es IH)|exact (L es IH)|exact IH| |tauto].
  rewrite andb_true_iff, IH. destruct mx as [m|]; [|tauto]. rewrite andb_true_iff, !Nat.leb_le. tauto.
Qed.

(** Whether rules are of the kind in question can be told. *)
Lemma kind_dec : forall rs, {sane_rules rs /\ no_recursion (grammar_of rs)} + {~ (sane_rules rs /\ no_recursion (grammar_of rs))}.
Proof.
  intro rs. destruct (no_recursion_dec rs) as [N|N]; [|right; tauto].
  destruct (forallb (fun n => match rules_get rs n with Some e => saneb e | None => true end) (map fst rs)) eqn:E.
  - left. split; [|exact N]. intros n e G. rewrite forallb_forall in E. specialize (E n (key_in_gen rs n e G)). cbn in E. rewrite G in E. apply saneb_ok, E.
  - right. intros [SR _]. enough (X : forallb (fun n => match rules_get rs n with Some e => saneb e | None => true end) (map fst rs) = true) by congruence.
    apply forallb_forall. intros n _. destruct (rules_get rs n) as [e|] eqn:G; [|reflexivity]. apply saneb_ok, (SR n e G).
Qed.

Section Questions.
Variable rs : rules.
Hypothesis SR : sane_rules rs.
Hypothesis NR : no_recursion (grammar_of rs).

Lemma tell_some : {s | takes rs s} + {forall s, ~ takes rs s}.
Proof.
  pose (D := rules_reader rs [] SR NR). destruct (reader_automaton _ _ _ D is_match) as (M & CM & H). destruct (some_run M CM) as [[s R]|N].
  - left. exists s. apply (reader_takes rs [] D SR), H, R.
  - right. intros s T. apply (N s), H, (reader_takes rs [] D SR), T.
Qed.

Lemma tell_all : {s | ascii s /\ ~ takes rs s} + {forall s, ascii s -> takes rs s}.
Proof.
  pose (D := rules_reader rs [] SR NR). destruct (reader_automaton _ _ _ D (fun r => negb (is_match r))) as (M & CM & H). destruct (some_run M CM) as [[s R]|N].
  - left. exists s. apply H in R. destruct R as [A E]. split; [exact A|]. intro T. apply (reader_takes rs [] D SR) in T. destruct T as [_ T]. rewrite T in E. discriminate.
  - right. intros s A. apply (reader_takes rs [] D SR). split; [exact A|]. destruct (is_match (answer D s)) eqn:E; [reflexivity|]. destruct (N s). apply H. split; [exact A|]. rewrite E. reflexivity.
Qed.

Lemma tell_hangs : {s | ascii s /\ ~ finishes rs s} + {forall s, ascii s -> finishes rs s}.
Proof.
  pose (D := rules_reader rs [] SR NR). destruct (reader_automaton _ _ _ D is_endless) as (M & CM & H). destruct (some_run M CM) as [[s R]|N].
  - left. exists s. apply H in R. destruct R as [A E]. split; [exact A|]. apply (reader_hangs rs [] D SR s A), E.
  - right. intros s A. pose proof (rd_right D s) as V. change (rd_answer D _) with (answer D s) in V. apply (parse_terminates_iff s rs false SR A). unfold peg_main.
    assert (E : is_endless (answer D s) = true -> False) by (intro E; apply (N s), H; split; assumption). destruct (answer D s) as [a| |b|].
    + destruct V as (ts & rest & P & _). eexists. exact P.
    + eexists. exact V.
    + destruct V as (m & rest & P & _). eexists. exact P.
    + destruct (E eq_refl).
Qed.

Lemma tell_message : forall msg, {s | ascii s /\ exists fuel er, parse fuel s rs = Err er /\ e_priority er = Critical /\ e_descr er = msg} +
  {forall s, ascii s -> ~ exists fuel er, parse fuel s rs = Err er /\ e_priority er = Critical /\ e_descr er = msg}.
Proof.
  intro msg. pose (D := rules_reader rs msg SR NR). destruct (reader_automaton _ _ _ D is_message) as (M & CM & H). destruct (some_run M CM) as [[s R]|N].
  - left. exists s. apply H in R. destruct R as [A E]. split; [exact A|]. apply (reader_message rs msg D SR s A), E.
  - right. intros s A X. apply (reader_message rs msg D SR s A) in X. apply (N s), H. split; assumption.
Qed.
End Questions.

Section Two.
Variables rs rs' : rules.
Hypothesis SR : sane_rules rs.
Hypothesis NR : no_recursion (grammar_of rs).
Hypothesis SR' : sane_rules rs'.
Hypothesis NR' : no_recursion (grammar_of rs').

Lemma tell_pair : forall g : bool -> bool -> bool, {s | ascii s /\ exists a b, (a = true <-> takes rs s) /\ (b = true <-> takes rs' s) /\ g a b = true} +
  {forall s a b, ascii s -> (a = true <-> takes rs s) -> (b = true <-> takes rs' s) -> g a b = false}.
Proof.
  intro g. pose (D := rules_reader rs [] SR NR). pose (D' := rules_reader rs' [] SR' NR').
  destruct (readers_automaton _ _ _ _ _ _ D D' (fun x y => g (is_match x) (is_match y))) as (M & CM & H).
  assert (T : forall s, ascii s -> (is_match (answer D s) = true <-> takes rs s)) by (intros s A; rewrite (reader_takes rs [] D SR s); tauto).
  assert (T' : forall s, ascii s -> (is_match (answer D' s) = true <-> takes rs' s)) by (intros s A; rewrite (reader_takes rs' [] D' SR' s); tauto).
  destruct (some_run M CM) as [[s R]|N].
  - left. exists s. apply H in R. destruct R as [A E]. split; [exact A|]. eexists _, _. split; [exact (T s A)|]. split; [exact (T' s A)|exact E].
  - right. intros s a b A Ea Eb. destruct (g a b) eqn:E; [|reflexivity]. destruct (N s). apply H. split; [exact A|].
    assert (X : is_match (answer D s) = a). { specialize (T s A). destruct (is_match (answer D s)), a; try reflexivity; [symmetry; apply Ea, T; reflexivity|apply T, Ea; reflexivity]. }
    assert (X' : is_match (answer D' s) = b). { specialize (T' s A). destruct (is_match (answer D' s)), b; try reflexivity; [symmetry; apply Eb, T'; reflexivity|apply T', Eb; reflexivity]. }
    rewrite X, X'. exact E.
Qed.

Lemma takes_dec : forall r (S1 : sane_rules r) (N1 : no_recursion (grammar_of r)) s, exists a, a = true <-> takes r s.
Proof.
  intros r S1 N1 s. pose (D := rules_reader r [] S1 N1). destruct (Forall_dec ascii_char ProofDocs.ascii_char_dec s) as [A|A].
  - exists (is_match (answer D s)). rewrite (reader_takes r [] D S1 s). tauto.
  - exists false. split; [discriminate|]. intro T. destruct (A (takes_ascii r s T)).
Qed.

Lemma tell_included : {s | takes rs s /\ ~ takes rs' s} + {forall s, takes rs s -> takes rs' s}.
Proof.
  destruct (tell_pair (fun a b => a && negb b)) as [[s (A & X)]|N].
  - left. exists s. destruct X as (a & b & Ea & Eb & E). apply andb_true_iff in E. destruct E as [-> E]. split; [apply Ea; reflexivity|]. intro T. apply Eb in T. rewrite T in E. discriminate.
  - right. intros s T. destruct (takes_dec rs SR NR s) as [a Ea]. destruct (takes_dec rs' SR' NR' s) as [b Eb]. specialize (N s a b (takes_ascii rs s T) Ea Eb).
    apply Ea in T. subst a. apply Eb. destruct b; [reflexivity|discriminate].
Qed.

Lemma tell_common : {s | takes rs s /\ takes rs' s} + {forall s, ~ (takes rs s /\ takes rs' s)}.
Proof.
  destruct (tell_pair andb) as [[s (A & X)]|N].
  - left. exists s. destruct X as (a & b & Ea & Eb & E). apply andb_true_iff in E. destruct E as [-> ->]. split; [apply Ea|apply Eb]; reflexivity.
  - right. intros s [T T']. destruct (takes_dec rs SR NR s) as [a Ea]. destruct (takes_dec rs' SR' NR' s) as [b Eb]. specialize (N s a b (takes_ascii rs s T) Ea Eb).
    apply Ea in T. apply Eb in T'. subst. discriminate.
Qed.
End Two.

Lemma tell_same : forall rs rs', sane_rules rs -> no_recursion (grammar_of rs) -> sane_rules rs' -> no_recursion (grammar_of rs') ->
  {s | (takes rs s /\ ~ takes rs' s) \/ (takes rs' s /\ ~ takes rs s)} + {forall s, takes rs s <-> takes rs' s}.
Proof.
  intros rs rs' SR NR SR' NR'. destruct (tell_included rs rs' SR NR SR' NR') as [[s X]|I]; [left; exists s; left; exact X|].
  destruct (tell_included rs' rs SR' NR' SR NR) as [[s X]|I']; [left; exists s; right; exact X|]. right. intro s. split; [apply I|apply I'].
Qed.
