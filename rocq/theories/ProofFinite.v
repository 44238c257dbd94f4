(** Proofs: rules without recursion have a finite memory.  The text is read from its end to its start. *)
From Verif Require Import Base ModelAst ModelParser SpecPeg SpecPos SpecApi SpecWf SpecBnf SpecLoops SpecPower SpecRegex SpecSpeed.
From Verif Require Import ProofAst ProofParser ProofEngine ProofApi ProofWf ProofBnf PegTools ProofLoops ProofSpeed ProofDocs.

(** * Finite types *)

Definition finite (A : Type) : Type := ((forall x y : A, {x = y} + {x <> y}) * {l : list A | forall x, In x l})%type.

(** How an expression ends, if it ends, with what is known about the rest of a match, and whether a message is a given one. *)
Inductive res (A : Type) : Type := RM (a : A) | RF | RA (mine : bool) | RD.
Arguments RM {A} a.
Arguments RF {A}.
Arguments RA {A} mine.
Arguments RD {A}.

Lemma finite_bool : finite bool.
Proof. split; [exact bool_dec|]. exists [true; false]. intros []; cbn; tauto. Qed.

Lemma finite_unit : finite unit.
Proof. split; [decide equality|]. exists [tt]. intros []; cbn; tauto. Qed.

Lemma finite_pair : forall A B, finite A -> finite B -> finite (A * B).
Proof.
  intros A B (dA & l & L) (dB & k & K). split; [decide equality|]. exists (list_prod l k). intros [a b]. apply in_prod; auto.
Qed.

Lemma finite_option : forall A, finite A -> finite (option A).
Proof. intros A (d & l & L). split; [decide equality|]. exists (None :: map Some l). intros [a|]; [right; apply in_map, L|left; reflexivity]. Qed.

Lemma finite_res : forall A, finite A -> finite (res A).
Proof. intros A (d & l & L). split; [decide equality; apply bool_dec|]. exists (RF :: RA true :: RA false :: RD :: map RM l). intros [a| |[]|]; cbn; auto. do 4 right. apply in_map, L. Qed.

(** * Machines *)

(** What a machine remembers of a text: it knows [K] of each shorter rest, and the chars. *)
Fixpoint pre {A Q} (p0 : Q) (step : Q -> A -> char -> Q) (K : str -> A) (s : str) : Q :=
  match s with [] => p0 | c :: t => step (pre p0 step K t) (K t) c end.

Definition computes (A : Type) (T : (str -> A) -> str -> res A -> Prop) : Type :=
  {Q : Type & {p0 : Q & {step : Q -> A -> char -> Q & {out : Q -> A -> res A & (finite Q * forall K s, T K s (out (pre p0 step K s) (K s)))%type}}}}.

Lemma pre_agree : forall A Q (p0 : Q) step (K K' : str -> A) n, (forall t, length t < n -> K t = K' t) -> forall s, length s <= n -> pre p0 step K s = pre p0 step K' s.
Proof.
  intros A Q p0 step K K' n H. induction s as [|c s IH]; intro L; [reflexivity|]. cbn [length] in L. cbn [pre]. rewrite (H s ltac:(lia)), IH by lia. reflexivity.
Qed.

Section Expressions.
Variable G : str -> option expr.
Variable msg : str.

(** [e] on [s] ends with [r]. *)
Definition val {A} (e : expr) (K : str -> A) (s : str) (r : res A) : Prop :=
  match r with
  | RM a => exists ts rest, peg G e s (PMatch ts rest) /\ K rest = a
  | RF => peg G e s PFail
  | RA mine => exists m rest, peg G e s (PAbort m rest) /\ str_eqb m msg = mine
  | RD => forall r, ~ peg G e s r
  end.

Definition regular (e : expr) : Type := forall A, finite A -> computes A (val e).
Definition all_regular (es : list expr) : Type := fold_right (fun e T => regular e * T)%type unit es.

Lemma computes_weaken : forall A (T T' : (str -> A) -> str -> res A -> Prop), (forall K s r, T K s r -> T' K s r) -> computes A T -> computes A T'.
Proof. intros A T T' H (Q & p0 & step & out & F & C). exists Q, p0, step, out. split; [exact F|]. intros K s. apply H, C. Qed.

(** Nothing is remembered. *)
Lemma const_machine : forall A (f : A -> res A) (T : (str -> A) -> str -> res A -> Prop), (forall K s, T K s (f (K s))) -> computes A T.
Proof. intros A f T H. exists unit, tt, (fun _ _ _ => tt), (fun _ a => f a). split; [exact finite_unit|]. intros K s. apply H. Qed.

(** The first char is of a kind. *)
Lemma char_machine : forall A (phi : char -> bool) (T : (str -> A) -> str -> res A -> Prop), finite A ->
  (forall K, T K [] RF) -> (forall K c t, T K (c :: t) (if phi c then RM (K t) else RF)) -> computes A T.
Proof.
  intros A phi T F H0 H1. exists (option A), None, (fun _ a c => if phi c then Some a else None), (fun q _ => match q with Some a => RM a | None => RF end).
  split; [apply finite_option; exact F|]. intros K [|c t]; [apply H0|]. specialize (H1 K c t). cbn [pre]. destruct (phi c); exact H1.
Qed.

Definition flat {A} (r : res (res A)) (f : res A) : res A := match r with RM y => y | RF => f | RA b => RA b | RD => RD end.

(** An expression and what comes after it. *)
Lemma seq_machine : forall A e (T : (str -> A) -> str -> res A -> Prop) (onfail : A -> res A), finite A -> regular e -> computes A T ->
  computes A (fun K s r => exists Y r1, (forall t, T K t (Y t)) /\ val e Y s r1 /\ r = flat r1 (onfail (K s))).
Proof.
  intros A e T onfail F R (Q2 & p2 & step2 & out2 & F2 & C2). destruct (R (res A) (finite_res A F)) as (Q1 & p1 & step1 & out1 & F1 & C1).
  exists (Q1 * Q2)%type, (p1, p2), (fun q a c => (step1 (fst q) (out2 (snd q) a) c, step2 (snd q) a c)), (fun q a => flat (out1 (fst q) (out2 (snd q) a)) (onfail a)).
  split; [apply finite_pair; assumption|]. intros K s. set (Y := fun t => out2 (pre p2 step2 K t) (K t)). set (q := pre _ _ K).
  assert (E : forall t, q t = (pre p1 step1 Y t, pre p2 step2 K t)).
  { induction t as [|c t IH]; [reflexivity|]. change (q (c :: t)) with (step1 (fst (q t)) (out2 (snd (q t)) (K t)) c, step2 (snd (q t)) (K t) c). rewrite IH. reflexivity. }
  exists Y, (out1 (pre p1 step1 Y s) (Y s)). split; [intro t; apply C2|]. split; [apply C1|]. rewrite E. reflexivity.
Qed.

Lemma val_and : forall A e es (K : str -> A) s Y r1, (forall t, val (And es) K t (Y t)) -> val e Y s r1 -> val (And (e :: es)) K s (flat r1 RF).
Proof.
  intros A e es K s Y [y| | |] H V; cbn [flat].
  - destruct V as (ts & rest & P & <-). specialize (H rest). destruct (Y rest) as [a| | |].
    + destruct H as (us & rest' & P' & E). exists (ts ++ us), rest'. split; [exact (peg_and_cons G e es s ts rest _ P P')|exact E].
    + exact (peg_and_cons G e es s ts rest _ P H).
    + destruct H as (m & rest' & P' & Em). exists m, rest'. split; [exact (peg_and_cons G e es s ts rest _ P P')|exact Em].
    + intros r X. inversion X as [| | | | | | | | | |e' es' s' ts' s1 r' X1 X2|e' es' s' r' X1 X2| | | | | | | | | | | |]; subst.
      * pose proof (peg_det _ _ _ _ X1 _ P) as D. injection D as -> ->. exact (H _ X2).
      * pose proof (peg_det _ _ _ _ X1 _ P) as D. subst r. destruct X2.
  - apply peg_and_stop; [exact V|exact I].
  - destruct V as (m & rest & P & Em). exists m, rest. split; [apply peg_and_stop; [exact P|exact I]|exact Em].
  - intros r X. inversion X; subst; eapply V; eassumption.
Qed.

Lemma and_regular : forall es, all_regular es -> regular (And es).
Proof.
  induction es as [|e es IH]; intros H A F.
  - apply (const_machine A RM). intros K s. exists [], s. split; [constructor|reflexivity].
  - eapply computes_weaken; [|exact (seq_machine A e (val (And es)) (fun _ => RF) F (fst H) (IH (snd H) A F))].
    intros K s r (Y & r1 & HY & V & ->). exact (val_and A e es K s Y r1 HY V).
Qed.

Lemma or_regular : forall es, all_regular es -> regular (Or es).
Proof.
  induction es as [|e es IH]; intros H A F.
  - apply (const_machine A (fun _ => RF)). intros K s. constructor.
  - destruct (fst H A F) as (Q1 & p1 & step1 & out1 & F1 & C1). destruct (IH (snd H) A F) as (Q2 & p2 & step2 & out2 & F2 & C2).
    exists (Q1 * Q2)%type, (p1, p2), (fun q a c => (step1 (fst q) a c, step2 (snd q) a c)), (fun q a => match out1 (fst q) a with RF => out2 (snd q) a | r => r end).
    split; [apply finite_pair; assumption|]. intros K s. set (q := pre _ _ K).
    assert (E : forall t, q t = (pre p1 step1 K t, pre p2 step2 K t)).
    { induction t as [|c t IHt]; [reflexivity|]. change (q (c :: t)) with (step1 (fst (q t)) (K t) c, step2 (snd (q t)) (K t) c). rewrite IHt. reflexivity. }
    rewrite E. cbn [fst snd]. specialize (C1 K s). specialize (C2 K s). destruct (out1 (pre p1 step1 K s) (K s)) as [a| | |].
    + destruct C1 as (ts & rest & P & X). exists ts, rest. split; [apply peg_or_first; [exact P|discriminate]|exact X].
    + cbn [val] in C1. destruct (out2 (pre p2 step2 K s) (K s)) as [a| | |].
      * destruct C2 as (ts & rest & P & X). exists ts, rest. split; [apply peg_or_next; assumption|exact X].
      * apply peg_or_next; assumption.
      * destruct C2 as (m & rest & P & Em). exists m, rest. split; [apply peg_or_next; assumption|exact Em].
      * intros r X. inversion X as [| | | | | | | | | | | | |e' es' s' r' X1 X2|e' es' s' r' X1 X2| | | | | | | | |]; subst; [|exact (C2 _ X2)].
        apply X2. exact (peg_det _ _ _ _ X1 _ C1).
    + destruct C1 as (m & rest & P & Em). exists m, rest. split; [apply peg_or_first; [exact P|discriminate]|exact Em].
    + intros r X. inversion X; subst; eapply C1; eassumption.
Qed.

Lemma not_regular : forall e, regular e -> regular (Not e).
Proof.
  intros e H A F. destruct (H A F) as (Q & p0 & step & out & FQ & C). exists Q, p0, step, (fun q a => match out q a with RM _ => RF | RD => RD | _ => RM a end).
  split; [exact FQ|]. intros K s. specialize (C K s). destruct (out (pre p0 step K s) (K s)) as [a| | |].
  - destruct C as (ts & rest & P & _). exact (peg_not_fail G e s ts rest P).
  - exists [], s. split; [exact (peg_not_ok G e s PFail C I)|reflexivity].
  - destruct C as (m & rest & P & _). exists [], s. split; [exact (peg_not_ok G e s _ P I)|reflexivity].
  - intros r X. inversion X; subst; eapply C; eassumption.
Qed.

(** A turn that does not end, or a turn after which the rest does not end. *)
Lemma rep_hangs : forall e mn mx s, mx <> Some 0 -> (forall r, ~ peg G e s r) -> forall r, ~ peg G (Repeat e mn mx) s r.
Proof. intros e mn mx s N H r X. inversion X; subst; [congruence|eapply H; eassumption..]. Qed.

Lemma rep_hangs_later : forall e mn mx s ts rest, mx <> Some 0 -> peg G e s (PMatch ts rest) -> (forall r, ~ peg G (Repeat e (pred mn) (option_map pred mx)) rest r) ->
  forall r, ~ peg G (Repeat e mn mx) s r.
Proof.
  intros e mn mx s ts rest N P H r X.
  inversion X as [| | | | | | | | | | | | | | | | |e' s'|e' mn' mx' s' ts' s1 r' N' X1 X2|e' mx' s' N' X1|e' mn' mx' s' N' L X1|e' mn' mx' s' m' rest' N' X1| |]; subst; [congruence| | | |].
  - pose proof (peg_det _ _ _ _ X1 _ P) as D. injection D as -> ->. exact (H _ X2).
  - pose proof (peg_det _ _ _ _ X1 _ P) as D. discriminate.
  - pose proof (peg_det _ _ _ _ X1 _ P) as D. discriminate.
  - pose proof (peg_det _ _ _ _ X1 _ P) as D. discriminate.
Qed.

Lemma val_more : forall A e mn mx (K : str -> A) s Y y, mx <> Some 0 -> (forall t, val (Repeat e (pred mn) (option_map pred mx)) K t (Y t)) -> val e Y s (RM y) -> val (Repeat e mn mx) K s y.
Proof.
  intros A e mn mx K s Y y N H (ts & rest & P & <-). specialize (H rest). destruct (Y rest) as [a| | |].
  - destruct H as (us & rest' & P' & E). exists (ts ++ us), rest'. split; [exact (peg_rep_more G e mn mx s ts rest _ N P P')|exact E].
  - exact (peg_rep_more G e mn mx s ts rest _ N P H).
  - destruct H as (m & rest' & P' & Em). exists m, rest'. split; [exact (peg_rep_more G e mn mx s ts rest _ N P P')|exact Em].
  - exact (rep_hangs_later e mn mx s ts rest N P H).
Qed.

Lemma times_regular : forall e, regular e -> forall m mn, mn <= m -> regular (Repeat e mn (Some m)).
Proof.
  intros e H. induction m as [|m IH]; intros mn L A F.
  - assert (mn = 0) by lia. subst. apply (const_machine A RM). intros K s. exists [], s. split; [constructor|reflexivity].
  - eapply computes_weaken; [|exact (seq_machine A e (val (Repeat e (pred mn) (Some m))) (fun a => if mn =? 0 then RM a else RF) F H (IH (pred mn) ltac:(lia) A F))].
    intros K s r (Y & r1 & HY & V & ->). destruct r1 as [y| | |]; cbn [flat].
    + apply (val_more A e mn (Some (S m)) K s Y y); [discriminate|exact HY|exact V].
    + destruct (Nat.eqb_spec mn 0) as [->|N].
      * exists [], s. split; [apply peg_rep_done; [discriminate|exact V]|reflexivity].
      * apply peg_rep_short; [discriminate|lia|exact V].
    + destruct V as (m' & rest & P & Em). exists m', rest. split; [apply peg_rep_abort; [discriminate|exact P]|exact Em].
    + refine (rep_hangs _ _ _ _ _ V); discriminate.
Qed.

Lemma suffix_shorter : forall e s ts rest, peg G e s (PMatch ts rest) -> length rest < length s \/ rest = s.
Proof.
  intros e s ts rest P. destruct (peg_derives G e s _ P ts rest eq_refl) as (w & -> & _). destruct w as [|c w]; [right; reflexivity|left]. rewrite app_length. cbn. lia.
Qed.

Lemma empty_turn : forall e s ts, peg G e s (PMatch ts s) -> forall mn r, ~ peg G (Repeat e mn None) s r.
Proof.
  intros e s ts P mn r X. remember (Repeat e mn None) as x eqn:Ex. revert mn ts P Ex.
  induction X as [| | | | | | | | | | | | | | | | | |e' mn' mx' s' ts' s1 r' N' X1 _ X2 IH|e' mx' s' N' X1 _|e' mn' mx' s' N' L X1 _|e' mn' mx' s' m' rest' N' X1 _| |]; intros mn0 ts0 P Ex; try discriminate Ex; injection Ex as E1 E2 E3; subst.
  - pose proof (peg_det _ _ _ _ X1 _ P) as D. injection D as -> ->. exact (IH _ _ P eq_refl).
  - pose proof (peg_det _ _ _ _ X1 _ P) as D. discriminate.
  - pose proof (peg_det _ _ _ _ X1 _ P) as D. discriminate.
  - pose proof (peg_det _ _ _ _ X1 _ P) as D. discriminate.
Qed.

(** A loop: what follows a turn is the loop again, on a shorter text; on the same text it does not end. *)
Lemma star_regular : forall e, regular e -> regular (Repeat e 0 None).
Proof.
  intros e H A F. destruct (H (res A) (finite_res A F)) as (Q & p0 & step & out & FQ & C).
  set (Yof := fun q a => flat (out q RD) (RM a)). exists Q, p0, (fun q a c => step q (Yof q a) c), Yof. split; [exact FQ|]. intros K s.
  set (q := pre p0 (fun q a c => step q (Yof q a) c) K). set (Y := fun t => Yof (q t) (K t)).
  assert (E : forall t, pre p0 step Y t = q t).
  { induction t as [|c t IH]; [reflexivity|]. cbn [pre]. rewrite IH. reflexivity. }
  enough (X : forall n t, length t < n -> val (Repeat e 0 None) K t (Y t)) by (apply (X (S (length s))); lia).
  induction n as [|n IH]; intros t L; [lia|]. set (Y' := fun u => if length u <? length t then Y u else RD).
  assert (V : val e Y' t (out (q t) RD)).
  { specialize (C Y' t). rewrite <- (pre_agree _ _ p0 step Y Y' (length t)), E in C.
    - unfold Y' in C at 2. rewrite Nat.ltb_irrefl in C. exact C.
    - intros u Lu. unfold Y'. rewrite (proj2 (Nat.ltb_lt _ _) Lu). reflexivity.
    - apply le_n. }
  unfold Y at 1, Yof. destruct (out (q t) RD) as [y| | |]; cbn [flat].
  - destruct V as (ts & rest & P & EY). unfold Y' in EY. destruct (suffix_shorter e t ts rest P) as [Lr| ->].
    + rewrite (proj2 (Nat.ltb_lt _ _) Lr) in EY. subst y. specialize (IH rest ltac:(lia)). destruct (Y rest) as [a| | |].
      * destruct IH as (us & rest' & P' & X). exists (ts ++ us), rest'. split; [exact (peg_rep_more G e 0 None t ts rest _ ltac:(discriminate) P P')|exact X].
      * exact (peg_rep_more G e 0 None t ts rest _ ltac:(discriminate) P IH).
      * destruct IH as (m & rest' & P' & Em). exists m, rest'. split; [exact (peg_rep_more G e 0 None t ts rest _ ltac:(discriminate) P P')|exact Em].
      * exact (rep_hangs_later e 0 None t ts rest ltac:(discriminate) P IH).
    + rewrite Nat.ltb_irrefl in EY. subst y. exact (empty_turn e t ts P 0).
  - exists [], t. split; [apply peg_rep_done; [discriminate|exact V]|reflexivity].
  - destruct V as (m & rest & P & Em). exists m, rest. split; [apply peg_rep_abort; [discriminate|exact P]|exact Em].
  - refine (rep_hangs _ _ _ _ _ V); discriminate.
Qed.

Lemma least_regular : forall e, regular e -> regular (Repeat e 0 None) -> forall mn, regular (Repeat e mn None).
Proof.
  intros e H S0. induction mn as [|mn IH]; [exact S0|]. intros A F.
  eapply computes_weaken; [|exact (seq_machine A e (val (Repeat e mn None)) (fun _ => RF) F H (IH A F))].
  intros K s r (Y & r1 & HY & V & ->). destruct r1 as [y| | |]; cbn [flat].
  - apply (val_more A e (S mn) None K s Y y); [discriminate|exact HY|exact V].
  - apply peg_rep_short; [discriminate|lia|exact V].
  - destruct V as (m' & rest & P & Em). exists m', rest. split; [apply peg_rep_abort; [discriminate|exact P]|exact Em].
  - refine (rep_hangs _ _ _ _ _ V); discriminate.
Qed.

(** A literal, char by char. *)
Lemma literal_regular : forall l, regular (Simple (Literal l)).
Proof.
  intros l A F. enough (H : forall l, computes A (fun K s r => match r with RM a => exists rest, s = l ++ rest /\ K rest = a | RF => forall rest, s <> l ++ rest | _ => False end)).
  { eapply computes_weaken; [|apply (H l)]. intros K s [a| | |] X; cbn; [| |destruct X..].
    - destruct X as (rest & -> & X). eexists _, rest. split; [constructor|exact X].
    - constructor. exact X. }
  clear l. induction l as [|c l (Q & p0 & step & out & FQ & C)].
  - apply (const_machine A RM). intros K s. exists s. split; reflexivity.
  - exists (Q * option (res A))%type, (p0, None), (fun q a c' => (step (fst q) a c', if N.eqb c' c then Some (out (fst q) a) else None)),
      (fun q _ => match snd q with Some r => r | None => RF end).
    split; [apply finite_pair; [exact FQ|apply finite_option, finite_res, F]|]. intros K s. set (q := pre _ _ K).
    assert (E : forall t, fst (q t) = pre p0 step K t).
    { induction t as [|x t IH]; [reflexivity|]. change (fst (q (x :: t))) with (step (fst (q t)) (K t) x). rewrite IH. reflexivity. }
    destruct s as [|x t]; [intros rest X; discriminate|]. change (snd (q (x :: t))) with (if N.eqb x c then Some (out (fst (q t)) (K t)) else None).
    destruct (N.eqb_spec x c) as [->|N].
    + rewrite E. specialize (C K t). destruct (out (pre p0 step K t) (K t)) as [a| | |]; [| |exact C..].
      * destruct C as (rest & -> & X). exists rest. split; [reflexivity|exact X].
      * intros rest X. injection X as X. exact (C rest X).
    + intros rest X. injection X as X _. congruence.
Qed.

Lemma in_class_match : forall cs rg c, match_char cs rg c = true <-> in_class cs rg c.
Proof.
  intros cs rg c. unfold match_char, in_class. destruct (existsb (fun c0 => N.eqb c0 c) cs) eqn:X.
  - apply existsb_exists in X. destruct X as (y & I & X). apply N.eqb_eq in X. subst y. tauto.
  - assert (NI : ~ In c cs). { intro I. enough (existsb (fun c0 => N.eqb c0 c) cs = true) by congruence. apply existsb_exists. exists c. split; [exact I|apply N.eqb_refl]. }
    rewrite existsb_exists. split.
    + intros ([lo hi] & I & E). apply andb_true_iff in E. cbn in E. rewrite !N.leb_le in E. right. exists lo, hi. auto.
    + intros [I|(lo & hi & I & E)]; [contradiction|]. exists (lo, hi). split; [exact I|]. cbn. apply andb_true_iff. rewrite !N.leb_le. exact E.
Qed.

Lemma atom_regular : forall a, regular (Simple a).
Proof.
  intros [l|cs rg|m| |] A F.
  - apply literal_regular. exact F.
  - apply (char_machine A (match_char cs rg)); [exact F| |].
    + intro K. apply peg_class_fail. discriminate.
    + intros K c t. destruct (match_char cs rg c) eqn:X.
      * eexists _, t. split; [apply peg_class_ok, in_class_match, X|reflexivity].
      * apply peg_class_fail. intros c' t' E X'. injection E as <- <-. apply in_class_match in X'. congruence.
  - apply (const_machine A (fun _ => RA (str_eqb m msg))). intros K s. eexists _, _. split; [constructor|reflexivity].
  - apply (char_machine A (fun _ => true)); [exact F|intro K; constructor|]. intros K c t. eexists _, t. split; [constructor|reflexivity].
  - exists bool, true, (fun (_ : bool) (_ : A) (_ : char) => false), (fun (q : bool) (a : A) => if q then RM a else RF). split; [exact finite_bool|]. intros K [|c t].
    + eexists _, []. split; [constructor|reflexivity].
    + constructor.
Qed.

Lemma rule_regular : forall n e, G n = Some e -> regular e -> regular (RuleName n).
Proof.
  intros n e E H A F. eapply computes_weaken; [|exact (H A F)]. intros K s [a| | |] V.
  - destruct V as (ts & rest & P & X). eexists _, rest. split; [exact (peg_rule G n e s _ E P)|exact X].
  - exact (peg_rule G n e s _ E V).
  - destruct V as (m & rest & P & Em). exists m, rest. split; [exact (peg_rule G n e s _ E P)|exact Em].
  - intros r X. inversion X as [| | | | | | | | | | | | | | | | | | | | | |n' e' s' r' E' X'|n' s' E']; subst; [|congruence]. assert (e' = e) by congruence. subst. exact (V _ X').
Qed.

Lemma missing_regular : forall n, G n = None -> regular (RuleName n).
Proof. intros n E A F. apply (const_machine A (fun _ => RA (str_eqb (missing_rule_msg n) msg))). intros K s. eexists _, _. split; [apply peg_rule_missing; exact E|reflexivity]. Qed.

End Expressions.

(** * Rules without recursion *)

(** All chains of references from [n] are shorter than [k]. *)
Fixpoint deep (rs : rules) (k : nat) (n : str) : bool :=
  match k with 0 => false | S h => match rules_get rs n with None => true | Some e => forallb (deep rs h) (names_in e) end end.

Lemma names_of : forall n e, In n (names_in e) -> occurs (RuleName n) e.
Proof.
  intros n e. induction e as [x|es IH|es IH|e IH|e mn mx IH|m] using expr_ind'; cbn [names_in]; intro I.
  - destruct I.
  - apply in_flat_map in I. destruct I as (x & Ix & I). rewrite Forall_forall in IH. exact (oc_and _ x es Ix (IH x Ix I)).
  - apply in_flat_map in I. destruct I as (x & Ix & I). rewrite Forall_forall in IH. exact (oc_or _ x es Ix (IH x Ix I)).
  - constructor. exact (IH I).
  - constructor. exact (IH I).
  - destruct I as [<-|[]]. constructor.
Qed.

Lemma deep_S : forall rs k n, deep rs (S k) n = match rules_get rs n with None => true | Some e => forallb (deep rs k) (names_in e) end.
Proof. reflexivity. Qed.

Lemma deep_mono : forall rs k n, deep rs k n = true -> deep rs (S k) n = true.
Proof.
  intros rs. induction k as [|k IH]; intros n D; [discriminate|]. rewrite deep_S in *. destruct (rules_get rs n) as [e|]; [|reflexivity].
  rewrite forallb_forall in *. intros m I. exact (IH m (D m I)).
Qed.

Lemma no_recursion_deep : forall rs, no_recursion (grammar_of rs) -> forall n, deep rs (S (length rs)) n = true.
Proof.
  intros rs NR. enough (H : forall k v n, NoDup v -> incl v (map fst rs) -> (forall x, In x v -> clos_trans str (refers (grammar_of rs)) x n) -> length rs - length v <= k -> deep rs (S k) n = true).
  { intro n. apply (H (length rs) [] n); [constructor|intros x []|intros x []|cbn; lia]. }
  induction k as [|k IH]; intros v n ND IN C L; rewrite deep_S; (destruct (rules_get rs n) as [e|] eqn:E; [|reflexivity]).
  all: assert (N : ~ In n v) by (intro I; exact (NR n (C n I))).
  all: assert (ND' : NoDup (n :: v)) by (constructor; assumption).
  all: assert (IN' : incl (n :: v) (map fst rs)) by (intros x [<-|I]; [exact (key_in_gen rs n e E)|exact (IN x I)]).
  all: pose proof (NoDup_incl_length ND' IN') as LE; rewrite map_length in LE; cbn [length] in LE.
  { lia. }
  apply forallb_forall. intros m O. destruct (rules_get rs m) as [e'|] eqn:E'; [|rewrite deep_S, E'; reflexivity].
  assert (R : refers (grammar_of rs) n m) by (split; [unfold grammar_of; congruence|exists e; split; [exact E|apply names_of, O]]).
  apply (IH (n :: v) m ND' IN'); [|cbn [length]; lia].
  intros x [<-|I]; [apply t_step; exact R|eapply t_trans; [exact (C x I)|apply t_step; exact R]].
Qed.

Lemma deep_no_recursion : forall rs k, (forall n, deep rs k n = true) -> no_recursion (grammar_of rs).
Proof.
  intros rs k D n C.
  assert (St : forall k a b, deep rs (S k) a = true -> refers (grammar_of rs) a b -> deep rs k b = true).
  { intros h a b Da (_ & e & E & O). rewrite deep_S in Da. unfold grammar_of in E. rewrite E, forallb_forall in Da. exact (Da b (names_in_ok b e O)). }
  assert (Tr : forall a b, clos_trans str (refers (grammar_of rs)) a b -> forall h, deep rs (S h) a = true -> deep rs h b = true).
  { intros a b T. induction T as [a b R|a b c _ IH1 _ IH2]; intros h Da; [exact (St h a b Da R)|]. apply IH1 in Da. apply IH2. apply deep_mono. exact Da. }
  assert (Z : forall h, deep rs h n = false) by (induction h as [|h IH]; [reflexivity|]; destruct (deep rs (S h) n) eqn:X; [rewrite (Tr n n C h X) in IH; discriminate|reflexivity]).
  specialize (D n). rewrite Z in D. discriminate.
Qed.

(** Whether rules are without recursion can be told. *)
Lemma no_recursion_dec : forall rs, {no_recursion (grammar_of rs)} + {~ no_recursion (grammar_of rs)}.
Proof.
  intro rs. destruct (forallb (deep rs (S (length rs))) (map fst rs)) eqn:D.
  - left. apply (deep_no_recursion rs (S (length rs))). intro n. destruct (rules_get rs n) as [e|] eqn:E; [|rewrite deep_S, E; reflexivity].
    rewrite forallb_forall in D. exact (D n (key_in_gen rs n e E)).
  - right. intro NR. enough (forallb (deep rs (S (length rs))) (map fst rs) = true) by congruence. apply forallb_forall. intros n _. exact (no_recursion_deep rs NR n).
Qed.

Lemma list_regular : forall G msg (P : expr -> Prop) es, (forall e, In e es -> P e) -> fold_right (fun e T => (P e -> regular G msg e) * T)%type unit es -> all_regular G msg es.
Proof.
  intros G msg P. induction es as [|e es IH]; intros H X; [exact tt|]. destruct X as [X1 X2]. split; [exact (X1 (H e (or_introl eq_refl)))|exact (IH (fun x I => H x (or_intror I)) X2)].
Qed.

Lemma sane_in : forall es e, fold_right (fun x P => sane x /\ P) True es -> In e es -> sane e.
Proof. induction es as [|x es IH]; intros e S0 I; [destruct I|]. destruct S0 as [S1 S2]. destruct I as [<-|I]; [exact S1|exact (IH e S2 I)]. Qed.

Section Rules.
Variable rs : rules.
Variable msg : str.
Hypothesis SR : sane_rules rs.
Let G := grammar_of rs.
Variable k : nat.
Variable names : forall n, deep rs k n = true -> regular G msg (RuleName n).

Let fine (e : expr) : Prop := sane e /\ forall n, In n (names_in e) -> deep rs k n = true.

Fixpoint expr_machine (e : expr) : fine e -> regular G msg e.
Proof.
  destruct e as [a|es|es|e|e mn mx|n]; intro F.
  - apply atom_regular.
  - apply and_regular. apply (list_regular G msg fine).
    + intros e I. split; [exact (sane_in es e (proj1 F) I)|]. intros n In'. apply (proj2 F). cbn [names_in]. apply in_flat_map. exists e. split; assumption.
    + clear F. induction es as [|e es IH]; [exact tt|]. exact (expr_machine e, IH).
  - apply or_regular. apply (list_regular G msg fine).
    + intros e I. split; [exact (sane_in es e (proj1 F) I)|]. intros n In'. apply (proj2 F). cbn [names_in]. apply in_flat_map. exists e. split; assumption.
    + clear F. induction es as [|e es IH]; [exact tt|]. exact (expr_machine e, IH).
  - apply not_regular. exact (expr_machine e F).
  - assert (F' : fine e) by (split; [exact (proj1 (proj1 F))|exact (proj2 F)]). destruct mx as [m|].
    + apply times_regular; [exact (expr_machine e F')|]. exact (proj2 (proj2 (proj1 F))).
    + apply least_regular; [exact (expr_machine e F')|]. apply star_regular. exact (expr_machine e F').
  - apply names. apply (proj2 F). left. reflexivity.
Defined.
End Rules.

Lemma rule_machine : forall rs msg, sane_rules rs -> forall k n, deep rs k n = true -> regular (grammar_of rs) msg (RuleName n).
Proof.
  intros rs msg SR. induction k as [|k IH]; intros n D; [discriminate|]. rewrite deep_S in D. destruct (rules_get rs n) as [e|] eqn:E; [|apply missing_regular; exact E].
  apply (rule_regular _ msg n e E). apply (expr_machine rs msg k IH e). split; [exact (SR n e E)|]. apply forallb_forall. exact D.
Qed.

(** * From a machine that reads from the end to an automaton *)

Section Automaton.
Variable Q : Type.
Variable dec : forall x y : Q, {x = y} + {x <> y}.
Variable l : list Q.
Hypothesis all : forall q, In q l.
Variable q0 : Q.
Variable step : Q -> char -> Q.
Variable good : Q -> bool.

Definition back (s : str) : Q := fold_right (fun c q => step q c) q0 s.

(** A state: which states of the machine would lead to a good one. *)
Let look (v : states) (q : Q) : bool := nth (position dec q l) v false.
Let next (v : states) (c : char) : states := map (fun q => look v (step q c)) l.
Let start : states := map good l.
Let vs : list states := start :: all_sets (length l).
Let pos (v : states) : nat := position states_dec v vs.
Definition forward : automaton := map (fun v => (look v q0, map (fun c => (c, pos (next v c))) ascii_chars)) vs.

Lemma look_map : forall f q, look (map f l) q = f q.
Proof.
  intros f q. unfold look. destruct (position_in dec q l (all q)) as [_ P]. apply nth_error_nth. rewrite nth_error_map, P. reflexivity.
Qed.

Lemma next_in : forall v c, In (next v c) vs.
Proof. intros v c. right. unfold next. rewrite <- (map_length (fun q => look v (step q c)) l). apply all_sets_in. Qed.

Lemma forward_state : forall v, In v vs -> nth_error forward (pos v) = Some (look v q0, map (fun c => (c, pos (next v c))) ascii_chars).
Proof. intros v V. unfold forward. rewrite nth_error_map. unfold pos. rewrite (proj2 (position_in states_dec v vs V)). reflexivity. Qed.

Lemma forward_runs : forall s v, In v vs -> runs forward (pos v) s <-> ascii s /\ look v (back s) = true.
Proof.
  induction s as [|c s IH]; intros v V.
  - rewrite runs_end_iff. unfold ends_at. rewrite (forward_state v V). cbn. split; [intro H; split; [constructor|exact H]|tauto].
  - rewrite runs_step_iff. unfold steps_of. rewrite (forward_state v V). cbn [snd back fold_right].
    assert (N : look (next v c) (back s) = look v (step (back s) c)) by (unfold next; rewrite look_map; reflexivity). split.
    + intros (q' & I & R). apply in_map_iff in I. destruct I as (c' & E & I). injection E as -> <-. apply (IH _ (next_in v c)) in R. destruct R as [A R].
      split; [constructor; [apply ascii_chars_in, I|exact A]|]. exact (eq_trans (eq_sym N) R).
    + intros [A R]. inversion A as [|c' s' Ac As]; subst. exists (pos (next v c)). split; [apply in_map_iff; exists c; split; [reflexivity|apply ascii_chars_in, Ac]|].
      apply (IH _ (next_in v c)). split; [exact As|]. exact (eq_trans N R).
Qed.

Lemma forward_closed : closed forward.
Proof.
  unfold forward. split; [cbn; lia|]. intros a steps c q I J. apply in_map_iff in I. destruct I as (v & E & _). apply pair_pair in E. destruct E as [_ <-]. apply in_map_iff in J. destruct J as (c' & E & _). apply pair_pair in E. destruct E as [_ <-].
  rewrite map_length. apply position_in, next_in.
Qed.

Lemma forward_same : forall s, runs forward 0 s <-> ascii s /\ good (back s) = true.
Proof.
  intro s. assert (P : pos start = 0) by (unfold pos, vs; cbn [position]; destruct (states_dec start start); congruence).
  rewrite <- P at 1. rewrite (forward_runs s start (or_introl eq_refl)). unfold start. rewrite look_map. reflexivity.
Qed.
End Automaton.

(** * Answers *)

Definition at_the_end (t : str) : bool := match t with [] => true | _ => false end.

(** A finite machine that reads the text from its end and knows how [e] ends. *)
Record reader (G : str -> option expr) (msg : str) (e : expr) : Type := {
  rd_state : Type; rd_finite : finite rd_state; rd_start : rd_state; rd_step : rd_state -> char -> rd_state; rd_answer : rd_state -> res bool;
  rd_right : forall s, val G msg e at_the_end s (rd_answer (back rd_state rd_start rd_step s)) }.
Arguments rd_state {G msg e}. Arguments rd_finite {G msg e}. Arguments rd_start {G msg e}. Arguments rd_step {G msg e}. Arguments rd_answer {G msg e}. Arguments rd_right {G msg e}.
Definition answer {G msg e} (D : reader G msg e) (s : str) : res bool := rd_answer D (back (rd_state D) (rd_start D) (rd_step D) s).

Lemma regular_reader : forall G msg e, regular G msg e -> reader G msg e.
Proof.
  intros G msg e H. set (K := at_the_end). destruct (H bool finite_bool) as (Q & p0 & step & out & FQ & C).
  set (step' := fun (q : Q * bool) (c : char) => (step (fst q) (snd q) c, false)). apply (Build_reader G msg e (Q * bool)%type (finite_pair _ _ FQ finite_bool) (p0, true) step' (fun q => out (fst q) (snd q))).
  intro s. assert (E : back (Q * bool) (p0, true) step' s = (pre p0 step K s, K s)).
  { induction s as [|c s IH]; [reflexivity|]. cbn [back fold_right]. change (fold_right _ _ s) with (back (Q * bool) (p0, true) step' s). rewrite IH. reflexivity. }
  rewrite E. apply C.
Qed.

Lemma reader_automaton : forall G msg e (D : reader G msg e) (g : res bool -> bool), {M | closed M /\ forall s, runs M 0 s <-> ascii s /\ g (answer D s) = true}.
Proof.
  intros G msg e D g. destruct (rd_finite D) as (dec & l & L). exists (forward (rd_state D) dec l (rd_start D) (rd_step D) (fun q => g (rd_answer D q))). split; [apply forward_closed|].
  intro s. rewrite forward_same by exact L. reflexivity.
Qed.

(** The same for two. *)
Lemma readers_automaton : forall G msg e G' msg' e' (D : reader G msg e) (D' : reader G' msg' e') (g : res bool -> res bool -> bool),
  {M | closed M /\ forall s, runs M 0 s <-> ascii s /\ g (answer D s) (answer D' s) = true}.
Proof.
  intros G msg e G' msg' e' D D' g. destruct (finite_pair _ _ (rd_finite D) (rd_finite D')) as (dec & l & L). set (step := fun q c => (rd_step D (fst q) c, rd_step D' (snd q) c)).
  exists (forward _ dec l (rd_start D, rd_start D') step (fun q => g (rd_answer D (fst q)) (rd_answer D' (snd q)))). split; [apply forward_closed|]. intro s. rewrite forward_same by exact L.
  assert (E : back _ (rd_start D, rd_start D') step s = (back _ (rd_start D) (rd_step D) s, back _ (rd_start D') (rd_step D') s)).
  { induction s as [|c s IH]; [reflexivity|]. cbn [back fold_right]. change (fold_right _ _ s) with (back _ (rd_start D, rd_start D') step s) at 1. rewrite IH. reflexivity. }
  rewrite E. reflexivity.
Qed.

Lemma rule_one : forall G n s r, peg G (RuleName n) s r -> forall ts rest, r = PMatch ts rest -> exists t, ts = [t].
Proof.
  intros G n s r P. remember (RuleName n) as x eqn:Ex. destruct P; try discriminate Ex; intros ts' rest' E; [|discriminate E].
  destruct r; cbn in E; try discriminate E. injection E as <- _. eexists. reflexivity.
Qed.

Definition is_match (r : res bool) : bool := match r with RM true => true | _ => false end.
Definition is_endless (r : res bool) : bool := match r with RD => true | _ => false end.

Lemma rules_reader : forall rs msg, sane_rules rs -> no_recursion (grammar_of rs) -> reader (grammar_of rs) msg (RuleName main).
Proof. intros rs msg SR NR. apply regular_reader. exact (rule_machine rs msg SR (S (length rs)) main (no_recursion_deep rs NR main)). Qed.

Lemma takes_ascii : forall rs s, takes rs s -> ascii s.
Proof.
  intros rs s (fuel & ast & P). destruct (Forall_dec ascii_char ascii_char_dec s) as [A|N]; [exact A|]. destruct (parse_non_ascii fuel s rs false ast N P).
Qed.

Lemma reader_takes : forall rs msg (D : reader (grammar_of rs) msg (RuleName main)), sane_rules rs -> forall s, takes rs s <-> ascii s /\ is_match (answer D s) = true.
Proof.
  intros rs msg D SR s. pose proof (rd_right D s) as V. change (rd_answer D _) with (answer D s) in V. split.
  - intro T. pose proof (takes_ascii rs s T) as A. destruct T as (fuel & ast & P). split; [exact A|].
    pose proof (proj1 (parse_accepts_iff s rs false SR A ast) (ex_intro _ fuel P)) as X. unfold peg_main in X. destruct (answer D s) as [[]| | |]; [reflexivity| | | |].
    + destruct V as (ts & rest & P' & E). pose proof (peg_det _ _ _ _ X _ P') as Y. injection Y as _ <-. discriminate.
    + pose proof (peg_det _ _ _ _ X _ V). discriminate.
    + destruct V as (m & rest & P' & _). pose proof (peg_det _ _ _ _ X _ P'). discriminate.
    + destruct (V _ X).
  - intros [A E]. destruct (answer D s) as [[]| | |]; try discriminate. destruct V as (ts & rest & P' & E'). destruct rest; [|discriminate].
    pose proof (rule_one _ _ _ _ P' ts [] eq_refl) as T. destruct T as [t ->]. destruct (proj2 (parse_accepts_iff s rs false SR A t) P') as [fuel F]. exists fuel, t. exact F.
Qed.

Lemma reader_hangs : forall rs msg (D : reader (grammar_of rs) msg (RuleName main)), sane_rules rs -> forall s, ascii s -> (~ finishes rs s <-> is_endless (answer D s) = true).
Proof.
  intros rs msg D SR s A. pose proof (rd_right D s) as V. change (rd_answer D _) with (answer D s) in V. unfold finishes. rewrite (parse_terminates_iff s rs false SR A). split.
  - intro N. destruct (answer D s) as [a| | |]; [destruct N..|reflexivity].
    + destruct V as (ts & rest & P & _). eexists. exact P.
    + eexists. exact V.
    + destruct V as (m & rest & P & _). eexists. exact P.
  - intros E [r P]. destruct (answer D s); try discriminate. exact (V r P).
Qed.

Lemma peg_rest : forall G e s r, peg G e s r -> match r with PMatch _ rest | PAbort _ rest => exists w, s = w ++ rest | PFail => True end.
Proof.
  assert (App : forall s s1 (w : str) r ts, s = w ++ s1 -> match r with PMatch _ rest | PAbort _ rest => exists w, s1 = w ++ rest | PFail => True end ->
    match prepend ts r with PMatch _ rest | PAbort _ rest => exists w, s = w ++ rest | PFail => True end).
  { intros s s1 w [us rest| |m rest] ts E X; cbn; [|exact I|]; destruct X as [w' ->]; exists (w ++ w'); rewrite E, app_assoc; reflexivity. }
  intros G e s r P. induction P; try exact I; try (exists []; reflexivity); try assumption; try (eexists; reflexivity); try (exists [c]; reflexivity).
  - destruct IHP1 as [w Ew]. exact (App _ _ w _ _ Ew IHP2).
  - destruct IHP1 as [w Ew]. exact (App _ _ w _ _ Ew IHP2).
  - destruct r; exact IHP.
Qed.

Definition is_message (r : res bool) : bool := match r with RA true => true | _ => false end.

Lemma reader_message : forall rs msg (D : reader (grammar_of rs) msg (RuleName main)), sane_rules rs -> forall s, ascii s ->
  ((exists fuel er, parse fuel s rs = Err er /\ e_priority er = Critical /\ e_descr er = msg) <-> is_message (answer D s) = true).
Proof.
  intros rs msg D SR s A. pose proof (rd_right D s) as V. change (rd_answer D _) with (answer D s) in V. split.
  - intros (fuel & er & P & C & E). destruct (proj1 (parse_abort_iff s rs msg (pn (e_pos er)) SR A)) as (rest & X & _); [exists fuel, er; auto|]. unfold peg_main in X.
    destruct (answer D s) as [a| |[]|]; [| |reflexivity| |].
    + destruct V as (ts & rest' & P' & _). pose proof (peg_det _ _ _ _ X _ P'). discriminate.
    + pose proof (peg_det _ _ _ _ X _ V). discriminate.
    + destruct V as (m & rest' & P' & Em). pose proof (peg_det _ _ _ _ X _ P') as Y. injection Y as <- _. rewrite str_eqb_refl in Em. discriminate.
    + destruct (V _ X).
  - intro E. destruct (answer D s) as [a| |[]|]; try discriminate. destruct V as (m & rest & P & Em). apply str_eqb_eq in Em. subst m.
    destruct (peg_rest _ _ _ _ P) as [w Ew]. destruct (proj2 (parse_abort_iff s rs msg (length w) SR A)) as (fuel & er & F & C & Ed & _).
    + exists rest. split; [exact P|]. rewrite Ew, app_length. reflexivity.
    + exists fuel, er. auto.
Qed.

Lemma no_recursion_regular : forall rs, sane_rules rs -> no_recursion (grammar_of rs) ->
  (exists M, closed M /\ forall s, takes rs s <-> runs M 0 s) /\ (exists M, closed M /\ forall s, ascii s -> (~ finishes rs s <-> runs M 0 s)).
Proof.
  intros rs SR NR. pose (D := rules_reader rs [] SR NR). split.
  - destruct (reader_automaton _ _ _ D is_match) as (M & CM & H). exists M. split; [exact CM|]. intro s. rewrite H. exact (reader_takes rs [] D SR s).
  - destruct (reader_automaton _ _ _ D is_endless) as (M & CM & H). exists M. split; [exact CM|]. intros s A. rewrite H, (reader_hangs rs [] D SR s A). tauto.
Qed.
