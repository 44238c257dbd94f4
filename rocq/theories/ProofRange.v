(** Proofs about numbers up to given bounds. *)
From Verif Require Import Base ModelAst ModelParser SpecPeg SpecPos SpecApi SpecTable SpecRange.
From Verif Require Import ProofParser ProofEngine ProofApi ProofDebug ProofDocs Examples.

(** ** Decimal numbers *)
Ltac zl := unfold str, char in *; lia.
Ltac zn := unfold str, char in *; nia.

Fixpoint p10 (k : nat) : nat := match k with 0 => 1 | S j => 10 * p10 j end.
Lemma p10_S : forall k, p10 (S k) = 10 * p10 k.
Proof. reflexivity. Qed.
Lemma p10_add : forall a b, p10 (a + b) = p10 a * p10 b.
Proof. induction a as [|a IH]; intro b; [cbn; zl|]. cbn [Nat.add]. rewrite !p10_S, IH. zl. Qed.
Lemma p10_mono : forall a b, a <= b -> p10 a <= p10 b.
Proof. induction 1 as [|b L IH]; [apply Nat.le_refl|]. rewrite p10_S. zl. Qed.
Definition dv (c : char) : nat := N.to_nat (c - 48).
Fixpoint value (w : str) : nat := match w with [] => 0 | c :: r => dv c * p10 (length r) + value r end.
Definition numeral (w : str) : Prop := w = [48%N] \/ exists c r, w = c :: r /\ (49 <= c <= 57)%N /\ Forall digit r.

Lemma value_app : forall a b, value (a ++ b) = value a * p10 (length b) + value b.
Proof.
  induction a as [|c a IH]; intro b; [reflexivity|]. cbn [app value]. rewrite IH, app_length, p10_add. zn.
Qed.
Lemma pow_pos : forall k, 1 <= p10 k.
Proof. induction k as [|k IH]; [apply Nat.le_refl|]. rewrite p10_S. zl. Qed.
Lemma value_bound : forall w, Forall digit w -> value w < p10 (length w).
Proof.
  induction w as [|c w IH]; intro H; [cbn; zl|]. inversion H as [|? ? D F]; subst. specialize (IH F). cbn [value length]. rewrite p10_S.
  assert (dv c <= 9) by (unfold dv, digit in *; zl). zn.
Qed.
Lemma numeral_digits : forall w, numeral w -> Forall digit w.
Proof. intros w [->|(c & r & -> & C & F)]; constructor; [unfold digit; zl|constructor|unfold digit; zl|exact F]. Qed.
Lemma numeral_low : forall c r, (49 <= c <= 57)%N -> p10 (length r) <= value (c :: r).
Proof. intros c r H. cbn [value]. assert (1 <= dv c) by (unfold dv; zl). pose proof (Nat.mul_le_mono_r 1 (dv c) (p10 (length r)) ltac:(assumption)). rewrite Nat.mul_1_l in *. apply (Nat.le_trans _ _ _ H1), Nat.le_add_r. Qed.

Lemma dec_aux_spec : forall f n acc, n < f -> exists w, dec_aux f n acc = w ++ acc /\ numeral w /\ value w = n.
Proof.
  induction f as [|f IH]; intros n acc L; [zl|]. cbn [dec_aux].
  pose proof (Nat.div_mod n 10 ltac:(zl)) as DM. pose proof (Nat.mod_upper_bound n 10 ltac:(zl)) as MB.
  destruct (n / 10 =? 0) eqn:E.
  - apply Nat.eqb_eq in E. exists [dec_digit (n mod 10)]. split; [reflexivity|]. assert (DV : dv (dec_digit (n mod 10)) = n mod 10) by (unfold dv, dec_digit; zl). split.
    + destruct (Nat.eq_dec (n mod 10) 0) as [Z|Z]; [left; rewrite Z; reflexivity|]. right. exists (dec_digit (n mod 10)), []. split; [reflexivity|]. split; [unfold dec_digit; zl|constructor].
    + cbn [value length]. rewrite DV. change (p10 0) with 1. zl.
  - apply Nat.eqb_neq in E. destruct (IH (n / 10) (dec_digit (n mod 10) :: acc)) as (w & W & NW & VW); [zl|].
    exists (w ++ [dec_digit (n mod 10)]). split; [rewrite W, <- app_assoc; reflexivity|].
    assert (DV : dv (dec_digit (n mod 10)) = n mod 10) by (unfold dv, dec_digit; zl). split.
    + destruct NW as [->|(c & r & -> & C & F)]; [destruct (E (eq_sym VW))|]. right. exists c, (r ++ [dec_digit (n mod 10)]). split; [reflexivity|]. split; [exact C|].
      apply Forall_app. split; [exact F|]. constructor; [unfold digit, dec_digit; zl|constructor].
    + rewrite value_app, VW. cbn [value length]. rewrite DV. change (p10 1) with 10. change (p10 0) with 1. zl.
Qed.
Lemma dec_numeral : forall n, numeral (dec n) /\ value (dec n) = n.
Proof. intro n. destruct (dec_aux_spec (S n) n [] ltac:(zl)) as (w & W & H). unfold dec. rewrite W, app_nil_r. exact H. Qed.

(** Of two numerals with the same number of digits the one that comes first in the alphabet is less. *)
Lemma value_inj : forall a b, Forall digit a -> Forall digit b -> length a = length b -> value a = value b -> a = b.
Proof.
  induction a as [|c a IH]; intros [|d b] A B L V; cbn [length] in L; try discriminate; [reflexivity|].
  inversion A as [|? ? Da Fa]; inversion B as [|? ? Db Fb]; subst. injection L as L. cbn [value] in V. rewrite L in V.
  pose proof (value_bound a Fa) as Va. pose proof (value_bound b Fb) as Vb. rewrite L in Va.
  assert (dv c = dv d) by zn. assert (E : c = d) by (unfold dv, digit in *; zl). subst d. f_equal. apply IH; [exact Fa|exact Fb|exact L|zl].
Qed.
Lemma numeral_inj : forall a b, numeral a -> numeral b -> value a = value b -> a = b.
Proof.
  assert (S : forall a b, numeral a -> numeral b -> length a < length b -> value a < value b).
  { intros a b NA [->|(c & r & -> & C & F)] L.
    - destruct a as [|x a]; [|cbn in L; zl]. destruct NA as [X|(? & ? & X & _)]; discriminate.
    - pose proof (numeral_low c r C) as LO. pose proof (value_bound a (numeral_digits a NA)) as HI. cbn [length] in L.
      assert (p10 (length a) <= p10 (length r)) by (apply p10_mono; zl). zl. }
  intros a b NA NB V. destruct (Nat.lt_trichotomy (length a) (length b)) as [L|[L|L]].
  - pose proof (S a b NA NB L). zl.
  - apply value_inj; [apply numeral_digits; exact NA|apply numeral_digits; exact NB|exact L|exact V].
  - pose proof (S b a NB NA L). zl.
Qed.
Lemma numeral_dec : forall w, numeral w -> w = dec (value w).
Proof. intros w H. destruct (dec_numeral (value w)) as [N V]. apply numeral_inj; [exact H|exact N|symmetry; exact V]. Qed.

(** ** What the expressions match *)
Section Match.
Variable G : str -> option expr.

Definition out (o : option (str * str)) : presult := match o with Some (w, r) => PMatch (by_chars w) r | None => PFail end.
Definition computes (e : expr) (f : str -> option (str * str)) : Prop := forall s, peg G e s (out (f s)).

Definition f_nil (s : str) : option (str * str) := Some ([], s).
Definition f_seq (f g : str -> option (str * str)) (s : str) : option (str * str) :=
  match f s with
  | Some (w, r) => match g r with Some (w', r') => Some (w ++ w', r') | None => None end
  | None => None
  end.
Definition f_alt (f g : str -> option (str * str)) (s : str) : option (str * str) := match f s with Some x => Some x | None => g s end.
Definition f_range (lo hi : char) (s : str) : option (str * str) :=
  match s with c :: r => if ((lo <=? c) && (c <=? hi))%N then Some ([c], r) else None | [] => None end.

Lemma c_nil : computes (And []) f_nil.
Proof. intro s. apply peg_and_nil. Qed.
Lemma c_seq : forall e es f g, computes e f -> computes (And es) g -> computes (And (e :: es)) (f_seq f g).
Proof.
  intros e es f g F H s. unfold f_seq. specialize (F s). destruct (f s) as [[w r]|]; cbn [out] in F.
  - pose proof (peg_and_cons G e es s _ _ _ F (H r)) as X. destruct (g r) as [[w' r']|]; cbn [out prepend] in *; [|exact X].
    unfold by_chars. rewrite map_app. exact X.
  - apply peg_and_stop; [exact F|exact I].
Qed.
Lemma c_alt0 : computes (Or []) (fun _ => None).
Proof. intro s. apply peg_or_nil. Qed.
Lemma c_alt : forall e es f g, computes e f -> computes (Or es) g -> computes (Or (e :: es)) (f_alt f g).
Proof.
  intros e es f g F H s. unfold f_alt. specialize (F s). destruct (f s) as [[w r]|]; cbn [out] in *.
  - apply peg_or_first; [exact F|discriminate].
  - apply peg_or_next; [exact F|apply H].
Qed.
Lemma c_range : forall lo hi, computes (ematch [] [(lo, hi)]) (f_range lo hi).
Proof.
  intros lo hi s. unfold f_range. destruct s as [|c r].
  - apply peg_class_fail. intros c r E. discriminate.
  - destruct ((lo <=? c) && (c <=? hi))%N eqn:E; cbn [out].
    + apply peg_class_ok. right. exists lo, hi. split; [left; reflexivity|]. apply andb_prop in E. destruct E as [E1 E2]. apply N.leb_le in E1, E2. zl.
    + apply peg_class_fail. intros c' r' X [[]|(a & b & [Y|[]] & Z)]. injection X as <- <-. injection Y as <- <-.
      apply andb_false_iff in E. rewrite !N.leb_gt in E. zl.
Qed.
Lemma c_char : forall d, computes (lit [d]) (f_range d d).
Proof.
  intros d s. unfold f_range. destruct s as [|c r].
  - apply peg_lit_fail. intros rest E. discriminate.
  - destruct ((d <=? c) && (c <=? d))%N eqn:E; cbn [out].
    + apply andb_prop in E. destruct E as [E1 E2]. apply N.leb_le in E1, E2. assert (c = d) by zl. subst c. exact (peg_lit_ok G [d] r).
    + apply peg_lit_fail. intros rest X. injection X as -> ->. rewrite N.leb_refl in E. discriminate.
Qed.

(** A given number of digits. *)
Fixpoint f_digits (n : nat) : str -> option (str * str) := match n with 0 => f_nil | S m => f_seq (f_range 48%N 57%N) (f_digits m) end.
Lemma c_digits : forall n, computes (And (repeat any_digit n)) (f_digits n).
Proof. induction n as [|n IH]; [exact c_nil|]. cbn [repeat f_digits]. apply c_seq; [apply c_range|exact IH]. Qed.

Fixpoint f_same (lo : char) (ds : str) : str -> option (str * str) :=
  match ds with
  | [] => f_nil
  | d :: r => f_alt (f_seq (f_range lo (N.pred d)) (f_digits (length r))) (f_alt (f_seq (f_range d d) (f_seq (f_same 48%N r) f_nil)) (fun _ => None))
  end.
Lemma c_same : forall ds lo, computes (upto_same lo ds) (f_same lo ds).
Proof.
  induction ds as [|d r IH]; intro lo; [exact c_nil|]. cbn [upto_same f_same]. apply c_alt; [apply c_seq; [apply c_range|apply c_digits]|].
  apply c_alt; [|apply c_alt0]. apply c_seq; [apply c_char|]. apply c_seq; [apply IH|exact c_nil].
Qed.
Fixpoint f_shorter (k : nat) (g : str -> option (str * str)) : str -> option (str * str) :=
  match k with 0 => g | S j => f_alt (f_seq (f_range 49%N 57%N) (f_digits j)) (f_shorter j g) end.
Lemma c_shorter : forall k l g, computes (Or l) g -> computes (Or (upto_shorter k ++ l)) (f_shorter k g).
Proof. induction k as [|k IH]; intros l g H; [exact H|]. cbn [upto_shorter app f_shorter]. apply c_alt; [apply c_seq; [apply c_range|apply c_digits]|apply IH, H]. Qed.
Definition f_upto (n : nat) : str -> option (str * str) :=
  f_alt (f_same 49%N (dec n)) (f_shorter (length (dec n) - 1) (f_alt (f_range 48%N 48%N) (fun _ => None))).
Lemma c_upto : forall n, computes (upto n) (f_upto n).
Proof. intro n. unfold upto, f_upto. apply c_alt; [apply c_same|]. apply c_shorter. apply c_alt; [exact (c_char 48%N)|apply c_alt0]. Qed.

(** ** What is matched are numerals *)
Lemma range_some : forall lo hi s w r, f_range lo hi s = Some (w, r) <-> exists c, w = [c] /\ s = c :: r /\ (lo <= c <= hi)%N.
Proof.
  intros lo hi s w r. unfold f_range. split.
  - destruct s as [|c s]; [discriminate|]. destruct ((lo <=? c) && (c <=? hi))%N eqn:E; [|discriminate]. intro H. injection H as <- <-.
    exists c. split; [reflexivity|]. split; [reflexivity|]. apply andb_prop in E. destruct E as [E1 E2]. apply N.leb_le in E1, E2. zl.
  - intros (c & -> & -> & H). assert (E : ((lo <=? c) && (c <=? hi))%N = true) by (rewrite andb_true_iff, !N.leb_le; zl). rewrite E. reflexivity.
Qed.
Lemma seq_some : forall f g s w r, f_seq f g s = Some (w, r) <-> exists w1 r1 w2, f s = Some (w1, r1) /\ g r1 = Some (w2, r) /\ w = w1 ++ w2.
Proof.
  intros f g s w r. unfold f_seq. split.
  - destruct (f s) as [[w1 r1]|]; [|discriminate]. destruct (g r1) as [[w2 r2]|] eqn:E; [|discriminate]. intro H. injection H as <- <-. exists w1, r1, w2. auto.
  - intros (w1 & r1 & w2 & -> & -> & ->). reflexivity.
Qed.
Lemma digits_some : forall n s w r, f_digits n s = Some (w, r) <-> s = w ++ r /\ length w = n /\ Forall digit w.
Proof.
  induction n as [|n IH]; intros s w r; cbn [f_digits].
  - unfold f_nil. split; [intro H; injection H as <- <-; repeat split; constructor|]. intros (-> & L & _). destruct w; [reflexivity|discriminate].
  - rewrite seq_some. split.
    + intros (w1 & r1 & w2 & H1 & H2 & ->). apply range_some in H1. destruct H1 as (c & -> & -> & C). apply IH in H2. destruct H2 as (-> & L & F).
      split; [reflexivity|]. split; [cbn; zl|]. constructor; [exact C|exact F].
    + intros (-> & L & F). destruct w as [|c w]; [discriminate|]. inversion F as [|? ? C F']; subst. injection L as L.
      exists [c], (w ++ r), w. split; [apply range_some; exists c; auto|]. split; [apply IH; auto|reflexivity].
Qed.

(** In the order of the alphabet. *)
Fixpoint not_after (lo : char) (w ds : str) : Prop :=
  match w, ds with
  | [], [] => True
  | c :: w', d :: ds' => ((lo <= c < d)%N /\ length w' = length ds' /\ Forall digit w') \/ (c = d /\ not_after 48%N w' ds')
  | _, _ => False
  end.
Lemma same_some : forall ds, Forall digit ds -> forall lo s w r, f_same lo ds s = Some (w, r) <-> s = w ++ r /\ not_after lo w ds.
Proof.
  induction ds as [|d ds IH]; intros DG lo s w r; cbn [f_same].
  - unfold f_nil. split.
    + intro H. injection H as <- <-. split; [reflexivity|exact I].
    + intros [-> H]. destruct w; [reflexivity|destruct H].
  - inversion DG as [|? ? Dd DG']; subst. specialize (IH DG'). unfold digit in Dd. unfold f_alt. destruct (f_seq (f_range lo (N.pred d)) (f_digits (length ds)) s) as [[w1 r1]|] eqn:E.
    + apply seq_some in E. destruct E as (w2 & r2 & w3 & H1 & H2 & ->). apply range_some in H1. destruct H1 as (c & -> & -> & C). apply digits_some in H2. destruct H2 as (-> & L & F).
      assert (LT : (c < d)%N) by zl. split.
      * intro H. injection H as <- <-. split; [reflexivity|]. cbn [app not_after]. left. split; [zl|]. split; assumption.
      * intros [S H]. destruct w as [|c' w]; [destruct H|]. injection S as <- S. cbn [not_after] in H. destruct H as [(_ & L' & F')|[-> _]]; [|zl].
        assert (X : w3 = w /\ r1 = r). { assert (LL : length w3 = length w) by zl. clear -S LL. revert w S LL. induction w3 as [|x w3 IH]; intros [|y w] S LL; cbn in *; try discriminate; [auto|]. injection S as <- S. injection LL as LL. destruct (IH w S LL) as [-> ->]. auto. }
        destruct X as [-> ->]. reflexivity.
    + destruct (f_seq (f_range d d) (f_seq (f_same 48%N ds) f_nil) s) as [[w1 r1]|] eqn:E2.
      * apply seq_some in E2. destruct E2 as (w2 & r2 & w3 & H1 & H2 & ->). apply range_some in H1. destruct H1 as (c & -> & -> & C). assert (c = d) by zl. subst c.
        apply seq_some in H2. destruct H2 as (w4 & r4 & w5 & H2 & H3 & ->). injection H3 as <- <-. rewrite app_nil_r. pose proof H2 as H2'. apply IH in H2. destruct H2 as (-> & NA). split.
        -- intro H. injection H as <- <-. split; [reflexivity|]. right. auto.
        -- intros [S H]. destruct w as [|c' w]; [destruct H|]. injection S as <- S. cbn [not_after] in H. destruct H as [(X & _)|[_ H]]; [zl|].
           assert (Y : f_same 48%N ds (w4 ++ r4) = Some (w, r)) by (apply IH; auto). rewrite Y in H2'. injection H2' as -> ->. reflexivity.
      * split; [discriminate|]. intros [-> H]. exfalso. destruct w as [|c w]; [destruct H|]. cbn [not_after] in H. destruct H as [(C & L & F)|[-> H]].
        -- assert (X : f_seq (f_range lo (N.pred d)) (f_digits (length ds)) ((c :: w) ++ r) = Some (c :: w, r)).
           { apply seq_some. exists [c], (w ++ r), w. split; [apply range_some; exists c; split; [reflexivity|]; split; [reflexivity|zl]|]. split; [apply digits_some; auto|reflexivity]. }
           congruence.
        -- assert (X : f_seq (f_range d d) (f_seq (f_same 48%N ds) f_nil) ((d :: w) ++ r) = Some (d :: w, r)).
           { apply seq_some. exists [d], (w ++ r), w. split; [apply range_some; exists d; split; [reflexivity|]; split; [reflexivity|zl]|]. split; [|reflexivity].
             apply seq_some. exists w, r, []. split; [apply IH; auto|]. split; [reflexivity|symmetry; apply app_nil_r]. }
           congruence.
Qed.

Lemma not_after_length : forall ds lo w, not_after lo w ds -> length w = length ds.
Proof.
  induction ds as [|d ds IH]; intros lo [|c w] H; cbn [not_after] in H; try destruct H; [reflexivity|cbn [length]; f_equal; tauto|].
  cbn [length]. f_equal. apply (IH 48%N). tauto.
Qed.
(** With digits, this is the order of the values. *)
Lemma not_after_value : forall ds lo w, (48 <= lo)%N -> Forall digit ds ->
  (not_after lo w ds <-> Forall digit w /\ length w = length ds /\ value w <= value ds /\ (match w, ds with c :: _, d :: _ => (lo <= c)%N \/ c = d | _, _ => True end)).
Proof.
  induction ds as [|d ds IH]; intros lo [|c w] LO DS; cbn [not_after].
  - split; [intros _; repeat split; constructor|auto].
  - split; [intros []|intros (_ & X & _); discriminate].
  - split; [intros []|intros (_ & X & _); discriminate].
  - inversion DS as [|? ? D F]; subst. pose proof (value_bound ds F) as VD. cbn [value length]. rewrite (IH 48%N w ltac:(zl) F). split.
    + intros [(C & L & FW)|(-> & FW & L & V & _)].
      * split; [constructor; [unfold digit in *; zl|exact FW]|]. split; [zl|]. split; [|left; zl]. pose proof (value_bound w FW) as VW. rewrite L in *.
        assert (dv c < dv d) by (unfold dv, digit in *; zl). zn.
      * split; [constructor; [exact D|exact FW]|]. split; [zl|]. rewrite L. split; [zl|right; reflexivity].
    + intros (FW & L & V & C). inversion FW as [|? ? DC FW']; subst. injection L as L. rewrite L in V. pose proof (value_bound w FW') as VW. rewrite L in VW.
      destruct (N.lt_trichotomy c d) as [X|[X|X]].
      * left. split; [split; [destruct C as [C|C]; [exact C|zl]|exact X]|]. auto.
      * right. subst c. split; [reflexivity|]. split; [exact FW'|]. split; [exact L|]. split; [zl|]. destruct w as [|c w]; [exact I|]. destruct ds as [|d' ds]; [exact I|]. left. inversion FW' as [|? ? Y]; subst. unfold digit in Y. zl.
      * exfalso. assert (dv d < dv c) by (unfold dv, digit in *; zl). zn.
Qed.

Lemma shorter_some : forall k g s w r, f_shorter k g s = Some (w, r) ->
  (exists c v, w = c :: v /\ s = w ++ r /\ (49 <= c <= 57)%N /\ Forall digit v /\ length w <= k) \/ g s = Some (w, r).
Proof.
  induction k as [|k IH]; intros g s w r H; cbn [f_shorter] in H; [right; exact H|]. unfold f_alt in H.
  destruct (f_seq (f_range 49%N 57%N) (f_digits k) s) as [[w1 r1]|] eqn:E.
  - injection H as <- <-. left. apply seq_some in E. destruct E as (w2 & r2 & w3 & H1 & H2 & ->). apply range_some in H1. destruct H1 as (c & -> & -> & C).
    apply digits_some in H2. destruct H2 as (-> & L & F). exists c, w3. split; [reflexivity|]. split; [reflexivity|]. split; [exact C|]. split; [exact F|cbn; zl].
  - destruct (IH _ _ _ _ H) as [(c & v & A & B & C & D & L)|X]; [left; exists c, v; repeat split; auto; zl|right; exact X].
Qed.

(** Nothing but numbers up to [n] is matched ... *)
Lemma upto_sound : forall n s w r, f_upto n s = Some (w, r) -> s = w ++ r /\ exists m, m <= n /\ w = dec m.
Proof.
  intros n s w r H. destruct (dec_numeral n) as [NN NV]. pose proof (numeral_digits _ NN) as DN.
  assert (X : s = w ++ r /\ numeral w /\ value w <= n).
  { unfold f_upto, f_alt in H. destruct (f_same 49%N (dec n) s) as [[w1 r1]|] eqn:E.
    - injection H as <- <-. apply (same_some _ DN) in E. destruct E as [-> NA]. split; [reflexivity|]. apply (not_after_value _ 49%N) in NA; [|zl|exact DN].
      destruct NA as (F & L & V & C). rewrite NV in V. split; [|exact V]. destruct w1 as [|c w1].
      { cbn [length] in L. destruct NN as [E|(? & ? & E & _)]; rewrite E in L; discriminate. }
      inversion F as [|? ? DC FW]; subst. destruct NN as [E|(d & v & E & D & FV)]; rewrite E in L, C.
      + left. destruct w1; [|discriminate]. rewrite E in NV. cbn in NV. subst n. cbn [value length] in V. assert (c = 48%N); [|subst c; reflexivity].
        unfold digit in DC. destruct C as [C|C]; [|exact C]. exfalso. assert (1 <= dv c) by (unfold dv; zl). change (p10 0) with 1 in V. zl.
      + right. exists c, w1. split; [reflexivity|]. split; [|exact FW]. unfold digit in DC. destruct C as [C|C]; zl.
    - apply shorter_some in H. destruct H as [(c & v & -> & -> & C & F & L)|H].
      + split; [reflexivity|]. split; [right; exists c, v; auto|].
        destruct NN as [E'|(d & v' & E' & D & FV)]; rewrite E' in L; cbn [length] in L; [zl|]. pose proof (numeral_low d v' D) as LO. unfold str, char in *; rewrite <- E', NV in LO.
        assert (Fc : Forall digit (c :: v)) by (constructor; [unfold digit; zl|exact F]). pose proof (value_bound _ Fc) as VB.
        assert (p10 (length (c :: v)) <= p10 (length v')) by (apply p10_mono; cbn [length]; zl). zl.
      + unfold f_alt in H. destruct (f_range 48%N 48%N s) as [[w1 r1]|] eqn:E2; [|discriminate]. injection H as <- <-. apply range_some in E2. destruct E2 as (c & -> & -> & C).
        assert (c = 48%N) by zl. subst c. split; [reflexivity|]. split; [left; reflexivity|]. cbn. zl. }
  destruct X as (-> & NW & V). split; [reflexivity|]. exists (value w). split; [exact V|apply numeral_dec; exact NW].
Qed.

Definition no_digit (r : str) : Prop := match r with [] => True | c :: _ => ~ digit c end.
Lemma prefix_digits : forall a b r r', Forall digit a -> no_digit r -> a ++ r' = b ++ r -> length a <= length b.
Proof.
  induction a as [|x a IH]; intros [|y b] r r' F N E; cbn [length]; [zl|zl| |].
  - cbn [app] in E. subst r. inversion F; subst. destruct N. assumption.
  - injection E as <- E. inversion F; subst. apply le_n_S. eapply IH; eassumption.
Qed.

Lemma shorter_zero : forall k g r, f_shorter k g (48%N :: r) = g (48%N :: r).
Proof. induction k as [|k IH]; intros g r; [reflexivity|]. cbn [f_shorter]. unfold f_alt, f_seq. cbn. apply IH. Qed.
Lemma app_same : forall a b r r' : str, a ++ r = b ++ r' -> length a = length b -> a = b /\ r = r'.
Proof. induction a as [|x w IH]; intros [|y b] r r' E EQ; cbn in *; try discriminate; [auto|]. injection E as <- E. injection EQ as EQ. destruct (IH b _ _ E EQ) as [-> ->]. auto. Qed.
Lemma shorter_complete : forall k g c v r, (49 <= c <= 57)%N -> Forall digit v -> length (c :: v) <= k -> no_digit r -> f_shorter k g ((c :: v) ++ r) = Some (c :: v, r).
Proof.
  induction k as [|k IH]; intros g c v r C F L N; [cbn in L; zl|]. cbn [f_shorter]. unfold f_alt.
  destruct (f_seq (f_range 49%N 57%N) (f_digits k) ((c :: v) ++ r)) as [[w1 r1]|] eqn:E.
  - apply seq_some in E. destruct E as (w2 & r2 & w3 & H1 & H2 & ->). apply range_some in H1. destruct H1 as (c' & -> & E & _). injection E as <- <-.
    apply digits_some in H2. destruct H2 as (E & L' & F'). symmetry in E. pose proof (prefix_digits w3 v r r1 F' N E) as X. cbn [length] in L.
    destruct (app_same _ _ _ _ E ltac:(zl)) as [-> ->]. reflexivity.
  - apply IH; [exact C|exact F| |exact N]. cbn [length] in *. destruct (Nat.eq_dec (length v) k) as [X|X]; [|zl]. exfalso.
    assert (Y : f_seq (f_range 49%N 57%N) (f_digits k) ((c :: v) ++ r) = Some (c :: v, r)); [|congruence].
    apply seq_some. exists [c], (v ++ r), v. split; [apply range_some; exists c; auto|]. split; [apply digits_some; auto|reflexivity].
Qed.
Lemma shorter_dec : forall m n, m <= n -> length (dec m) <= length (dec n).
Proof.
  intros m n L. destruct (dec_numeral n) as [NN NV]. destruct (dec_numeral m) as [MN MV]. pose proof (numeral_digits _ NN) as DN.
  destruct (le_lt_dec (length (dec m)) (length (dec n))) as [X|X]; [exact X|]. exfalso.
  destruct MN as [Em|(c & v & Em & Cm & Fm)]; rewrite Em in X; cbn [length] in X.
  - destruct NN as [En|(? & ? & En & _)]; rewrite En in X; cbn in X; zl.
  - pose proof (numeral_low c v Cm) as LO. unfold str, char in *; rewrite <- Em, MV in LO. pose proof (value_bound _ DN) as HI. rewrite NV in HI.
    assert (p10 (length (dec n)) <= p10 (length v)) by (apply p10_mono; zl). zl.
Qed.

(** ... and these are, if no digit follows. *)
Lemma upto_complete : forall n m r, m <= n -> no_digit r -> f_upto n (dec m ++ r) = Some (dec m, r).
Proof.
  intros n m r L N. destruct (dec_numeral n) as [NN NV]. destruct (dec_numeral m) as [MN MV]. pose proof (numeral_digits _ NN) as DN. pose proof (numeral_digits _ MN) as DM.
  unfold f_upto, f_alt. destruct (f_same 49%N (dec n) (dec m ++ r)) as [[w1 r1]|] eqn:E.
  - apply (same_some _ DN) in E. destruct E as [E NA]. pose proof (not_after_length _ _ _ NA) as LW. apply (not_after_value _ 49%N) in NA; [|zl|exact DN]. destruct NA as (F & _ & V & C).
    symmetry in E. pose proof (prefix_digits w1 (dec m) r r1 F N E) as LE.
    pose proof (shorter_dec m n L) as LL. destruct (app_same _ _ _ _ E ltac:(zl)) as [-> ->]. reflexivity.
  - destruct MN as [Em|(c & v & Em & Cm & Fm)].
    + rewrite Em. cbn [app]. rewrite shorter_zero. reflexivity.
    + assert (NL : length (dec m) <> length (dec n)).
      { intro EQ. assert (X : f_same 49%N (dec n) (dec m ++ r) = Some (dec m, r)); [|congruence]. apply (same_some _ DN). split; [reflexivity|].
        apply (not_after_value _ 49%N); [zl|exact DN|]. split; [exact DM|]. split; [exact EQ|]. split; [zl|].
        rewrite Em. destruct (dec n); [exact I|left; zl]. }
      assert (LL : length (dec m) <= length (dec n)) by (apply shorter_dec; exact L).
      rewrite Em in *. apply shorter_complete; [exact Cm|exact Fm|zl|exact N].
Qed.

(** ** All the fields *)
Fixpoint f_fields (sep : char) (bounds : list nat) : str -> option (str * str) :=
  match bounds with
  | [] => f_nil
  | [n] => f_seq (f_upto n) f_nil
  | n :: r => f_seq (f_upto n) (f_seq (f_range sep sep) (f_fields sep r))
  end.
Lemma c_fields : forall sep bounds, computes (And (fields sep bounds)) (f_fields sep bounds).
Proof.
  intros sep. induction bounds as [|n [|m l] IH]; [exact c_nil|apply c_seq; [apply c_upto|exact c_nil]|].
  apply c_seq; [apply c_upto|]. apply c_seq; [apply c_char|exact IH].
Qed.
Lemma fields_sound : forall sep bounds s w r, f_fields sep bounds s = Some (w, r) -> s = w ++ r /\ exists ns, Forall2 le ns bounds /\ w = join sep (map dec ns).
Proof.
  intros sep. induction bounds as [|n [|m l] IH]; intros s w r H.
  - injection H as <- <-. split; [reflexivity|]. exists []. split; [constructor|reflexivity].
  - cbn [f_fields] in H. apply seq_some in H. destruct H as (w1 & r1 & w2 & H1 & H2 & ->). injection H2 as <- <-. apply upto_sound in H1. destruct H1 as (-> & k & K & ->).
    rewrite app_nil_r. split; [reflexivity|]. exists [k]. split; [constructor; [exact K|constructor]|reflexivity].
  - change (f_seq (f_upto n) (f_seq (f_range sep sep) (f_fields sep (m :: l))) s = Some (w, r)) in H.
    apply seq_some in H. destruct H as (w1 & r1 & w2 & H1 & H2 & ->). apply upto_sound in H1. destruct H1 as (-> & k & K & ->).
    apply seq_some in H2. destruct H2 as (w3 & r3 & w4 & H2 & H3 & ->). apply range_some in H2. destruct H2 as (c & -> & -> & C). assert (c = sep) by zl. subst c.
    apply IH in H3. destruct H3 as (-> & ns & F & ->). split; [rewrite <- app_assoc; reflexivity|]. exists (k :: ns). split; [constructor; assumption|].
    destruct ns as [|a ns]; [inversion F|]. reflexivity.
Qed.
Lemma fields_complete : forall sep bounds, ~ digit sep -> forall ns, Forall2 le ns bounds -> forall r, no_digit r -> f_fields sep bounds (join sep (map dec ns) ++ r) = Some (join sep (map dec ns), r).
Proof.
  intros sep. induction bounds as [|n [|m l] IH]; intros SD ns F r R.
  - inversion F; subst. reflexivity.
  - inversion F as [|k ? ? ? K F']; subst. inversion F'; subst. cbn [map join f_fields]. apply seq_some. exists (dec k), r, []. split; [apply upto_complete; assumption|]. split; [reflexivity|symmetry; apply app_nil_r].
  - inversion F as [|k ? ns' ? K F']; subst. destruct ns' as [|a ns']; [inversion F'|].
    change (f_seq (f_upto n) (f_seq (f_range sep sep) (f_fields sep (m :: l))) ((dec k ++ sep :: join sep (map dec (a :: ns'))) ++ r) = Some (dec k ++ sep :: join sep (map dec (a :: ns')), r)).
    apply seq_some. exists (dec k), (sep :: join sep (map dec (a :: ns')) ++ r), (sep :: join sep (map dec (a :: ns'))). split; [rewrite <- app_assoc; apply upto_complete; [exact K|exact SD]|].
    split; [|reflexivity]. apply seq_some. exists [sep], (join sep (map dec (a :: ns')) ++ r), (join sep (map dec (a :: ns'))).
    split; [apply range_some; exists sep; split; [reflexivity|]; split; [reflexivity|zl]|]. split; [apply IH; assumption|reflexivity].
Qed.
End Match.

(** ** The rules *)
Lemma sane_repeat : forall n, Forall sane (repeat any_digit n).
Proof. induction n as [|n IH]; constructor; [exact I|exact IH]. Qed.

Lemma join_one : forall sep, ~ digit sep -> forall ns ms, join sep (map dec ns) = join sep (map dec ms) -> ns = ms.
Proof.
  intros sep SD.
  assert (NE : forall n, dec n <> []). { intros n E. destruct (dec_numeral n) as [[X|(? & ? & X & _)] _]; rewrite X in E; discriminate. }
  assert (NJ : forall n l, join sep (map dec (n :: l)) <> []). { intros n [|m l] E; [exact (NE n E)|]. apply app_eq_nil in E. destruct E as [_ E]. discriminate. }
  assert (NS : forall n m x, dec n <> dec m ++ sep :: x). { intros n m x E. pose proof (dec_digits n) as D. rewrite E in D. apply Forall_app in D. destruct D as [_ D]. inversion D; subst. exact (SD H1). }
  induction ns as [|n ns IH]; intros [|m ms] E; [reflexivity|destruct (NJ m ms); symmetry; exact E|destruct (NJ n ns E)|].
  destruct ns as [|n' ns]; destruct ms as [|m' ms].
  - cbn [map join] in E. apply dec_inj in E. subst. reflexivity.
  - destruct (NS _ _ _ E).
  - symmetry in E. destruct (NS _ _ _ E).
  - destruct (dec_free n m sep _ _ SD E) as [-> E']. f_equal. apply IH. exact E'.
Qed.
Lemma sane_same : forall ds lo, sane (upto_same lo ds).
Proof.
  induction ds as [|d r IH]; intro lo; [exact I|]. cbn [upto_same sane]. split; [|split; [|exact I]].
  - split; [exact I|]. generalize (length r). induction n as [|n IHn]; [exact I|]. split; [exact I|exact IHn].
  - split; [exact I|]. split; [apply IH|exact I].
Qed.
Lemma sane_upto : forall n, sane (upto n).
Proof.
  intro n. unfold upto. split; [apply sane_same|]. generalize (length (dec n) - 1). induction n0 as [|k IH]; [split; exact I|].
  split; [|exact IH]. split; [exact I|]. clear IH. induction k as [|k IH]; [exact I|]. split; [exact I|exact IH].
Qed.
Lemma sane_range : forall sep bounds, sane_rules (range_rules sep bounds).
Proof.
  intros sep bounds. apply sane_rules_all. constructor; [|constructor]. cbn [snd].
  induction bounds as [|n [|m l] IH]; [exact I|split; [apply sane_upto|exact I]|]. split; [apply sane_upto|]. split; [exact I|exact IH].
Qed.

(** What the start rule gives. *)
Definition whole (o : option (str * str)) : presult := match o with Some (w, r) => PMatch [Rule main (by_chars w)] r | None => PFail end.
Lemma range_main : forall sep bounds s, peg_main (range_rules sep bounds) s (whole (f_fields sep bounds s)).
Proof.
  intros sep bounds s. pose proof (c_fields (grammar_of (range_rules sep bounds)) sep bounds s) as D. unfold peg_main.
  assert (E : grammar_of (range_rules sep bounds) main = Some (And (fields sep bounds))) by reflexivity.
  pose proof (peg_rule _ _ _ _ _ E D) as X. destruct (f_fields sep bounds s) as [[w r]|]; exact X.
Qed.

Lemma ascii_join : forall sep ns, ascii_char sep -> ascii (join sep (map dec ns)).
Proof.
  intros sep ns A. assert (D : forall n, ascii (dec n)). { intro n. eapply Forall_impl; [|apply (dec_digits n)]. intros c C. unfold digit in C. unfold ascii_char. zl. }
  induction ns as [|n [|m l] IH]; [constructor|apply D|]. apply Forall_app. split; [apply D|]. constructor; [exact A|exact IH].
Qed.

Lemma range_accepts : forall sep bounds, ascii_char sep -> ~ digit sep -> forall s debug t,
  (exists fuel, parse_with_debug fuel s (range_rules sep bounds) debug = Ok t) <->
  exists ns, Forall2 le ns bounds /\ s = join sep (map dec ns) /\ t = Rule main (by_chars s).
Proof.
  intros sep bounds SA SD s debug t. split.
  - intros [fuel H]. destruct (Forall_dec ascii_char ascii_char_dec s) as [A|A]; [|destruct (parse_non_ascii fuel s _ debug t A H)].
    pose proof (proj1 (parse_accepts_iff s _ debug (sane_range sep bounds) A t) (ex_intro _ fuel H)) as D. pose proof (peg_det _ _ _ _ (range_main sep bounds s) _ D) as E.
    destruct (f_fields sep bounds s) as [[w r]|] eqn:F; [|discriminate]. cbn [whole] in E. injection E as <- ->.
    apply fields_sound in F. destruct F as (-> & ns & F & W). exists ns. rewrite app_nil_r. auto.
  - intros (ns & F & -> & ->). apply (parse_accepts_iff _ _ debug (sane_range sep bounds) (ascii_join sep ns SA)).
    pose proof (range_main sep bounds (join sep (map dec ns))) as D. pose proof (fields_complete (fun _ => None) sep bounds SD ns F [] I) as C. rewrite app_nil_r in C. rewrite C in D. exact D.
Qed.

Lemma range_rejects : forall sep bounds, ascii_char sep -> ~ digit sep -> forall s debug, ascii s ->
  (forall ns, Forall2 le ns bounds -> s <> join sep (map dec ns)) -> exists fuel er, parse_with_debug fuel s (range_rules sep bounds) debug = Err er /\ e_priority er = Normal.
Proof.
  intros sep bounds SA SD s debug A N. pose proof (sane_range sep bounds) as SR. pose proof (range_main sep bounds s) as Q.
  destruct (proj2 (parse_terminates_iff s _ debug SR A) (ex_intro _ _ Q)) as [fuel F]. exists fuel. pose proof (parse_sound fuel s _ debug SR) as Y.
  destruct (parse_with_debug fuel s (range_rules sep bounds) debug) as [t|er| |] eqn:P; [| |destruct (Y A)|destruct (F eq_refl)].
  - destruct (proj1 (range_accepts sep bounds SA SD s debug t) (ex_intro _ fuel P)) as (ns & L & E & _). destruct (N ns L E).
  - exists er. split; [reflexivity|]. destruct (e_priority er); [reflexivity|]. destruct Y as [_ (rest & Y & _)]. pose proof (peg_det _ _ _ _ Q _ Y) as E. destruct (f_fields sep bounds s) as [[w r]|]; discriminate.
Qed.
