(** The documented calculator grammar without a redundant alternative: the same results, in linear time. *)
From Verif Require Import Base ModelAst ModelParser ModelCost ModelPegRules ModelPeg SpecPeg SpecPos SpecApi SpecWf SpecRefactor SpecLang SpecDocs.
From Verif Require Import ProofParser ProofEngine ProofApi ProofWf WfCheck PegTools ProofRefactor ProofLang ProofIdioms ProofDocs ProofCalc ProofRun ProofRunDet ProofCalcCost Examples.

Definition lean_read : rules :=
  [(s_ "_", Repeat (lit (s_ " ")) 0 None); (s_ "fact_op", Or [lit (s_ "*"); lit (s_ "/")]); (s_ "add_op", Or [lit (s_ "+"); lit (s_ "-")]);
   (s_ "num", And [Repeat e_digit 1 None; Repeat (And [lit (s_ "."); Repeat e_digit 1 None]) 0 (Some 1)]); (s_ "item", RuleName (s_ "num"));
   (s_ "portion_expr", Or [And [lit (s_ "("); r_expr; lit (s_ ")")]; RuleName (s_ "item")]); (s_ "fact_t", r_portion);
   (s_ "add_t", And [r_fact_t; Repeat turn_mul 0 None]); (s_ "expr", And [r_add_t; Repeat turn_add 0 None]);
   (main, And [r_blank; r_expr; r_blank])].

Lemma lean_reads : rules_from_peg 300 lean_text = Ok lean_read.
Proof. vm_compute. reflexivity. Qed.
Lemma lean_sane : sane_rules lean_read.
Proof. apply sane_rules_all. repeat constructor. Qed.
Lemma lean_wf : well_formed (grammar_of lean_read).
Proof. apply wf_check_sound; vm_compute; reflexivity. Qed.

(** ** The same results *)

Lemma expr_covered : let G := grammar_of calculator_read in
  forall s, peg G (And [r_add_t; Repeat turn_add 0 None]) s PFail -> peg G r_portion s PFail.
Proof.
  intros G s H. apply rep0_and_fail in H.
  assert (X : forall n e, G n = Some e -> peg G (RuleName n) s PFail -> peg G e s PFail).
  { intros n e E P. inversion P as [| | | | | | | | | | | | | | | | | | | | | |? ? ? r E' D W|]; subst.
    rewrite E in E'. injection E' as <-. destruct r; try discriminate. exact D. }
  apply (X (s_ "add_t") _ eq_refl) in H. apply rep0_and_fail in H. apply (X (s_ "fact_t") _ eq_refl) in H. exact H.
Qed.

Lemma or_one_equiv : forall G e, equiv G (Or [e]) e.
Proof.
  intros G e s r. split; intro H.
  - inversion H as [| | | | | | | | | | | | |? ? ? ? D NF|? ? ? ? DF D| | | | | | | | |]; subst; [exact D|]. inversion D; subst. exact DF.
  - destruct r as [ts rest| |m rest]; [apply peg_or_first; [exact H|discriminate]| |apply peg_or_first; [exact H|discriminate]].
    apply peg_or_next; [exact H|constructor].
Qed.

Lemma lean_refactored : refactored (grammar_of calculator_read) (grammar_of lean_read).
Proof.
  intro n. destruct (str_eqb (s_ "expr") n) eqn:E.
  - apply str_eqb_eq in E. subst n. change (replaced (equiv (grammar_of calculator_read)) (Or [And [r_add_t; Repeat turn_add 0 None]; r_portion]) (And [r_add_t; Repeat turn_add 0 None])).
    apply rp_here. intros s r. pose proof (drop_covered (grammar_of calculator_read) [] (And [r_add_t; Repeat turn_add 0 None]) [] r_portion [] expr_covered s r) as H.
    cbn [app] in H. rewrite H. apply or_one_equiv.
  - unfold grammar_of, calculator_read, lean_read. cbn [rules_get]. rewrite E.
    repeat (match goal with |- context [str_eqb ?a n] => destruct (str_eqb a n) end; [apply rp_same|]). exact I.
Qed.

Lemma lean_accepts : forall s t, accepts lean_text s t <-> accepts calculator_text s t.
Proof.
  intros s t. rewrite (accepts_peg _ _ _ lean_reads lean_sane), (accepts_peg _ _ _ calculator_reads calculator_sane).
  split; intros [A H]; (split; [exact A|]).
  - apply (parse_accepts_iff s _ false calculator_sane A). apply (proj1 (refactor_iff _ _ s calculator_sane lean_sane A lean_refactored lean_wf)).
    apply (parse_accepts_iff s _ false lean_sane A). exact H.
  - apply (parse_accepts_iff s _ false lean_sane A). apply (proj1 (refactor_iff _ _ s calculator_sane lean_sane A lean_refactored lean_wf)).
    apply (parse_accepts_iff s _ false calculator_sane A). exact H.
Qed.

(** ** In linear time *)

Section Lean.
Let G := grammar_of lean_read.
Notation run := (costs G).
Let GB : G (s_ "_") = Some (Repeat (lit (s_ " ")) 0 None) := eq_refl.
Let GN : G (s_ "num") = Some (And [Repeat e_digit 1 None; Repeat (And [lit (s_ "."); Repeat e_digit 1 None]) 0 (Some 1)]) := eq_refl.
Let MB : binary G (s_ "fact_op") 42%N 47%N := eq_refl.
Let AB : binary G (s_ "add_op") 43%N 45%N := eq_refl.

(** The blanks a text starts with. *)
Fixpoint lead (s : str) : nat := match s with c :: r => if (c =? 32)%N then S (lead r) else 0 | [] => 0 end.

Lemma lead_split : forall s, exists r, s = blanks (lead s) ++ r /\ no_blank r.
Proof.
  induction s as [|c s (r & E & N)]; [exists []; split; [reflexivity|discriminate]|]. cbn [lead]. destruct (c =? 32)%N eqn:C.
  - apply N.eqb_eq in C. subst c. exists r. split; [|exact N]. change (32%N :: s = 32%N :: (blanks (lead s) ++ r)). f_equal. exact E.
  - exists (c :: s). split; [reflexivity|]. intros d x Q. injection Q as <- _. apply N.eqb_neq. exact C.
Qed.
Lemma lead_blanks : forall i r, no_blank r -> lead (blanks i ++ r) = i.
Proof.
  induction i as [|i IH]; intros r N; cbn; [|f_equal; apply IH; exact N]. destruct r as [|c r]; [reflexivity|]. cbn [lead].
  destruct (c =? 32)%N eqn:C; [|reflexivity]. apply N.eqb_eq in C. destruct (N c r eq_refl C).
Qed.
Lemma blanks_length : forall i, length (blanks i) = i.
Proof. intro i. apply repeat_length. Qed.
Lemma lead_le : forall s, lead s <= length s.
Proof. intro s. destruct (lead_split s) as (r & E & _). rewrite E at 2. rewrite app_length, blanks_length. lia. Qed.

Definition starts_op (ops : char -> Prop) (r : str) : Prop := exists c x, r = blanks (lead r) ++ c :: x /\ ops c.

(** One turn of a repetition: no operator, or an operator and what follows it. *)
Lemma turn_cases : forall n a b x s, binary G n a b -> a <> 32%N -> b <> 32%N ->
  (run (turn n x) s OF (lead s + 8) /\ ~ starts_op (fun c => c = a \/ c = b) s) \/
  (exists j s', starts_op (fun c => c = a \/ c = b) s /\ length s = lead s + 1 + j + length s' /\
     (forall r k, run x s' (OM r) k -> exists k', run (turn n x) s (OM r) k' /\ k' <= lead s + j + 11 + k) /\
     (forall k, run x s' OF k -> exists k', run (turn n x) s OF k' /\ k' <= lead s + j + 11 + k)).
Proof.
  intros n a b x s B NA NB. destruct (lead_split s) as (r & E & NBL). remember (lead s) as i eqn:HI.
  assert (D : (exists c y, r = c :: y /\ (c = a \/ c = b)) \/ (forall c y, r = c :: y -> c <> a /\ c <> b)).
  { destruct r as [|c y]; [right; discriminate|]. destruct (N.eq_dec c a) as [->|N1]; [left; eauto|]. destruct (N.eq_dec c b) as [->|N2]; [left; eauto|].
    right. intros d z Q. injection Q as <- _. auto. }
  destruct D as [(c & y & -> & C)|D].
  - right. destruct (lead_split y) as (s' & E' & NBL'). exists (lead y), s'. split; [exists c, y; rewrite <- HI; split; [exact E|exact C]|].
    split; [rewrite E, app_length, blanks_length; cbn [length]; rewrite E' at 1; rewrite app_length, blanks_length; lia|].
    assert (NC : c <> 32%N) by (destruct C; subst; assumption).
    assert (SE : s = blanks i ++ [c] ++ blanks (lead y) ++ s') by (rewrite E; cbn [app]; rewrite <- E'; reflexivity).
    split.
    + intros r k H. destruct (k_turn G GB n a b x i c (lead y) s' r k B C NC NBL' H) as (k' & K & L). rewrite <- SE in K. eauto.
    + intros k H. destruct (k_op G n a b c (blanks (lead y) ++ s') B C) as (ko & KO & L).
      exists (S ((i + 3) + (ko + ((lead y + 3) + k)))). split; [|lia]. rewrite SE. apply c_and. eapply ca_cons; [apply (k_blank G GB); intros d z Q; injection Q as <- _; exact NC|].
      eapply ca_cons; [exact KO|]. eapply ca_cons; [apply (k_blank G GB); exact NBL'|]. apply ca_fail. exact H.
  - left. split.
    + apply (k_turn_fail G GB n a b x (fun c => c = a \/ c = b) i s B (fun c C => C)). exists r. split; [exact E|].
      intros c y Q. split; [exact (NBL c y Q)|]. destruct (D c y Q). tauto.
    + intros (c & y & Q & C). rewrite <- HI in Q. rewrite E in Q. apply app_inv_head in Q. destruct (D c y Q). tauto.
Qed.

(** Numbers. *)
Lemma digits_split : forall s, exists w r, s = w ++ r /\ Forall (fun c => is_digit c = true) w /\ forall c x, r = c :: x -> is_digit c = false.
Proof.
  induction s as [|c s (w & r & -> & F & N)]; [exists [], []; repeat split; [constructor|discriminate]|]. destruct (is_digit c) eqn:C.
  - exists (c :: w), r. repeat split; [constructor; assumption|exact N].
  - exists [], (c :: w ++ r). repeat split; [constructor|]. intros d x Q. injection Q as <- _. exact C.
Qed.

Lemma num_cases : forall s,
  (exists r k, run (RuleName (s_ "num")) s (OM r) k /\ length r < length s /\ k <= (length s - length r) + 10) \/ run (RuleName (s_ "num")) s OF 4.
Proof.
  intro s. destruct (digits_split s) as (w & r & -> & F & N). destruct w as [|c w].
  - right. cbn [app]. eapply c_rule; [exact GN|]. apply c_and, ca_fail. apply k_digits_fail. exact N.
  - left. assert (DW : digits (c :: w)) by (split; [discriminate|exact F]). pose proof (k_digits G (c :: w) r DW N) as KW.
    assert (O : exists r' k, run (Repeat (And [lit (s_ "."); Repeat e_digit 1 None]) 0 (Some 1)) r (OM r') k /\ length r' <= length r /\ k <= (length r - length r') + 6).
    { destruct (starts_dec (s_ ".") r) as [[x ->]|ND].
      - destruct (digits_split x) as (v & y & -> & FV & NV). destruct v as [|d v].
        + exists (s_ "." ++ [] ++ y), (S (S (1 + 2))). split; [|lia]. apply c_rep, cr_done, c_and. eapply ca_cons; [apply (k_lit G (s_ "."))|]. apply ca_fail, k_digits_fail. exact NV.
        + assert (DV : digits (d :: v)) by (split; [discriminate|exact FV]).
          exists y, (S (S (1 + ((length (d :: v) + 2) + 0)))). split; [|rewrite !app_length; change (length (s_ ".")) with 1; lia].
          apply c_rep, cr_last, c_and. eapply ca_cons; [apply (k_lit G (s_ "."))|]. eapply ca_cons; [apply k_digits; assumption|constructor].
      - exists r, (S (S 1)). split; [|lia]. apply c_rep, cr_done, c_and, ca_fail. apply k_lit_fail. exact ND. }
    destruct O as (r' & k & K & L & KL). exists r', (S (S ((length (c :: w) + 2) + (k + 0)))).
    split; [|rewrite app_length; cbn [length]; lia]. eapply c_rule; [exact GN|]. apply c_and. eapply ca_cons; [exact KW|]. eapply ca_cons; [exact K|constructor].
Qed.

(** What a factor, a product and a sum cost, wherever they are tried. *)
Definition F (s : str) : Prop :=
  (exists r k, run r_fact_t s (OM r) k /\ length r < length s /\ k + 100 <= 200 * (length s - length r)) \/
  (exists k, run r_fact_t s OF k /\ k <= 200 * length s + 20).
Definition T (s : str) : Prop :=
  (exists r k, run r_add_t s (OM r) k /\ length r < length s /\
     (k + 60 <= 200 * (length s - length r) + lead r \/ starts_op is_mul r /\ k + 60 + lead r <= 200 * length s)) \/
  (exists k, run r_add_t s OF k /\ k <= 200 * length s + 30).
Definition E_ (s : str) : Prop :=
  (exists r k, run r_expr s (OM r) k /\ length r < length s /\
     (k + 20 <= 200 * (length s - length r) + 2 * lead r \/ starts_op ops r /\ k + 20 <= 200 * length s)) \/
  (exists k, run r_expr s OF k /\ k <= 200 * length s + 40).

Section Below.
Variable n : nat.
Hypothesis FN : forall s, length s <= n -> F s.

Lemma muls : forall m s, length s <= m -> m <= n -> exists r k, costs_rep G turn_mul 0 None s (OM r) k /\ length r <= length s /\
  (k <= 200 * (length s - length r) + lead r + 8 \/ starts_op is_mul r /\ k + lead r <= 200 * length s).
Proof.
  induction m as [m IH] using lt_wf_ind. intros s Ls Lm.
  destruct (turn_cases (s_ "fact_op") 42%N 47%N r_fact_t s MB ltac:(discriminate) ltac:(discriminate)) as [[H _]|(j & s' & O & LEN & HM & HF)].
  - exists s, (lead s + 8). split; [apply cr_done; exact H|]. split; [lia|]. left. lia.
  - destruct (FN s' ltac:(lia)) as [(s1 & k & K & L1 & KL)|(k & K & KL)].
    + destruct (HM _ _ K) as (kt & KT & KTL). destruct (IH (length s1) ltac:(lia) s1 (le_n _) ltac:(lia)) as (r & k2 & K2 & L2 & B).
      exists r, (kt + k2). split; [eapply cr_more; [discriminate|exact KT|exact K2]|]. split; [lia|]. destruct B as [B|[B1 B2]]; [left; lia|right; split; [exact B1|lia]].
    + destruct (HF _ K) as (kt & KT & KTL). exists s, kt. split; [apply cr_done; exact KT|]. split; [lia|]. right. split; [exact O|lia].
Qed.

Lemma terms : forall s, length s <= n -> T s.
Proof.
  intros s Ls. destruct (FN s Ls) as [(s1 & k & K & L1 & KL)|(k & K & KL)].
  - destruct (muls (length s1) s1 (le_n _) ltac:(lia)) as (r & k2 & K2 & L2 & B). left. exists r, (S (S (k + (S k2 + 0)))).
    split; [eapply c_rule; [reflexivity|]; apply c_and; eapply ca_cons; [exact K|]; eapply ca_cons; [apply c_rep; exact K2|constructor]|].
    split; [lia|]. destruct B as [B|[B1 B2]]; [left; lia|right; split; [exact B1|lia]].
  - right. exists (S (S k)). split; [eapply c_rule; [reflexivity|]; apply c_and, ca_fail; exact K|lia].
Qed.

Lemma adds : forall m s, length s <= m -> m <= n -> exists r k, costs_rep G turn_add 0 None s (OM r) k /\
  ((r = s /\ k = lead s + 8) \/ (length r < length s /\ ~ starts_op is_mul s /\ k + lead s <= 200 * (length s - length r) + 2 * lead r) \/
   (length r <= length s /\ starts_op ops r /\ ~ starts_op is_mul s /\ k + lead s <= 200 * length s)).
Proof.
  induction m as [m IH] using lt_wf_ind. intros s Ls Lm.
  destruct (turn_cases (s_ "add_op") 43%N 45%N r_add_t s AB ltac:(discriminate) ltac:(discriminate)) as [[H _]|(j & s' & O & LEN & HM & HF)].
  - exists s, (lead s + 8). split; [apply cr_done; exact H|]. left. auto.
  - assert (NM : ~ starts_op is_mul s).
    { intros (c & x & Q & C). destruct O as (d & y & Q' & D). rewrite Q in Q'. rewrite <- Q in Q'. rewrite Q in Q' at 1. apply app_inv_head in Q'. injection Q' as -> _. exact (mul_add _ D C). }
    destruct (terms s' ltac:(lia)) as [(s1 & k & K & L1 & KB)|(k & K & KL)].
    + destruct (HM _ _ K) as (kt & KT & KTL). destruct (IH (length s1) ltac:(lia) s1 (le_n _) ltac:(lia)) as (r & k2 & K2 & B). pose proof (lead_le s1).
      exists r, (kt + k2). split; [eapply cr_more; [discriminate|exact KT|exact K2]|].
      destruct KB as [KB|[KB1 KB2]], B as [[-> B]|[(B1 & B2 & B)|(B0 & B1 & B2 & B)]].
      * right. left. repeat split; [lia|exact NM|lia].
      * right. left. repeat split; [lia|exact NM|lia].
      * right. right. repeat split; [lia|exact B1|exact NM|lia].
      * right. right. repeat split; [lia| |exact NM|lia]. destruct KB1 as (c & x & Q & C). exists c, x. split; [exact Q|left; exact C].
      * contradiction.
      * contradiction.
    + destruct (HF _ K) as (kt & KT & KTL). exists s, kt. split; [apply cr_done; exact KT|]. right. right. repeat split; [lia| |exact NM|lia].
      destruct O as (c & x & Q & C). exists c, x. split; [exact Q|right; exact C].
Qed.

Lemma sums : forall s, length s <= n -> E_ s.
Proof.
  intros s Ls. destruct (terms s Ls) as [(s1 & k & K & L1 & KB)|(k & K & KL)].
  - destruct (adds (length s1) s1 (le_n _) ltac:(lia)) as (r & k2 & K2 & B). left. exists r, (S (S (k + (S k2 + 0)))). pose proof (lead_le s1).
    split; [eapply c_rule; [reflexivity|]; apply c_and; eapply ca_cons; [exact K|]; eapply ca_cons; [apply c_rep; exact K2|constructor]|].
    destruct KB as [KB|[KB1 KB2]], B as [[-> B]|[(B1 & B2 & B)|(B0 & B1 & B2 & B)]]; try contradiction.
    + split; [lia|]. left. lia.
    + split; [lia|]. left. lia.
    + split; [lia|]. right. split; [exact B1|lia].
    + split; [lia|]. right. split; [|lia]. destruct KB1 as (c & x & Q & C). exists c, x. split; [exact Q|left; exact C].
  - right. exists (S (S k)). split; [eapply c_rule; [reflexivity|]; apply c_and, ca_fail; exact K|lia].
Qed.
End Below.

Lemma stuck_not_closed : forall r x, starts_op ops r -> r <> s_ ")" ++ x.
Proof. intros r x (c & y & Q & C) ->. change (lead (s_ ")" ++ x)) with 0 in Q. injection Q as <- _. destruct C as [[C|C]|[C|C]]; discriminate C. Qed.

Lemma factors : forall n s, length s <= n -> F s.
Proof.
  induction n as [n IH] using lt_wf_ind. intros s Ls.
  destruct (starts_dec (s_ "(") s) as [[s' ->]|NP].
  - assert (LS : length (s_ "(" ++ s') = S (length s')) by reflexivity.
    assert (NI : run (RuleName (s_ "item")) (s_ "(" ++ s') OF 5).
    { eapply c_rule; [reflexivity|]. eapply c_rule; [exact GN|]. apply c_and, ca_fail, k_digits_fail. intros c x Q. injection Q as <- _. reflexivity. }
    assert (NO : forall k, costs_and G [lit (s_ "("); r_expr; lit (s_ ")")] (s_ "(" ++ s') OF k -> run r_fact_t (s_ "(" ++ s') OF (S (S (S (S k + (5 + 0)))))).
    { intros k K. eapply c_rule; [reflexivity|]. eapply c_rule; [reflexivity|]. apply c_or. eapply co_next; [apply c_and; exact K|]. eapply co_next; [exact NI|constructor]. }
    destruct (sums (length s') (fun x L => IH (length s') ltac:(lia) x L) s' (le_n _)) as [(r & k & K & L & B)|(k & K & KL)].
    + destruct (starts_dec (s_ ")") r) as [[r' ->]|NC].
      * left. exists r', (S (S (S (S (1 + (k + (1 + 0))))))).
        assert (LR : length (s_ ")" ++ r') = S (length r')) by reflexivity.
        split; [eapply c_rule; [reflexivity|]; eapply c_rule; [reflexivity|]; apply c_or, co_match, c_and; eapply ca_cons; [apply (k_lit G (s_ "("))|]; eapply ca_cons; [exact K|];
          eapply ca_cons; [apply (k_lit G (s_ ")"))|constructor]|].
        rewrite LS. rewrite LR in *. split; [lia|]. destruct B as [B|[B _]]; [change (lead (s_ ")" ++ r')) with 0 in B; lia|destruct (stuck_not_closed _ _ B eq_refl)].
      * right. exists (S (S (S (S (1 + (k + 1)) + (5 + 0))))). split; [apply NO; eapply ca_cons; [apply (k_lit G (s_ "("))|]; eapply ca_cons; [exact K|]; apply ca_fail, k_lit_fail; exact NC|].
        rewrite LS. pose proof (lead_le r). destruct B as [B|[_ B]]; lia.
    + right. exists (S (S (S (S (1 + k) + (5 + 0))))). split; [apply NO; eapply ca_cons; [apply (k_lit G (s_ "("))|]; apply ca_fail; exact K|]. rewrite LS. lia.
  - assert (NA : run (And [lit (s_ "("); r_expr; lit (s_ ")")]) s OF 2) by (apply c_and, ca_fail, k_lit_fail; exact NP).
    destruct (num_cases s) as [(r & k & K & L & KL)|K].
    + left. exists r, (S (S (S (2 + S k)))). split; [|lia]. eapply c_rule; [reflexivity|]. eapply c_rule; [reflexivity|]. apply c_or. eapply co_next; [exact NA|].
      apply co_match. eapply c_rule; [reflexivity|exact K].
    + right. exists (S (S (S (2 + (5 + 0))))). split; [|lia]. eapply c_rule; [reflexivity|]. eapply c_rule; [reflexivity|]. apply c_or. eapply co_next; [exact NA|].
      eapply co_next; [|constructor]. eapply c_rule; [reflexivity|exact K].
Qed.

Lemma lean_main : forall s, exists o k, run (RuleName main) s o k /\ o <> OC /\ k <= 201 * (length s + 1).
Proof.
  intro s. destruct (lead_split s) as (x & E & N). assert (LS : length s = lead s + length x) by (rewrite E at 1; rewrite app_length, blanks_length; reflexivity).
  pose proof (k_blank G GB (lead s) x N) as KB. rewrite <- E in KB.
  destruct (sums (length x) (factors (length x)) x (le_n _)) as [(r & k & K & L & B)|(k & K & KL)].
  - destruct (lead_split r) as (y & E' & N'). pose proof (k_blank G GB (lead r) y N') as KB'. rewrite <- E' in KB'. pose proof (lead_le r).
    exists (OM y), (S (S ((lead s + 3) + (k + ((lead r + 3) + 0))))). split; [eapply c_rule; [reflexivity|]; apply c_and; eapply ca_cons; [exact KB|]; eapply ca_cons; [exact K|];
      eapply ca_cons; [exact KB'|constructor]|]. split; [discriminate|]. destruct B as [B|[_ B]]; lia.
  - exists OF, (S (S ((lead s + 3) + k))). split; [eapply c_rule; [reflexivity|]; apply c_and; eapply ca_cons; [exact KB|]; apply ca_fail; exact K|]. split; [discriminate|]. lia.
Qed.
End Lean.

Lemma lean_linear : forall s fuel d, ascii s -> parse_with_debug fuel s lean_read d <> Fuel -> parse_calls fuel s lean_read d <= 201 * (length s + 1).
Proof.
  intros s fuel d A N. destruct (lean_main s) as (o & k & K & NO & L). pose proof (parse_calls_run _ _ _ _ _ _ lean_sane A N K NO). lia.
Qed.
