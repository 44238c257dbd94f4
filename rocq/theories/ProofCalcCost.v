(** The documented calculator grammar: few calls for expressions, many for a missing parenthesis. *)
From Verif Require Import Base ModelAst ModelParser ModelCost ModelPegRules ModelPeg SpecPeg SpecPos SpecApi SpecWf SpecLang SpecDocs.
From Verif Require Import ProofParser ProofEngine ProofApi PegTools ProofLang ProofIdioms ProofDocs ProofCalc ProofRun ProofRunDet.

(** ** Building runs *)

Section Build.
Variable G : str -> option expr.
Notation run := (costs G).
Hypothesis GB : G (s_ "_") = Some (Repeat (lit (s_ " ")) 0 None).
Hypothesis GN : G (s_ "num") = Some (And [Repeat e_digit 1 None; Repeat (And [lit (s_ "."); Repeat e_digit 1 None]) 0 (Some 1)]).

Lemma k_lit : forall l s, run (lit l) (l ++ s) (OM s) 1.
Proof. intros l s. eapply c_match. apply peg_lit_ok. Qed.
Lemma k_lit_fail : forall c s, (forall x, s <> c :: x) -> run (lit [c]) s OF 1.
Proof. intros c s H. apply c_fail, peg_lit_fail. exact H. Qed.

Lemma k_blank : forall i r, no_blank r -> run r_blank (blanks i ++ r) (OM r) (i + 3).
Proof.
  intros i r N. replace (i + 3) with (S (S (i + 1))) by lia. eapply c_rule; [exact GB|]. apply c_rep.
  induction i as [|i IH]; [apply cr_done, k_lit_fail; intros x E; exact (N _ _ E eq_refl)|].
  cbn [blanks repeat app]. change (S i + 1) with (1 + (i + 1)). eapply cr_more; [discriminate|apply (k_lit (s_ " "))|exact IH].
Qed.

Definition binary (n : str) (a b : char) : Prop := G n = Some (Or [lit [a]; lit [b]]).

Lemma k_op : forall n a b c r, binary n a b -> c = a \/ c = b -> exists k, run (RuleName n) (c :: r) (OM r) k /\ k <= 4.
Proof.
  intros n a b c r E C. destruct (N.eq_dec c a) as [->|NE].
  - exists 3. split; [|lia]. eapply c_rule; [exact E|]. apply c_or. apply co_match. apply (k_lit [a]).
  - destruct C as [C| ->]; [contradiction|]. exists 4. split; [|lia]. eapply c_rule; [exact E|]. apply c_or. change 2 with (1 + 1).
    eapply co_next; [apply k_lit_fail; intros x Q; injection Q as Q _; congruence|]. apply co_match. apply (k_lit [b]).
Qed.
Lemma k_op_fail : forall n a b s, binary n a b -> (forall c x, s = c :: x -> c <> a /\ c <> b) -> run (RuleName n) s OF 4.
Proof.
  intros n a b s E N. eapply c_rule; [exact E|]. apply c_or. change 2 with (1 + 1). eapply co_next; [apply k_lit_fail; intros x Q; destruct (N _ _ Q); congruence|].
  change 1 with (1 + 0). eapply co_next; [apply k_lit_fail; intros x Q; destruct (N _ _ Q); congruence|]. constructor.
Qed.

(** What follows starts with [m] blanks, and no operator. *)
Definition no_op_at (ops : char -> Prop) (m : nat) (r : str) : Prop := exists r', r = blanks m ++ r' /\ forall c x, r' = c :: x -> c <> 32%N /\ ~ ops c.

Lemma k_turn_fail : forall n a b x (ops : char -> Prop) m r, binary n a b -> (forall c, c = a \/ c = b -> ops c) -> no_op_at ops m r -> run (turn n x) r OF (m + 8).
Proof.
  intros n a b x ops m r E O (r' & -> & N). replace (m + 8) with (S ((m + 3) + 4)) by lia. apply c_and.
  eapply ca_cons; [apply k_blank; intros c y Q; exact (proj1 (N _ _ Q))|]. apply ca_fail. eapply k_op_fail; [exact E|].
  intros c y Q. destruct (N _ _ Q) as [_ K]. split; intros ->; apply K, O; auto.
Qed.
Lemma k_turn : forall n a b x i c j s r k, binary n a b -> c = a \/ c = b -> c <> 32%N -> no_blank s -> run x s (OM r) k ->
  exists k', run (turn n x) (blanks i ++ [c] ++ blanks j ++ s) (OM r) k' /\ k' <= i + j + 11 + k.
Proof.
  intros n a b x i c j s r k E C NB N H. destruct (k_op n a b c (blanks j ++ s) E C) as (ko & KO & L).
  exists (S ((i + 3) + (ko + ((j + 3) + (k + 0))))). split; [|lia]. apply c_and.
  eapply ca_cons; [apply k_blank; intros d y Q; injection Q as <- _; exact NB|]. eapply ca_cons; [exact KO|]. eapply ca_cons; [apply k_blank; exact N|].
  eapply ca_cons; [exact H|constructor].
Qed.

Lemma k_digit_fail : forall s, (forall c x, s = c :: x -> is_digit c = false) -> run e_digit s OF 1.
Proof. intros s N. apply c_fail, peg_class_fail. intros c r E C. apply digit_class in C. rewrite (N c r E) in C. discriminate. Qed.
Lemma k_digits_fail : forall s, (forall c x, s = c :: x -> is_digit c = false) -> run (Repeat e_digit 1 None) s OF 2.
Proof. intros s N. apply c_rep. apply cr_short; [lia|]. apply k_digit_fail. exact N. Qed.

Lemma k_digits : forall w r, digits w -> (forall c x, r = c :: x -> is_digit c = false) -> run (Repeat e_digit 1 None) (w ++ r) (OM r) (length w + 2).
Proof.
  assert (ONE : forall c s, is_digit c = true -> run e_digit (c :: s) (OM s) 1) by (intros c s D; eapply c_match, peg_class_ok, digit_class; exact D).
  intros w r [NE F] N. replace (length w + 2) with (S (length w + 1)) by lia. apply c_rep.
  assert (ST : forall v, Forall (fun c => is_digit c = true) v -> costs_rep G e_digit 0 None (v ++ r) (OM r) (length v + 1)).
  { induction 1 as [|c v C V IH]; [apply cr_done, k_digit_fail; exact N|]. cbn [length app]. change (S (length v) + 1) with (1 + (length v + 1)).
    eapply cr_more; [discriminate|apply ONE; exact C|exact IH]. }
  destruct w as [|c w]; [congruence|]. inversion F as [|? ? C F']; subst. cbn [length app]. change (S (length w) + 1) with (1 + (length w + 1)).
  eapply cr_more; [discriminate|apply ONE; exact C|]. apply ST. exact F'.
Qed.

Lemma k_num : forall w f r, ok_prim (Num w f) -> after_num r -> exists k, run (RuleName (s_ "num")) (show_prim (Num w f) ++ r) (OM r) k /\ k <= length (show_prim (Num w f)) + 9.
Proof.
  intros w f r [W V] A. assert (D : forall c x, r = c :: x -> is_digit c = false) by (intros c x E; apply (A _ _ E)).
  destruct f as [v|]; cbn [show_prim].
  - exists (S (S ((length w + 2) + (S (S (1 + ((length v + 2) + 0))) + 0)))). split; [|rewrite !app_length; change (length (s_ ".")) with 1; lia].
    rewrite <- !app_assoc. eapply c_rule; [exact GN|]. apply c_and. eapply ca_cons; [apply k_digits; [exact W|intros c x E; injection E as <- _; reflexivity]|].
    eapply ca_cons; [|constructor]. apply c_rep. apply cr_last. apply c_and. eapply ca_cons; [apply (k_lit (s_ "."))|]. eapply ca_cons; [apply k_digits; assumption|constructor].
  - exists (S (S ((length w + 2) + (S (S 1) + 0)))). split; [|lia].
    eapply c_rule; [exact GN|]. apply c_and. eapply ca_cons; [apply k_digits; assumption|]. eapply ca_cons; [|constructor].
    apply c_rep. apply cr_done. apply c_and. apply ca_fail. apply k_lit_fail. intros x E. destruct (A _ _ E) as [_ K]. apply K. reflexivity.
Qed.

Lemma no_op_at_op : forall (ops : char -> Prop) i c x, c <> 32%N -> ~ ops c -> no_op_at ops i (blanks i ++ [c] ++ x).
Proof. intros ops i c x N O. exists ([c] ++ x). split; [reflexivity|]. intros d y E. injection E as <- _. auto. Qed.
End Build.

Section Cost.
Let G := grammar_of calculator_read.
Notation run := (costs G).
Let GB : G (s_ "_") = Some (Repeat (lit (s_ " ")) 0 None) := eq_refl.
Let GN : G (s_ "num") = Some (And [Repeat e_digit 1 None; Repeat (And [lit (s_ "."); Repeat e_digit 1 None]) 0 (Some 1)]) := eq_refl.

Lemma mul_binary : binary G (s_ "fact_op") 42%N 47%N.
Proof. reflexivity. Qed.
Lemma add_binary : binary G (s_ "add_op") 43%N 45%N.
Proof. reflexivity. Qed.

(** ** Expressions *)

Lemma calc_cost :
  (forall p, ok_prim p -> forall r, after_num r -> exists k, run r_fact_t (show_prim p ++ r) (OM r) k /\ k + 100 <= 200 * length (show_prim p)) /\
  (forall q, ok_prod q -> forall m r, after_num r -> no_op_at is_mul m r ->
     exists r1 k1 k2, run r_fact_t (show_prod q ++ r) (OM r1) k1 /\ costs_rep G turn_mul 0 None r1 (OM r) k2 /\ k1 + k2 + 60 <= 200 * length (show_prod q) + m) /\
  (forall e, ok_sum e -> forall m r, after_num r -> no_op_at ops m r ->
     exists r1 k1 k2, run r_add_t (show_sum e ++ r) (OM r1) k1 /\ costs_rep G turn_add 0 None r1 (OM r) k2 /\ k1 + k2 + 20 <= 200 * length (show_sum e) + 2 * m).
Proof.
  assert (PROD : forall s r1 r k1 k2, run r_fact_t s (OM r1) k1 -> costs_rep G turn_mul 0 None r1 (OM r) k2 -> run r_add_t s (OM r) (k1 + k2 + 3)).
  { intros s r1 r k1 k2 H1 H2. replace (k1 + k2 + 3) with (S (S (k1 + (S k2 + 0)))) by lia. eapply c_rule; [reflexivity|]. apply c_and. eapply ca_cons; [exact H1|].
    eapply ca_cons; [|constructor]. apply c_rep. exact H2. }
  apply calc_ind.
  - intros w f H r A. destruct (show_prim_head _ H) as (c & x & E & D).
    assert (NP : forall y, show_prim (Num w f) ++ r <> 40%N :: y).
    { intros y Q. rewrite E in Q. injection Q as -> _. destruct H as [[N F] _]. destruct w as [|d w]; [congruence|].
      destruct f as [v|]; cbn [show_prim app] in E; injection E as -> _; inversion F as [|? ? F1]; discriminate F1. }
    assert (L : 1 <= length (show_prim (Num w f))) by (rewrite E; cbn; lia).
    destruct (k_num G GN w f r H A) as (k & K & KL). exists (S (S (S (S 1 + S k)))). split; [|lia].
    eapply c_rule; [reflexivity|]. eapply c_rule; [reflexivity|]. apply c_or.
    eapply co_next; [apply c_and; apply ca_fail; apply k_lit_fail; exact NP|]. apply co_match. eapply c_rule; [reflexivity|exact K].
  - intros e IH H r A. cbn [show_prim]. cbn [ok_prim] in H. rewrite <- !app_assoc.
    assert (A2 : after_num (s_ ")" ++ r)) by (intros c y E; injection E as <- _; split; [reflexivity|discriminate]).
    assert (O2 : no_op_at ops 0 (s_ ")" ++ r)).
    { apply (no_op_at_op ops 0 41%N r); [discriminate|]. intros [[Q|Q]|[Q|Q]]; discriminate Q. }
    destruct (IH H _ _ A2 O2) as (r1 & k1 & k2 & H1 & H2 & L).
    exists (S (S (S (S (1 + (S (S (S (k1 + (S k2 + 0)))) + (1 + 0))))))). split; [|rewrite !app_length; change (length (s_ "(")) with 1; change (length (s_ ")")) with 1; lia].
    eapply c_rule; [reflexivity|]. eapply c_rule; [reflexivity|]. apply c_or. apply co_match. apply c_and.
    eapply ca_cons; [apply (k_lit G (s_ "("))|]. eapply ca_cons; [eapply c_rule; [reflexivity|]; apply c_or, co_match, c_and; eapply ca_cons; [exact H1|];
      eapply ca_cons; [apply c_rep; exact H2|constructor]|]. eapply ca_cons; [apply (k_lit G (s_ ")"))|constructor].
  - intros p IH H m r A O. cbn [show_prod ok_prod] in *. destruct (IH H r A) as (k & K & L). exists r, k, (m + 8). split; [exact K|]. split; [|lia].
    apply cr_done. eapply (k_turn_fail G GB _ _ _ _ is_mul m r mul_binary); [|exact O]. intros c C. exact C.
  - intros p IHp i op j q IHq H m r A O. cbn [show_prod ok_prod] in *. destruct H as (Hp & Ho & Hq).
    destruct (IHq Hq m r A O) as (r1 & k1 & k2 & H1 & H2 & L). destruct (op_facts op (or_introl Ho)) as (F1 & F2 & F3).
    destruct (IHp Hp (blanks i ++ [op] ++ blanks j ++ show_prod q ++ r) (after_op _ _ _ F1 F2)) as (k & K & KL).
    destruct (k_turn G GB _ _ _ r_fact_t i op j _ _ _ mul_binary Ho F3 (head_no_blank _ r (show_product_head q Hq)) H1) as (kt & KT & KTL).
    exists (blanks i ++ [op] ++ blanks j ++ show_prod q ++ r), k, (kt + k2). rewrite <- !app_assoc. split; [exact K|].
    split; [eapply cr_more; [discriminate|exact KT|exact H2]|].
    rewrite !app_length. unfold blanks. rewrite !repeat_length. cbn [length]. lia.
  - intros q IH H m r A O. cbn [show_sum ok_sum] in *.
    assert (O1 : no_op_at is_mul m r) by (destruct O as (r' & -> & N); exists r'; split; [reflexivity|]; intros c x E; destruct (N c x E) as [N1 N2]; split; [exact N1|intro M; apply N2; left; exact M]).
    destruct (IH H m r A O1) as (r1 & k1 & k2 & H1 & H2 & L). exists r, (k1 + k2 + 3), (m + 8). split; [apply (PROD _ r1); assumption|]. split; [|lia].
    apply cr_done. eapply (k_turn_fail G GB _ _ _ _ ops m r add_binary); [|exact O]. intros c C. right. exact C.
  - intros q IHq i op j e IHe H m r A O. cbn [show_sum ok_sum] in *. destruct H as (Hq & Ho & He).
    destruct (IHe He m r A O) as (r1 & k1 & k2 & H1 & H2 & L). destruct (op_facts op (or_intror Ho)) as (F1 & F2 & F3).
    destruct (IHq Hq i (blanks i ++ [op] ++ blanks j ++ show_sum e ++ r) (after_op _ _ _ F1 F2) (no_op_at_op _ _ _ _ F3 (mul_add _ Ho))) as (r2 & k3 & k4 & H3 & H4 & L').
    destruct (k_turn G GB _ _ _ r_add_t i op j _ _ _ add_binary Ho F3 (head_no_blank _ r (show_total_head e He)) H1) as (kt & KT & KTL).
    exists (blanks i ++ [op] ++ blanks j ++ show_sum e ++ r), (k3 + k4 + 3), (kt + k2). rewrite <- !app_assoc. split; [apply (PROD _ r2); assumption|].
    split; [eapply cr_more; [discriminate|exact KT|exact H2]|].
    rewrite !app_length. unfold blanks. rewrite !repeat_length. cbn [length]. lia.
Qed.

Lemma expr_cost : forall e j, ok_sum e -> exists k, run r_expr (show_sum e ++ blanks j) (OM (blanks j)) k /\ k <= 200 * length (show_sum e) + 2 * j.
Proof.
  intros e j H.
  assert (A : after_num (blanks j)) by (destruct j as [|j]; intros c x E; [discriminate E|]; cbn in E; injection E as <- _; split; [reflexivity|discriminate]).
  assert (O : no_op_at ops j (blanks j)) by (exists []; split; [symmetry; apply app_nil_r|discriminate]).
  destruct (proj2 (proj2 calc_cost) e H j _ A O) as (r1 & k1 & k2 & H1 & H2 & L). exists (S (S (S (k1 + (S k2 + 0))))). split; [|lia].
  eapply c_rule; [reflexivity|]. apply c_or, co_match, c_and. eapply ca_cons; [exact H1|]. eapply ca_cons; [apply c_rep; exact H2|constructor].
Qed.

Lemma main_cost : forall i e j, ok_sum e -> exists k, run (RuleName main) (blanks i ++ show_sum e ++ blanks j) (OM []) k /\ k <= 200 * (length (blanks i ++ show_sum e ++ blanks j) + 1).
Proof.
  intros i e j H. destruct (expr_cost e j H) as (k & K & L). exists (S (S ((i + 3) + (k + ((j + 3) + 0))))).
  split; [|rewrite !app_length; unfold blanks; rewrite !repeat_length; lia].
  eapply c_rule; [reflexivity|]. apply c_and. eapply ca_cons; [apply (k_blank G GB), head_no_blank, show_total_head; exact H|]. eapply ca_cons; [exact K|].
  eapply ca_cons; [|constructor]. rewrite <- (app_nil_r (blanks j)). apply (k_blank G GB). discriminate.
Qed.

(** ** Missing parentheses *)

Definition open_ending (n : nat) : ending := match n with 0 => OM [] | S _ => OF end.

Lemma open_cost : forall n e, ok_sum e -> exists k, run r_expr (times n (s_ "(") ++ show_sum e) (open_ending n) k /\ 2 ^ n <= k.
Proof.
  intros n e H. induction n as [|n (k & K & L)].
  - destruct (expr_cost e 0 H) as (k & K & _). rewrite app_nil_r in K. exists k. split; [exact K|]. destruct k as [|k]; [inversion K|cbn; lia].
  - cbn [times]. rewrite <- app_assoc. cbn [open_ending].
    assert (P : exists kp, run r_portion (s_ "(" ++ times n (s_ "(") ++ show_sum e) OF kp /\ 2 ^ n <= kp).
    { assert (D : run (Repeat e_digit 1 None) (s_ "(" ++ times n (s_ "(") ++ show_sum e) OF 2).
      { apply k_digits_fail. intros c r E. injection E as <- _. reflexivity. }
      assert (T : exists kt, costs_and G [lit (s_ "("); r_expr; lit (s_ ")")] (s_ "(" ++ times n (s_ "(") ++ show_sum e) OF kt /\ 2 ^ n <= kt).
      { destruct n as [|n]; cbn [open_ending] in K.
        - exists (1 + (k + 1)). split; [|lia]. eapply ca_cons; [apply (k_lit G (s_ "("))|]. eapply ca_cons; [exact K|]. apply ca_fail. apply k_lit_fail. discriminate.
        - exists (1 + k). split; [|lia]. eapply ca_cons; [apply (k_lit G (s_ "("))|]. apply ca_fail. exact K. }
      destruct T as (kt & T & TL). exists (S (S (S kt + (S (S (S 2)) + 0)))). split; [|lia].
      eapply c_rule; [reflexivity|]. apply c_or. eapply co_next; [apply c_and; exact T|]. eapply co_next; [|constructor].
      eapply c_rule; [reflexivity|]. eapply c_rule; [reflexivity|]. apply c_and, ca_fail. exact D. }
    destruct P as (kp & P & PL). exists (S (S (S (S (S (S kp))) + (kp + 0)))). split; [|cbn [Nat.pow]; lia].
    eapply c_rule; [reflexivity|]. apply c_or. eapply co_next; [|eapply co_next; [exact P|constructor]].
    apply c_and, ca_fail. eapply c_rule; [reflexivity|]. apply c_and, ca_fail. eapply c_rule; [reflexivity|exact P].
Qed.

Lemma main_open_cost : forall n e, ok_sum e -> exists k, run (RuleName main) (times n (s_ "(") ++ show_sum e) (open_ending n) k /\ 2 ^ n < k.
Proof.
  intros n e H. destruct (open_cost n e H) as (k & K & L).
  assert (B : run r_blank (times n (s_ "(") ++ show_sum e) (OM (times n (s_ "(") ++ show_sum e)) (0 + 3)).
  { apply (k_blank G GB 0). destruct n as [|n]; [rewrite <- (app_nil_r (show_sum e)); cbn [times app]; apply head_no_blank, show_total_head; exact H|].
    intros c x E. injection E as <- _. discriminate. }
  destruct n as [|n].
  - exists (S (S ((0 + 3) + (k + ((0 + 3) + 0))))). split; [|lia]. eapply c_rule; [reflexivity|]. apply c_and. eapply ca_cons; [exact B|]. eapply ca_cons; [exact K|].
    eapply ca_cons; [|constructor]. apply (k_blank G GB 0 []). discriminate.
  - exists (S (S ((0 + 3) + k))). split; [|lia]. eapply c_rule; [reflexivity|]. apply c_and. eapply ca_cons; [exact B|]. apply ca_fail. exact K.
Qed.
End Cost.

(** ** Calls of the parser *)

Lemma calculator_linear : forall i e j fuel d, ok_sum e -> let s := blanks i ++ show_sum e ++ blanks j in
  parse_with_debug fuel s calculator_read d <> Fuel -> parse_calls fuel s calculator_read d <= 200 * (length s + 1).
Proof.
  intros i e j fuel d H s N. destruct (main_cost i e j H) as (k & K & L). fold s in K, L.
  assert (A : ascii s). { unfold s, ascii. rewrite !Forall_app. repeat split; [apply blanks_ascii|apply show_ascii; exact H|apply blanks_ascii]. }
  pose proof (parse_calls_run _ _ _ _ _ _ calculator_sane A N K ltac:(discriminate)). lia.
Qed.

Lemma calculator_exponential : forall n e fuel d, ok_sum e -> let s := times n (s_ "(") ++ show_sum e in
  parse_with_debug fuel s calculator_read d <> Fuel -> 2 ^ n <= parse_calls fuel s calculator_read d.
Proof.
  intros n e fuel d H s N. destruct (main_open_cost n e H) as (k & K & L). fold s in K.
  assert (A : ascii s). { unfold s, ascii. rewrite Forall_app. split; [apply times_ascii; repeat constructor|apply show_ascii; exact H]. }
  pose proof (parse_calls_run _ _ _ _ _ _ calculator_sane A N K ltac:(destruct n; discriminate)). lia.
Qed.
