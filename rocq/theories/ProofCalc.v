(** The documented calculator grammar. *)
From Verif Require Import Base ModelAst ModelParser ModelPegRules ModelPeg SpecPeg SpecPos SpecApi SpecWf SpecAst SpecLang SpecDocs.
From Verif Require Import ProofParser ProofEngine ProofApi ProofAst ProofWf WfCheck PegTools ProofLang ProofIdioms ProofPegMono Examples ProofDocs.

Definition r_blank := RuleName (s_ "_").
Definition r_expr := RuleName (s_ "expr").
Definition r_add_t := RuleName (s_ "add_t").
Definition r_fact_t := RuleName (s_ "fact_t").
Definition r_portion := RuleName (s_ "portion_expr").
Definition e_digit := Simple (Match [] [(48%N, 57%N)]).
Definition turn_mul : expr := And [r_blank; RuleName (s_ "fact_op"); r_blank; r_fact_t].
Definition turn_add : expr := And [r_blank; RuleName (s_ "add_op"); r_blank; r_add_t].

Definition calculator_read : rules :=
  [(s_ "_", Repeat (lit (s_ " ")) 0 None); (s_ "fact_op", Or [lit (s_ "*"); lit (s_ "/")]); (s_ "add_op", Or [lit (s_ "+"); lit (s_ "-")]);
   (s_ "num", And [Repeat e_digit 1 None; Repeat (And [lit (s_ "."); Repeat e_digit 1 None]) 0 (Some 1)]); (s_ "item", RuleName (s_ "num"));
   (s_ "portion_expr", Or [And [lit (s_ "("); r_expr; lit (s_ ")")]; RuleName (s_ "item")]); (s_ "fact_t", r_portion);
   (s_ "add_t", And [r_fact_t; Repeat turn_mul 0 None]); (s_ "expr", Or [And [r_add_t; Repeat turn_add 0 None]; r_portion]);
   (main, And [r_blank; r_expr; r_blank])].

Lemma calculator_reads : rules_from_peg 300 calculator_text = Ok calculator_read.
Proof. vm_compute. reflexivity. Qed.
Lemma calculator_sane : sane_rules calculator_read.
Proof. apply sane_rules_all. repeat constructor. Qed.
Lemma calculator_wf : well_formed (grammar_of calculator_read).
Proof. apply wf_check_sound; vm_compute; reflexivity. Qed.

Scheme prim_mut := Induction for prim Sort Prop
with product_mut := Induction for product Sort Prop
with total_mut := Induction for total Sort Prop.
Combined Scheme calc_ind from prim_mut, product_mut, total_mut.

Section Calc.
Let G := grammar_of calculator_read.

(** What follows does not continue a number; it does not continue a product, or sum. *)
Definition after_num (r : str) : Prop := forall c r', r = c :: r' -> is_digit c = false /\ c <> 46%N.
Definition no_op (ops : char -> Prop) (r : str) : Prop := exists k r', r = blanks k ++ r' /\ forall c x, r' = c :: x -> c <> 32%N /\ ~ ops c.

Definition no_blank (r : str) : Prop := forall c x, r = c :: x -> c <> 32%N.

Lemma lit1_fail : forall c s, (forall x, s <> c :: x) -> peg G (lit [c]) s PFail.
Proof. intros c s H. apply peg_lit_fail. exact H. Qed.

Lemma blank_star : forall k r, star G (lit (s_ " ")) (blanks k ++ r) (repeat [Val (s_ " ")] k) r.
Proof. induction k as [|k IH]; intro r; cbn; [constructor|]. econstructor; [apply mk_lit; reflexivity|apply IH]. Qed.
Lemma concat_repeat1 : forall A (x : A) k, concat (repeat [x] k) = repeat x k.
Proof. intros A x k. induction k as [|k IH]; cbn; [reflexivity|rewrite IH; reflexivity]. Qed.
Lemma blanks_ok : forall k r, no_blank r -> peg G r_blank (blanks k ++ r) (PMatch [blanks_tree k] r).
Proof.
  intros k r N. eapply mk_rule; [reflexivity|]. rewrite <- concat_repeat1. apply mk_star; [apply blank_star|]. apply lit1_fail. intros x E. exact (N _ _ E eq_refl).
Qed.
Lemma blanks_inv : forall s ts rest, peg G r_blank s (PMatch ts rest) -> exists k, s = blanks k ++ rest /\ ts = [blanks_tree k].
Proof.
  intros s ts rest H. apply inv_rule in H. destruct H as (e & k & E & -> & H). injection E as <-. apply inv_rep0 in H. destruct H as (l & K & -> & _).
  assert (X : exists n, s = blanks n ++ rest /\ concat l = repeat (Val (s_ " ")) n).
  { induction K as [s|s t s1 ts rest D K IH]; [exists 0; split; reflexivity|]. apply inv_lit in D. destruct D as [-> ->].
    destruct IH as (n & -> & E). exists (S n). split; [reflexivity|]. cbn. rewrite E. reflexivity. }
  destruct X as (n & -> & E). exists n. split; [reflexivity|]. rewrite E. reflexivity.
Qed.

Lemma op_ok : forall n a b c r, G n = Some (Or [lit [a]; lit [b]]) -> c = a \/ c = b -> peg G (RuleName n) (c :: r) (PMatch [Rule n [Val [c]]] r).
Proof.
  intros n a b c r E C. eapply mk_rule; [exact E|]. destruct (N.eq_dec c a) as [->|D].
  - apply mk_or1. apply mk_lit. reflexivity.
  - destruct C as [C| ->]; [congruence|]. apply peg_or_next; [apply lit1_fail; intros x Q; congruence|]. apply mk_or1. apply mk_lit. reflexivity.
Qed.
Lemma op_fail : forall n a b s, G n = Some (Or [lit [a]; lit [b]]) -> (forall c x, s = c :: x -> c <> a /\ c <> b) -> peg G (RuleName n) s PFail.
Proof.
  intros n a b s E C. eapply mk_rule_fail; [exact E|]. apply peg_or_next; [apply lit1_fail; intros x Q; destruct (C _ _ Q); congruence|].
  apply peg_or_next; [apply lit1_fail; intros x Q; destruct (C _ _ Q); congruence|constructor].
Qed.
Lemma op_inv : forall n a b s ts rest, G n = Some (Or [lit [a]; lit [b]]) -> peg G (RuleName n) s (PMatch ts rest) ->
  exists c, s = c :: rest /\ (c = a \/ c = b) /\ ts = [Rule n [Val [c]]].
Proof.
  intros n a b s ts rest E H. apply inv_rule in H. destruct H as (e & k & E' & -> & H). rewrite E in E'. injection E' as <-. apply inv_or in H.
  destruct H as (l1 & x & l2 & Q & H & _). destruct l1 as [|y [|z l1]]; [| |destruct l1; discriminate Q]; injection Q; intros; subst; apply inv_lit in H; destruct H as [-> ->].
  - exists a. auto.
  - exists b. auto.
Qed.

(** A turn of the repetitions: blanks, operator, blanks, operand. *)
Definition turn (n : str) (x : expr) : expr := And [r_blank; RuleName n; r_blank; x].

Lemma turn_ok : forall n a b x i c j s r t, G n = Some (Or [lit [a]; lit [b]]) -> c = a \/ c = b -> c <> 32%N -> no_blank s ->
  peg G x s (PMatch [t] r) -> peg G (turn n x) (blanks i ++ [c] ++ blanks j ++ s) (PMatch (op_tree n i c j ++ [t]) r).
Proof.
  intros n a b x i c j s r t E C NB N H. unfold op_tree, turn.
  change ([blanks_tree i; Rule n [Val [c]]; blanks_tree j] ++ [t]) with ([blanks_tree i] ++ [Rule n [Val [c]]] ++ [blanks_tree j] ++ [t] ++ []).
  eapply mk_and; [apply blanks_ok; intros d y Q; injection Q as <- _; exact NB|]. eapply mk_and; [eapply op_ok; eassumption|].
  eapply mk_and; [apply blanks_ok; exact N|]. eapply mk_and; [exact H|constructor].
Qed.
Lemma turn_fail : forall n a b x (ops : char -> Prop) r, G n = Some (Or [lit [a]; lit [b]]) -> (forall c, c = a \/ c = b -> ops c) -> no_op ops r -> peg G (turn n x) r PFail.
Proof.
  intros n a b x ops r E O (k & r' & -> & N). eapply mk_and_fail; [apply blanks_ok; intros c y Q; exact (proj1 (N _ _ Q))|]. apply mk_and_fail1.
  eapply op_fail; [exact E|]. intros c y Q. destruct (N _ _ Q) as [_ K]. split; intros ->; apply K, O; auto.
Qed.
Lemma turn_inv : forall n a b x s ts r, G n = Some (Or [lit [a]; lit [b]]) -> peg G (turn n x) s (PMatch ts r) ->
  exists i c j s' us, (c = a \/ c = b) /\ s = blanks i ++ [c] ++ blanks j ++ s' /\ peg G x s' (PMatch us r) /\ ts = op_tree n i c j ++ us.
Proof.
  intros n a b x s ts r E H. apply inv_and_cons in H. destruct H as (t1 & s1 & t2 & -> & H1 & H). apply blanks_inv in H1. destruct H1 as (i & -> & ->).
  apply inv_and_cons in H. destruct H as (t3 & s2 & t4 & -> & H1 & H). destruct (op_inv _ _ _ _ _ _ E H1) as (c & -> & C & ->).
  apply inv_and_cons in H. destruct H as (t5 & s3 & t6 & -> & H2 & H). apply blanks_inv in H2. destruct H2 as (j & -> & ->). apply inv_one in H.
  exists i, c, j, s3, t6. repeat split; assumption.
Qed.

(* ------------------------------------------------------------------------------------------- *)
(** ** Every expression is read *)

Lemma digit_ok : forall c s, is_digit c = true -> peg G e_digit (c :: s) (PMatch [Val [c]] s).
Proof. intros c s H. apply peg_class_ok. apply digit_class. exact H. Qed.
Lemma digit_fail : forall s, (forall c r, s = c :: r -> is_digit c = false) -> peg G e_digit s PFail.
Proof. intros s H. apply peg_class_fail. intros c r E C. apply digit_class in C. rewrite (H c r E) in C. discriminate. Qed.
Lemma digits_star : forall w r, Forall (fun c => is_digit c = true) w -> star G e_digit (w ++ r) (map (fun c => [Val [c]]) w) r.
Proof. intros w r F. induction F as [|c w C F IH]; cbn; [constructor|]. econstructor; [apply digit_ok; exact C|exact IH]. Qed.
Lemma digits_ok : forall w r, digits w -> (forall c x, r = c :: x -> is_digit c = false) -> peg G (Repeat e_digit 1 None) (w ++ r) (PMatch (digits_tree w) r).
Proof.
  intros w r [N F] K. destruct w as [|c w]; [congruence|]. inversion F as [|? ? C F']; subst. unfold digits_tree. cbn [map app].
  change (Val [c] :: ?x) with ([Val [c]] ++ x). rewrite <- (concat_singles _ _ (fun d => Val [d])).
  eapply mk_plus; [apply digit_ok; exact C|apply digits_star; exact F'|apply digit_fail; exact K].
Qed.

Lemma num_ok : forall w f r, ok_prim (Num w f) -> after_num r ->
  peg G (RuleName (s_ "num")) (show_prim (Num w f) ++ r) (PMatch [Rule (s_ "num") (match f with None => digits_tree w | Some v => digits_tree w ++ Val (s_ ".") :: digits_tree v end)] r).
Proof.
  intros w f r [W V] A. assert (D : forall c x, r = c :: x -> is_digit c = false) by (intros c x E; apply (A _ _ E)). eapply mk_rule; [reflexivity|]. destruct f as [v|]; cbn [show_prim].
  - rewrite <- !app_assoc. eapply mk_and; [apply digits_ok; [exact W|intros c x E; injection E as <- _; reflexivity]|].
    rewrite <- (app_nil_r (Val _ :: _)). eapply mk_and; [|constructor]. apply mk_opt_some. change (Val (s_ ".") :: ?x) with ([Val (s_ ".")] ++ x).
    eapply mk_and; [apply mk_lit; reflexivity|]. rewrite <- (app_nil_r (digits_tree v)). eapply mk_and; [apply digits_ok; assumption|constructor].
  - rewrite <- (app_nil_r (digits_tree w)). eapply mk_and; [apply digits_ok; assumption|]. change (@nil node) with (@nil node ++ []). eapply mk_and; [|constructor].
    apply mk_opt_none. apply mk_and_fail1. apply lit1_fail. intros x E. destruct (A _ _ E) as [_ K]. apply K. reflexivity.
Qed.

Lemma show_prim_head : forall p, ok_prim p -> exists c w, show_prim p = c :: w /\ (is_digit c = true \/ c = 40%N).
Proof.
  intros [w f|e] H; [|exists 40%N; eexists; split; [reflexivity|right; reflexivity]]. destruct H as [[N F] _]. destruct w as [|c w]; [congruence|].
  inversion F; subst. destruct f as [v|]; cbn [show_prim app]; exists c; eexists; (split; [reflexivity|left; assumption]).
Qed.
Lemma show_product_head : forall q, ok_prod q -> exists c w, show_prod q = c :: w /\ (is_digit c = true \/ c = 40%N).
Proof.
  intros [p|p i op j q] H; cbn [show_prod ok_prod] in *; [apply show_prim_head; exact H|]. destruct H as [H _]. destruct (show_prim_head p H) as (c & w & -> & C).
  exists c. eexists. split; [reflexivity|exact C].
Qed.
Lemma show_total_head : forall e, ok_sum e -> exists c w, show_sum e = c :: w /\ (is_digit c = true \/ c = 40%N).
Proof.
  intros [q|q i op j e] H; cbn [show_sum ok_sum] in *; [apply show_product_head; exact H|]. destruct H as [H _]. destruct (show_product_head q H) as (c & w & -> & C).
  exists c. eexists. split; [reflexivity|exact C].
Qed.
Lemma head_no_blank : forall s r, (exists c w, s = c :: w /\ (is_digit c = true \/ c = 40%N)) -> no_blank (s ++ r).
Proof. intros s r (c & w & -> & C) d x E. injection E as <- _. intros ->. destruct C as [C|C]; discriminate C. Qed.

Lemma after_op : forall i c x, is_digit c = false -> c <> 46%N -> after_num (blanks i ++ [c] ++ x).
Proof. intros [|i] c x D N d y E; cbn in E; injection E as <- _; [split; assumption|split; [reflexivity|discriminate]]. Qed.
Lemma no_op_op : forall (ops : char -> Prop) i c x, c <> 32%N -> ~ ops c -> no_op ops (blanks i ++ [c] ++ x).
Proof. intros ops i c x N O. exists i, ([c] ++ x). split; [reflexivity|]. intros d y E. injection E as <- _. auto. Qed.

Lemma mul_add : forall c, is_add c -> ~ is_mul c.
Proof. intros c [->| ->] [H|H]; discriminate H. Qed.
Lemma op_facts : forall c, is_mul c \/ is_add c -> is_digit c = false /\ c <> 46%N /\ c <> 32%N.
Proof. intros c [[->| ->]|[->| ->]]; repeat split; discriminate. Qed.

Definition ops (c : char) : Prop := is_mul c \/ is_add c.

Lemma item_head_fail : forall s, (exists c w, s = c :: w /\ is_digit c = true) -> peg G (And [lit (s_ "("); r_expr; lit (s_ ")")]) s PFail.
Proof. intros s (c & w & -> & D). apply mk_and_fail1. apply lit1_fail. intros x E. injection E as -> _. discriminate D. Qed.

Lemma calc_ok :
  (forall p, ok_prim p -> forall r, after_num r -> peg G r_fact_t (show_prim p ++ r) (PMatch [tree_prim p] r)) /\
  (forall q, ok_prod q -> forall r, after_num r -> no_op is_mul r ->
     exists t r1 ts, peg G r_fact_t (show_prod q ++ r) (PMatch [t] r1) /\ peg G (Repeat turn_mul 0 None) r1 (PMatch ts r) /\ tree_prod q = t :: ts) /\
  (forall e, ok_sum e -> forall r, after_num r -> no_op ops r ->
     exists t r1 ts, peg G r_add_t (show_sum e ++ r) (PMatch [t] r1) /\ peg G (Repeat turn_add 0 None) r1 (PMatch ts r) /\ tree_sum e = t :: ts).
Proof.
  assert (PROD : forall q r, (exists t r1 ts, peg G r_fact_t (show_prod q ++ r) (PMatch [t] r1) /\ peg G (Repeat turn_mul 0 None) r1 (PMatch ts r) /\ tree_prod q = t :: ts) ->
    peg G r_add_t (show_prod q ++ r) (PMatch [Rule (s_ "add_t") (tree_prod q)] r)).
  { intros q r (t & r1 & ts & H1 & H2 & ->). eapply mk_rule; [reflexivity|]. change (t :: ts) with ([t] ++ ts). eapply mk_and; [exact H1|].
    rewrite <- (app_nil_r ts). eapply mk_and; [exact H2|constructor]. }
  apply calc_ind.
  - (* numbers *)
    intros w f H r A. destruct (show_prim_head _ H) as (c & x & E & D).
    assert (DD : exists c w0, show_prim (Num w f) ++ r = c :: w0 /\ is_digit c = true).
    { rewrite E. exists c. eexists. split; [reflexivity|]. destruct D as [D| ->]; [exact D|]. exfalso. destruct H as [[N F] _]. destruct w as [|d w]; [congruence|].
      destruct f as [v|]; cbn [show_prim app] in E; injection E as -> _; inversion F as [|? ? F1]; discriminate F1. }
    assert (X : tree_prim (Num w f) = Rule (s_ "fact_t") [Rule (s_ "portion_expr") [Rule (s_ "item") [Rule (s_ "num") (match f with None => digits_tree w | Some v => digits_tree w ++ Val (s_ ".") :: digits_tree v end)]]]) by (destruct f; reflexivity).
    rewrite X. eapply mk_rule; [reflexivity|]. eapply mk_rule; [reflexivity|]. apply peg_or_next; [apply item_head_fail; exact DD|]. apply mk_or1.
    eapply mk_rule; [reflexivity|]. apply num_ok; assumption.
  - (* parentheses *)
    intros e IH H r A. cbn [show_prim tree_prim]. cbn [ok_prim] in H. rewrite <- !app_assoc.
    assert (A2 : after_num (s_ ")" ++ r)) by (intros c y E; injection E as <- _; split; [reflexivity|discriminate]).
    assert (O2 : no_op ops (s_ ")" ++ r)).
    { apply (no_op_op ops 0 41%N r); [discriminate|]. intros [[Q|Q]|[Q|Q]]; discriminate Q. }
    destruct (IH H _ A2 O2) as (t & r1 & ts & H1 & H2 & E). rewrite E.
    eapply mk_rule; [reflexivity|]. eapply mk_rule; [reflexivity|]. apply mk_or1.
    change [Val (s_ "("); Rule (s_ "expr") (t :: ts); Val (s_ ")")] with ([Val (s_ "(")] ++ [Rule (s_ "expr") ([t] ++ ts)] ++ [Val (s_ ")")] ++ []).
    eapply mk_and; [apply mk_lit; reflexivity|]. eapply mk_and; [eapply mk_rule; [reflexivity|]; apply mk_or1; eapply mk_and; [exact H1|];
      rewrite <- (app_nil_r ts); eapply mk_and; [exact H2|constructor]|].
    eapply mk_and; [apply mk_lit; reflexivity|constructor].
  - (* a single factor *)
    intros p IH H r A O. cbn [show_prod tree_prod ok_prod] in *. exists (tree_prim p), r, []. split; [apply IH; assumption|]. split; [|reflexivity].
    apply peg_rep_done; [discriminate|]. eapply (turn_fail (s_ "fact_op") 42%N 47%N); [reflexivity| |exact O]. intros c C. exact C.
  - (* products *)
    intros p IHp i op j q IHq H r A O. cbn [show_prod tree_prod ok_prod] in *. destruct H as (Hp & Ho & Hq).
    destruct (IHq Hq r A O) as (t & r1 & ts & H1 & H2 & E). destruct (op_facts op (or_introl Ho)) as (F1 & F2 & F3).
    exists (tree_prim p), (blanks i ++ [op] ++ blanks j ++ show_prod q ++ r), (op_tree (s_ "fact_op") i op j ++ tree_prod q).
    split; [|split; [|reflexivity]].
    + rewrite <- !app_assoc. apply IHp; [exact Hp|]. apply after_op; assumption.
    + rewrite E. change (t :: ts) with ([t] ++ ts). rewrite (app_assoc (op_tree _ _ _ _)).
      change (PMatch ((op_tree (s_ "fact_op") i op j ++ [t]) ++ ts) r) with (prepend (op_tree (s_ "fact_op") i op j ++ [t]) (PMatch ts r)).
      eapply peg_rep_more; [discriminate| |exact H2]. eapply (turn_ok (s_ "fact_op") 42%N 47%N); [reflexivity|exact Ho|exact F3| |exact H1].
      apply head_no_blank. apply show_product_head. exact Hq.
  - (* a single term *)
    intros q IH H r A O. cbn [show_sum tree_sum ok_sum] in *.
    assert (O1 : no_op is_mul r) by (destruct O as (k & r' & -> & N); exists k, r'; split; [reflexivity|]; intros c x E; destruct (N c x E) as [N1 N2]; split; [exact N1|intro M; apply N2; left; exact M]).
    exists (Rule (s_ "add_t") (tree_prod q)), r, []. split; [apply PROD, IH; assumption|]. split; [|reflexivity].
    apply peg_rep_done; [discriminate|]. eapply (turn_fail (s_ "add_op") 43%N 45%N); [reflexivity| |exact O]. intros c C. right. exact C.
  - (* sums *)
    intros q IHq i op j e IHe H r A O. cbn [show_sum tree_sum ok_sum] in *. destruct H as (Hq & Ho & He).
    destruct (IHe He r A O) as (t & r1 & ts & H1 & H2 & E). destruct (op_facts op (or_intror Ho)) as (F1 & F2 & F3).
    exists (Rule (s_ "add_t") (tree_prod q)), (blanks i ++ [op] ++ blanks j ++ show_sum e ++ r), (op_tree (s_ "add_op") i op j ++ tree_sum e).
    split; [|split; [|reflexivity]].
    + rewrite <- !app_assoc. apply PROD, IHq; [exact Hq|apply after_op; assumption|]. apply no_op_op; [exact F3|]. apply mul_add. exact Ho.
    + rewrite E. change (t :: ts) with ([t] ++ ts). rewrite (app_assoc (op_tree _ _ _ _)).
      change (PMatch ((op_tree (s_ "add_op") i op j ++ [t]) ++ ts) r) with (prepend (op_tree (s_ "add_op") i op j ++ [t]) (PMatch ts r)).
      eapply peg_rep_more; [discriminate| |exact H2]. eapply (turn_ok (s_ "add_op") 43%N 45%N); [reflexivity|exact Ho|exact F3| |exact H1].
      apply head_no_blank. apply show_total_head. exact He.
Qed.

Lemma calc_main_ok : forall i e j, ok_sum e -> peg_main calculator_read (blanks i ++ show_sum e ++ blanks j) (PMatch [calculator_tree i e j] []).
Proof.
  intros i e j H. unfold calculator_tree, peg_main. fold G. eapply mk_rule; [reflexivity|].
  assert (A : after_num (blanks j)) by (destruct j as [|j]; intros c x E; [discriminate E|]; cbn in E; injection E as <- _; split; [reflexivity|discriminate]).
  assert (O : no_op ops (blanks j)) by (exists j, []; split; [symmetry; apply app_nil_r|discriminate]).
  destruct (proj2 (proj2 calc_ok) e H _ A O) as (t & r1 & ts & H1 & H2 & E). rewrite E.
  change [blanks_tree i; Rule (s_ "expr") (t :: ts); blanks_tree j] with ([blanks_tree i] ++ [Rule (s_ "expr") ([t] ++ ts)] ++ [blanks_tree j] ++ []).
  eapply mk_and; [apply blanks_ok; apply head_no_blank, show_total_head; exact H|].
  eapply mk_and; [eapply mk_rule; [reflexivity|]; apply mk_or1; eapply mk_and; [exact H1|]; rewrite <- (app_nil_r ts); eapply mk_and; [exact H2|constructor]|].
  eapply mk_and; [|constructor]. rewrite <- (app_nil_r (blanks j)). apply blanks_ok. discriminate.
Qed.

(* ------------------------------------------------------------------------------------------- *)
(** ** Only expressions are read *)

Lemma digits_inv : forall s ts rest, peg G (Repeat e_digit 1 None) s (PMatch ts rest) -> exists w, digits w /\ s = w ++ rest /\ ts = digits_tree w.
Proof.
  intros s ts rest H. apply inv_rep1 in H. destruct H as (t & l & s1 & D & K & -> & _). apply inv_class in D. destruct D as (c & C & -> & ->). apply digit_class in C.
  assert (X : exists w, Forall (fun c => is_digit c = true) w /\ s1 = w ++ rest /\ concat l = digits_tree w).
  { clear C. induction K as [s|s t s1 ts rest D K IH]; [exists []; repeat constructor|]. apply inv_class in D. destruct D as (d & D & -> & ->). apply digit_class in D.
    destruct IH as (w & F & -> & E). exists (d :: w). split; [constructor; assumption|]. split; [reflexivity|]. cbn. rewrite E. reflexivity. }
  destruct X as (w & F & -> & E). exists (c :: w). split; [split; [discriminate|constructor; assumption]|]. split; [reflexivity|]. rewrite E. reflexivity.
Qed.

Lemma num_inv : forall s ts rest, peg G (RuleName (s_ "num")) s (PMatch ts rest) -> exists w f, ok_prim (Num w f) /\ s = show_prim (Num w f) ++ rest /\
  ts = [Rule (s_ "num") (match f with None => digits_tree w | Some v => digits_tree w ++ Val (s_ ".") :: digits_tree v end)].
Proof.
  intros s ts rest H. apply inv_rule in H. destruct H as (e & k & E & -> & H). injection E as <-. apply inv_and_cons in H. destruct H as (t1 & s1 & t2 & -> & H1 & H2).
  apply digits_inv in H1. destruct H1 as (w & W & -> & ->). apply inv_one, inv_opt in H2. destruct H2 as [[-> ->]|H2].
  - exists w, None. split; [split; [exact W|exact I]|]. split; [reflexivity|]. rewrite app_nil_r. reflexivity.
  - apply inv_and_cons in H2. destruct H2 as (t3 & s2 & t4 & -> & H2 & H3). apply inv_lit in H2. destruct H2 as [-> ->]. apply inv_one, digits_inv in H3.
    destruct H3 as (v & V & -> & ->). exists w, (Some v). split; [split; assumption|]. split; [cbn [show_prim]; rewrite <- !app_assoc; reflexivity|reflexivity].
Qed.

(** What is read on texts of a given length. *)
Definition fact_reads (n : nat) : Prop := forall s ts rest, length s <= n -> peg G r_fact_t s (PMatch ts rest) ->
  exists p, ok_prim p /\ s = show_prim p ++ rest /\ ts = [tree_prim p].
Definition add_reads (n : nat) : Prop := forall s ts rest, length s <= n -> peg G r_add_t s (PMatch ts rest) ->
  exists q, ok_prod q /\ s = show_prod q ++ rest /\ ts = [Rule (s_ "add_t") (tree_prod q)].
Definition expr_reads (n : nat) : Prop := forall s ts rest, length s <= n -> peg G r_expr s (PMatch ts rest) ->
  exists e, ok_sum e /\ s = show_sum e ++ rest /\ ts = [Rule (s_ "expr") (tree_sum e)].

Lemma mul_star : forall n, fact_reads n -> forall s l rest, star G turn_mul s l rest -> length s <= n -> forall p, ok_prim p ->
  exists q, ok_prod q /\ show_prim p ++ s = show_prod q ++ rest /\ tree_prim p :: concat l = tree_prod q.
Proof.
  intros n FR s l rest K. induction K as [s|s t s1 ts rest D K IH]; intros L p P.
  - exists (One p). repeat split. exact P.
  - apply (turn_inv (s_ "fact_op") 42%N 47%N) in D; [|reflexivity]. destruct D as (i & c & j & s' & us & C & -> & D & ->).
    rewrite !app_length in L. destruct (FR s' us s1 ltac:(lia) D) as (p' & P' & E' & ->).
    destruct (peg_split G _ _ _ _ D) as [w Ew]. assert (L1 : length s1 <= n) by (rewrite Ew, app_length in L; lia).
    destruct (IH L1 p' P') as (q & Q & E & T). exists (Mul p i c j q). split; [split; [exact P|split; [exact C|exact Q]]|]. split.
    + cbn [show_prod]. rewrite E', E, <- !app_assoc. reflexivity.
    + cbn [tree_prod concat]. rewrite <- T, <- app_assoc. reflexivity.
Qed.

Lemma add_of_fact : forall n, fact_reads n -> add_reads n.
Proof.
  intros n FR s ts rest L H. apply inv_rule in H. destruct H as (e & k & E & -> & H). injection E as <-. apply inv_and_cons in H. destruct H as (t1 & s1 & t2 & -> & H1 & H2).
  apply inv_one, inv_rep0 in H2. destruct H2 as (l & K & -> & _). destruct (peg_split G _ _ _ _ H1) as [w Ew].
  destruct (FR _ _ _ L H1) as (p & P & E & ->). assert (L1 : length s1 <= n) by (rewrite Ew, app_length in L; lia).
  destruct (mul_star n FR _ _ _ K L1 p P) as (q & Q & E2 & T). exists q. split; [exact Q|]. split; [rewrite E; exact E2|]. rewrite <- T. reflexivity.
Qed.

Lemma add_star : forall n, add_reads n -> forall s l rest, star G turn_add s l rest -> length s <= n -> forall q, ok_prod q ->
  exists e, ok_sum e /\ show_prod q ++ s = show_sum e ++ rest /\ Rule (s_ "add_t") (tree_prod q) :: concat l = tree_sum e.
Proof.
  intros n FR s l rest K. induction K as [s|s t s1 ts rest D K IH]; intros L p P.
  - exists (Term p). repeat split. exact P.
  - apply (turn_inv (s_ "add_op") 43%N 45%N) in D; [|reflexivity]. destruct D as (i & c & j & s' & us & C & -> & D & ->).
    rewrite !app_length in L. destruct (FR s' us s1 ltac:(lia) D) as (p' & P' & E' & ->).
    destruct (peg_split G _ _ _ _ D) as [w Ew]. assert (L1 : length s1 <= n) by (rewrite Ew, app_length in L; lia).
    destruct (IH L1 p' P') as (q & Q & E & T). exists (Add p i c j q). split; [split; [exact P|split; [exact C|exact Q]]|]. split.
    + cbn [show_sum]. rewrite E', E, <- !app_assoc. reflexivity.
    + cbn [tree_sum concat]. rewrite <- T, <- app_assoc. reflexivity.
Qed.

Lemma rep0_and_fail : forall a b s, peg G (And [a; Repeat b 0 None]) s PFail -> peg G a s PFail.
Proof.
  intros a b s H. inversion H; subst; [|assumption]. match goal with X : prepend _ ?r = PFail |- _ => destruct r; try discriminate X end.
  exfalso. match goal with X : peg _ (And [Repeat b 0 None]) _ PFail |- _ => apply lang_fail in X; apply and_one_in in X; apply lang_fail in X; exact (rep0_never_fails _ _ _ X) end.
Qed.

Lemma expr_of_add : forall n, add_reads n -> expr_reads n.
Proof.
  intros n FR s ts rest L H. apply inv_rule in H. destruct H as (e & k & E & -> & H). injection E as <-. apply inv_or in H. destruct H as (l1 & x & l2 & E & H & F).
  destruct l1 as [|y [|z l1]]; [| |destruct l1; discriminate E]; injection E; intros; subst.
  - apply inv_and_cons in H. destruct H as (t1 & s1 & t2 & -> & H1 & H2).
    apply inv_one, inv_rep0 in H2. destruct H2 as (l & K & -> & _). destruct (peg_split G _ _ _ _ H1) as [w Ew].
    destruct (FR _ _ _ L H1) as (p & P & E0 & ->). assert (L1 : length s1 <= n) by (rewrite Ew, app_length in L; lia).
    destruct (add_star n FR _ _ _ K L1 p P) as (q & Q & E2 & T). exists q. split; [exact Q|]. split; [rewrite E0; exact E2|]. rewrite <- T. reflexivity.
  - exfalso. inversion F as [|? ? F1 _]; subst. apply rep0_and_fail in F1.
    assert (F2 : peg G r_fact_t s PFail).
    { inversion F1 as [| | | | | | | | | | | | | | | | | | | | | |n0 e0 s0 r0 E0 D E1 E2 E3|]; subst. injection E0 as <-. destruct r0; try discriminate. exact (rep0_and_fail _ _ _ D). }
    pose proof (mk_rule G (s_ "fact_t") r_portion s k rest eq_refl H) as M. pose proof (peg_det _ _ _ _ F2 _ M). discriminate.
Qed.

Lemma fact_reads_all : forall n, fact_reads n.
Proof.
  induction n as [n IH] using lt_wf_ind. intros s ts rest L H. apply inv_rule in H. destruct H as (e & k & E & -> & H). injection E as <-.
  apply inv_rule in H. destruct H as (e & k' & E & -> & H). injection E as <-. apply inv_or in H. destruct H as (l1 & x & l2 & E & H & _).
  destruct l1 as [|y [|z l1]]; [| |destruct l1; discriminate E]; injection E; intros; subst.
  - apply inv_and_cons in H. destruct H as (t1 & s1 & t2 & -> & H1 & H). apply inv_lit in H1. destruct H1 as [-> ->].
    apply inv_and_cons in H. destruct H as (t3 & s2 & t4 & -> & H1 & H). apply inv_one, inv_lit in H. destruct H as [-> ->].
    rewrite app_length in L. change (length (s_ "(")) with 1 in L.
    destruct (expr_of_add _ (add_of_fact _ (IH (length s1) ltac:(lia))) _ _ _ (Nat.le_refl _) H1) as (e & O & -> & ->).
    exists (Par e). split; [exact O|]. split; [cbn [show_prim]; rewrite <- !app_assoc; reflexivity|reflexivity].
  - apply inv_rule in H. destruct H as (e & k2 & E2 & -> & H). injection E2 as <-. apply num_inv in H. destruct H as (w & f & O & -> & ->).
    exists (Num w f). split; [exact O|]. split; [reflexivity|]. destruct f; reflexivity.
Qed.

Lemma calc_main_inv : forall s t, peg_main calculator_read s (PMatch [t] []) -> exists i e j, ok_sum e /\ s = blanks i ++ show_sum e ++ blanks j /\ t = calculator_tree i e j.
Proof.
  intros s t H. apply peg_main_shape in H. destruct H as (e & kids & E & T & H). injection E as <-. injection T as ->.
  apply inv_and_cons in H. destruct H as (t1 & s1 & t2 & -> & H1 & H). apply blanks_inv in H1. destruct H1 as (i & -> & ->).
  apply inv_and_cons in H. destruct H as (t3 & s2 & t4 & -> & H1 & H). apply inv_one, blanks_inv in H. destruct H as (j & -> & ->). rewrite app_nil_r in *.
  destruct (expr_of_add _ (add_of_fact _ (fact_reads_all (length s1))) _ _ _ (Nat.le_refl _) H1) as (e & O & -> & ->).
  exists i, e, j. auto.
Qed.
End Calc.

Lemma blanks_ascii : forall k, ascii (blanks k).
Proof. induction k as [|k IH]; [constructor|]. constructor; [reflexivity|exact IH]. Qed.
Lemma digits_ascii : forall w, digits w -> ascii w.
Proof. intros w [_ F]. eapply Forall_impl; [|exact F]. exact digit_ascii. Qed.

Lemma show_ascii : (forall p, ok_prim p -> ascii (show_prim p)) /\ (forall q, ok_prod q -> ascii (show_prod q)) /\ (forall e, ok_sum e -> ascii (show_sum e)).
Proof.
  assert (OP : forall c, is_mul c \/ is_add c -> ascii_char c) by (intros c [[->| ->]|[->| ->]]; reflexivity).
  apply calc_ind; cbn [show_prim show_prod show_sum ok_prim ok_prod ok_sum]; unfold ascii.
  - intros w [v|] [W V]; [rewrite !Forall_app; repeat split; [apply digits_ascii; exact W|repeat constructor|apply digits_ascii; exact V]|apply digits_ascii; exact W].
  - intros e IH H. rewrite !Forall_app. repeat split; [repeat constructor|apply IH; exact H|repeat constructor].
  - intros p IH H. apply IH. exact H.
  - intros p IHp i op j q IHq (Hp & Ho & Hq). rewrite !Forall_app. repeat split; [apply IHp; exact Hp|apply blanks_ascii| |apply blanks_ascii|apply IHq; exact Hq].
    constructor; [apply OP; auto|constructor].
  - intros p IH H. apply IH. exact H.
  - intros p IHp i op j q IHq (Hp & Ho & Hq). rewrite !Forall_app. repeat split; [apply IHp; exact Hp|apply blanks_ascii| |apply blanks_ascii|apply IHq; exact Hq].
    constructor; [apply OP; auto|constructor].
Qed.

Lemma calculator_accepts : forall s t, accepts calculator_text s t <-> exists i e j, ok_sum e /\ s = blanks i ++ show_sum e ++ blanks j /\ t = calculator_tree i e j.
Proof.
  intros s t. rewrite (accepts_peg _ _ _ calculator_reads calculator_sane). split.
  - intros [_ H]. apply calc_main_inv. exact H.
  - intros (i & e & j & O & -> & ->). split; [|apply calc_main_ok; exact O]. unfold ascii. rewrite !Forall_app. repeat split; [apply blanks_ascii|apply show_ascii; exact O|apply blanks_ascii].
Qed.

(* ------------------------------------------------------------------------------------------- *)
(** * The tidied tree *)

Definition kept : list str := [main; s_ "add_t"; s_ "fact_t"].
Definition tidies (l l' : list node) : Prop := exists k1 k2, compacted l k1 /\ pruned [s_ "_"] k1 k2 /\ spliced kept k2 l'.

Lemma no_val_nil : ~ starts_with_val [].
Proof. intros (v & r & E). discriminate E. Qed.
Lemma no_val_rule : forall n k l, ~ starts_with_val (Rule n k :: l).
Proof. intros n k l (v & r & E). discriminate E. Qed.

Lemma tidies_nil : tidies [] [].
Proof. exists [], []. repeat constructor. Qed.
Lemma tidies_keep : forall n k k' l l', In n kept -> n <> s_ "_" -> tidies k k' -> tidies l l' -> tidies (Rule n k :: l) (Rule n k' :: l').
Proof.
  intros n k k' l l' I N (k1 & k2 & A1 & A2 & A3) (l1 & l2 & B1 & B2 & B3). exists (Rule n k1 :: l1), (Rule n k2 :: l2).
  split; [apply co_rule; assumption|]. split; [apply pr_keep; [intros [E|[]]; congruence|assumption|assumption]|]. apply sp_keep; assumption.
Qed.
Lemma tidies_open : forall n k k' l l', ~ In n kept -> n <> s_ "_" -> tidies k k' -> tidies l l' -> tidies (Rule n k :: l) (k' ++ l').
Proof.
  intros n k k' l l' I N (k1 & k2 & A1 & A2 & A3) (l1 & l2 & B1 & B2 & B3). exists (Rule n k1 :: l1), (Rule n k2 :: l2).
  split; [apply co_rule; assumption|]. split; [apply pr_keep; [intros [E|[]]; congruence|assumption|assumption]|]. apply sp_open; assumption.
Qed.
Lemma tidies_blank : forall i l l', tidies l l' -> tidies (blanks_tree i :: l) l'.
Proof.
  intros i l l' (l1 & l2 & B1 & B2 & B3). unfold blanks_tree. assert (X : exists k1, compacted (repeat (Val (s_ " ")) i) k1).
  { destruct i as [|i]; [exists []; constructor|]. eexists. replace (repeat (Val (s_ " ")) (S i)) with (map Val (repeat (s_ " ") (S i)) ++ []).
    - apply co_run; [discriminate|apply no_val_nil|constructor].
    - rewrite app_nil_r. generalize (S i) as m. induction m as [|m IH]; [reflexivity|]. cbn [repeat map]. f_equal. exact IH. }
  destruct X as [k1 K]. exists (Rule (s_ "_") k1 :: l1), l2. split; [apply co_rule; assumption|]. split; [apply pr_drop; [left; reflexivity|exact B2]|exact B3].
Qed.
Lemma tidies_run : forall vs l l', vs <> [] -> ~ starts_with_val l -> tidies l l' -> tidies (map Val vs ++ l) (Val (concat vs) :: l').
Proof.
  intros vs l l' V N (l1 & l2 & B1 & B2 & B3). exists (Val (concat vs) :: l1), (Val (concat vs) :: l2).
  split; [apply co_run; assumption|]. split; constructor; assumption.
Qed.
Lemma tidies_val : forall v l l', ~ starts_with_val l -> tidies l l' -> tidies (Val v :: l) (Val v :: l').
Proof. intros v l l' N T. rewrite <- (app_nil_r v) at 2. apply (tidies_run [v] l l'); [discriminate|exact N|exact T]. Qed.

Lemma concat_chars : forall w : str, concat (map (fun c => [c]) w) = w.
Proof. induction w as [|c w IH]; cbn; [reflexivity|rewrite IH; reflexivity]. Qed.
Lemma digits_tree_vals : forall w, digits_tree w = map Val (map (fun c => [c]) w).
Proof. intro w. unfold digits_tree. rewrite map_map. reflexivity. Qed.

Lemma not_kept : forall n, forallb (fun k => negb (str_eqb k n)) kept = true -> ~ In n kept.
Proof.
  intros n H I. rewrite forallb_forall in H. specialize (H n I). rewrite str_eqb_refl in H. discriminate H.
Qed.

Ltac opened := apply not_kept; vm_compute; reflexivity.

Lemma tidies_op : forall n i op j l l', ~ In n kept -> n <> s_ "_" -> tidies l l' -> tidies (op_tree n i op j ++ l) (Val [op] :: l').
Proof.
  intros n i op j l l' K N T. unfold op_tree. cbn [app]. apply tidies_blank. change (Val [op] :: l') with ([Val [op]] ++ l').
  apply tidies_open; [exact K|exact N| |apply tidies_blank; exact T]. apply tidies_val; [apply no_val_nil|apply tidies_nil].
Qed.

Lemma calc_tidies :
  (forall p, ok_prim p -> forall l l', tidies l l' -> tidies (tree_prim p :: l) (tidy_prim p :: l')) /\
  (forall q, ok_prod q -> tidies (tree_prod q) (tidy_prod q)) /\
  (forall e, ok_sum e -> forall l l', tidies l l' -> tidies (tree_sum e ++ l) (tidy_sum e ++ l')).
Proof.
  apply calc_ind.
  - intros w f H l l' T.
    assert (NUM : tidies (match f with None => digits_tree w | Some v => digits_tree w ++ Val (s_ ".") :: digits_tree v end) [Val (show_prim (Num w f))]).
    { destruct H as [[W _] _]. destruct f as [v|]; cbn [show_prim].
      - replace (w ++ s_ "." ++ v) with (concat (map (fun c => [c]) w ++ [s_ "."] ++ map (fun c => [c]) v)) by (rewrite !concat_app, !concat_chars; reflexivity).
        replace (digits_tree w ++ Val (s_ ".") :: digits_tree v) with (map Val (map (fun c => [c]) w ++ [s_ "."] ++ map (fun c => [c]) v) ++ [])
          by (rewrite app_nil_r, !map_app, <- !digits_tree_vals; reflexivity).
        apply tidies_run; [destruct w; [congruence|discriminate]|apply no_val_nil|apply tidies_nil].
      - rewrite digits_tree_vals, <- (app_nil_r (map Val _)). replace w with (concat (map (fun c => [c]) w)) at 2 by apply concat_chars.
        apply tidies_run; [destruct w; [congruence|discriminate]|apply no_val_nil|apply tidies_nil]. }
    assert (X : tree_prim (Num w f) = Rule (s_ "fact_t") [Rule (s_ "portion_expr") [Rule (s_ "item") [Rule (s_ "num") (match f with None => digits_tree w | Some v => digits_tree w ++ Val (s_ ".") :: digits_tree v end)]]]) by (destruct f; reflexivity).
    rewrite X. cbn [tidy_prim]. apply tidies_keep; [vm_compute; tauto|discriminate| |exact T].
    rewrite <- (app_nil_r [Val _]). apply tidies_open; [opened|discriminate| |apply tidies_nil].
    rewrite <- (app_nil_r [Val _]). apply tidies_open; [opened|discriminate| |apply tidies_nil].
    rewrite <- (app_nil_r [Val _]). apply tidies_open; [opened|discriminate|exact NUM|apply tidies_nil].
  - intros e IH H l l' T. cbn [tree_prim tidy_prim ok_prim] in *. apply tidies_keep; [vm_compute; tauto|discriminate| |exact T].
    rewrite <- (app_nil_r (Val (s_ "(") :: tidy_sum e ++ _)). apply tidies_open; [opened|discriminate| |apply tidies_nil].
    apply tidies_val; [apply no_val_rule|]. apply tidies_open; [opened|discriminate| |].
    + rewrite <- (app_nil_r (tree_sum e)), <- (app_nil_r (tidy_sum e)). apply IH; [exact H|apply tidies_nil].
    + apply tidies_val; [apply no_val_nil|apply tidies_nil].
  - intros p IH H. cbn [tree_prod tidy_prod ok_prod] in *. apply IH; [exact H|apply tidies_nil].
  - intros p IHp i op j q IHq (Hp & Ho & Hq). cbn [tree_prod tidy_prod]. apply IHp; [exact Hp|]. apply tidies_op; [opened|discriminate|]. apply IHq. exact Hq.
  - intros q IH H l l' T. cbn [tree_sum tidy_sum ok_sum app] in *. apply tidies_keep; [vm_compute; tauto|discriminate|apply IH; exact H|exact T].
  - intros q IHq i op j e IHe (Hq & Ho & He) l l' T. cbn [tree_sum tidy_sum app]. apply tidies_keep; [vm_compute; tauto|discriminate|apply IHq; exact Hq|].
    rewrite <- app_assoc. apply tidies_op; [opened|discriminate|]. apply IHe; assumption.
Qed.

Lemma tidies_main : forall k k', tidies k k' -> tidy (Rule main k) = Rule main k'.
Proof.
  intros k k' (k1 & k2 & A & B & C). unfold tidy. apply (compact_spec main) in A. rewrite A. apply (prune_spec _ main) in B. rewrite B. apply pass_through_spec. exact C.
Qed.

Lemma calculator_tidy : forall i e j, ok_sum e -> tidy (calculator_tree i e j) = Rule main (tidy_sum e).
Proof.
  intros i e j H. apply tidies_main. apply tidies_blank. rewrite <- (app_nil_r (tidy_sum e)). apply tidies_open; [opened|discriminate| |].
  - rewrite <- (app_nil_r (tree_sum e)), <- (app_nil_r (tidy_sum e)). apply calc_tidies; [exact H|apply tidies_nil].
  - apply tidies_blank, tidies_nil.
Qed.

(* ------------------------------------------------------------------------------------------- *)
(** * A text is written in one way only *)

Lemma digits_tree_inj : forall w w', digits_tree w = digits_tree w' -> w = w'.
Proof. induction w as [|c w IH]; intros [|c' w'] H; try discriminate H; [reflexivity|]. injection H as -> H. f_equal. apply IH. exact H. Qed.

Lemma digits_dot_inj : forall w w' l l', Forall (fun c => is_digit c = true) w -> Forall (fun c => is_digit c = true) w' ->
  digits_tree w ++ Val (s_ ".") :: l = digits_tree w' ++ Val (s_ ".") :: l' -> w = w' /\ l = l'.
Proof.
  induction w as [|c w IH]; intros [|c' w'] l l' F F' H; cbn [digits_tree map app] in H.
  - injection H as ->. auto.
  - injection H as E _. inversion F' as [|? ? D]; subst. discriminate D.
  - injection H as E _. inversion F as [|? ? D]; subst. discriminate D.
  - injection H as -> H. inversion F; inversion F'; subst. destruct (IH w' l l') as [-> ->]; auto.
Qed.

Lemma digits_no_dot : forall w w' l, Forall (fun c => is_digit c = true) w -> digits_tree w = digits_tree w' ++ Val (s_ ".") :: l -> False.
Proof.
  induction w as [|c w IH]; intros [|c' w'] l F H; cbn [digits_tree map app] in H; try discriminate H.
  - injection H as E _. inversion F as [|? ? D]; subst. discriminate D.
  - injection H as _ H. inversion F; subst. apply (IH w' l); assumption.
Qed.

Lemma blanks_tree_inj : forall i j, blanks_tree i = blanks_tree j -> i = j.
Proof.
  intros i j E. unfold blanks_tree in E. injection E as E. apply (f_equal (@length node)) in E. rewrite !repeat_length in E. exact E.
Qed.

Lemma tree_inj :
  (forall p, ok_prim p -> forall p', ok_prim p' -> tree_prim p = tree_prim p' -> p = p') /\
  (forall q, ok_prod q -> forall q', ok_prod q' -> tree_prod q = tree_prod q' -> q = q') /\
  (forall e, ok_sum e -> forall e', ok_sum e' -> tree_sum e = tree_sum e' -> e = e').
Proof.
  apply calc_ind.
  - intros w f [[_ W] V] p' OK' E. destruct p' as [w' f'|e']; [|destruct f; discriminate E]. destruct OK' as [[_ W'] V'].
    destruct f as [v|], f' as [v'|]; cbn [tree_prim] in E; injection E as E.
    + destruct (digits_dot_inj w w' _ _ W W' E) as [-> E']. apply digits_tree_inj in E'. subst. reflexivity.
    + exfalso. symmetry in E. exact (digits_no_dot _ _ _ W' E).
    + exfalso. exact (digits_no_dot _ _ _ W E).
    + apply digits_tree_inj in E. subst. reflexivity.
  - intros e IH OK p' OK' E. destruct p' as [w' f'|e']; [destruct f'; discriminate E|]. cbn [tree_prim] in E. injection E as E. f_equal. apply IH; assumption.
  - intros p IH OK q' OK' E. destruct q' as [p'|p' i' op' j' q'']; cbn [tree_prod] in E; [|discriminate E]. injection E as E. f_equal. apply IH; assumption.
  - intros p IHp i op j q IHq (Hp & _ & Hq) q' OK' E. destruct q' as [p'|p' i' op' j' q'']; cbn [tree_prod op_tree app] in E; [discriminate E|].
    destruct OK' as (Hp' & _ & Hq'). injection E as E1 E2 E3 E4 E5. apply IHp in E1; [|assumption|assumption]. apply IHq in E5; [|assumption|assumption].
    apply (f_equal (@length node)) in E2, E4. rewrite !repeat_length in E2, E4. subst. reflexivity.
  - intros p IH OK q' OK' E. destruct q' as [p'|p' i' op' j' q'']; cbn [tree_sum] in E; [|discriminate E]. injection E as E. f_equal. apply IH; assumption.
  - intros p IHp i op j q IHq (Hp & _ & Hq) q' OK' E. destruct q' as [p'|p' i' op' j' q'']; cbn [tree_sum op_tree app] in E; [discriminate E|].
    destruct OK' as (Hp' & _ & Hq'). injection E as E1 E2 E3 E4 E5. apply IHp in E1; [|assumption|assumption]. apply IHq in E5; [|assumption|assumption].
    apply (f_equal (@length node)) in E2, E4. rewrite !repeat_length in E2, E4. subst. reflexivity.
Qed.

Lemma calculator_unambiguous : forall i e j i' e' j', ok_sum e -> ok_sum e' ->
  blanks i ++ show_sum e ++ blanks j = blanks i' ++ show_sum e' ++ blanks j' -> i = i' /\ e = e' /\ j = j'.
Proof.
  intros i e j i' e' j' O O' E. pose proof (calc_main_ok i e j O) as H. pose proof (calc_main_ok i' e' j' O') as H'. rewrite <- E in H'.
  unfold peg_main in H, H'. pose proof (peg_det _ _ _ _ H _ H') as X. unfold calculator_tree in X. injection X as X1 X2 X3.
  apply (f_equal (@length node)) in X1, X3. rewrite !repeat_length in X1, X3. split; [exact X1|]. split; [apply tree_inj; assumption|exact X3].
Qed.
