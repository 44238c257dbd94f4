(** Proofs about the calculator written with the crate. *)
From Coq Require Import QArith.
From Verif Require Import Base ModelAst ModelParser ModelPeg SpecPeg SpecPos SpecApi SpecWf SpecLang SpecDocs SpecEval.
From Verif Require Import ProofParser ProofApi ProofAst ProofEngine ProofPegMono ProofDocs ProofCalc.
Close Scope Q_scope.

Section Eval.
Variable A : Type.
Variable read : str -> option A.
Variable op : char -> A -> A -> option A.
Notation apply := (apply A op).
Notation more := (more A op).
Notation eval_factor := (eval_factor A read).
Notation eval_term := (eval_term A op).
Notation eval_sum := (eval_sum A read op).
Notation eval_main := (eval_main A read op).
Notation factor := (factor A read op).
Notation term_ := (term_ A read op).
Notation sum_ := (sum_ A read op).

(** ** The value of a formula *)
Fixpoint val_prim (p : prim) : option A :=
  match p with Num w f => read (show_prim (Num w f)) | Par e => val_sum (fun x => x) e end
with val_prod (k : option A -> option A) (q : product) {struct q} : option A :=
  match q with One p => k (val_prim p) | Mul p _ o _ q' => val_prod (apply o (k (val_prim p))) q' end
with val_sum (k : option A -> option A) (e : total) {struct e} : option A :=
  match e with Term q => k (val_prod (fun x => x) q) | Add q _ o _ e' => val_sum (apply o (k (val_prod (fun x => x) q))) e' end.

(** Nesting and length together. *)
Fixpoint sz_prim (p : prim) : nat := match p with Num _ _ => 1 | Par e => S (sz_sum e) end
with sz_prod (q : product) : nat := match q with One p => S (sz_prim p) | Mul p _ _ _ q' => S (sz_prim p + sz_prod q') end
with sz_sum (e : total) : nat := match e with Term q => S (sz_prod q) | Add q _ _ _ e' => S (sz_prod q + sz_sum e') end.

Definition lift (v : option A) (rest : list fnode) : outcome calc_error (A * list fnode) :=
  match v with Some a => Ok (a, rest) | None => Err InArithmetic end.

(** No operator of this level comes next. *)
Definition stops (ops : list char) (rest : list fnode) : Prop :=
  match next_val rest with Some [o] => existsb (N.eqb o) ops = false | _ => True end.

Lemma more_stops : forall n operand ops acc rest, 0 < n -> stops ops rest -> more n operand ops acc rest = Ok (acc, rest).
Proof.
  intros n operand ops acc rest L H. destruct n as [|n]; [lia|]. cbn [SpecEval.more]. unfold stops in H.
  destruct (next_val rest) as [[|o [|o' v]]|]; try reflexivity. rewrite H. reflexivity.
Qed.

Lemma more_goes : forall n operand ops acc o rest, existsb (N.eqb o) ops = true ->
  more (S n) operand ops acc (FVal [o] :: rest) =
  let? (b, rest') := operand rest in let? acc' := arith A (op o acc b) in more n operand ops acc' rest'.
Proof.
  intros n operand ops acc o rest H. cbn [SpecEval.more next_val fpeek_first_node fget_node_val]. rewrite H.
  unfold fconsume_this_value. cbn [fsplit_first_nodes bind fget_node_val]. rewrite str_eqb_refl. reflexivity.
Qed.

Lemma val_prod_none : forall q k, (forall x, k x = None) -> val_prod k q = None.
Proof.
  induction q as [p|p i o j q IH]; intros k H; cbn [val_prod]; [apply H|]. apply IH. intro x. rewrite H. reflexivity.
Qed.
Lemma val_sum_none : forall e k, (forall x, k x = None) -> val_sum k e = None.
Proof.
  induction e as [q|q i o j e IH]; intros k H; cbn [val_sum]; [apply H|]. apply IH. intro x. rewrite H. reflexivity.
Qed.

Lemma apply_none : forall o a, apply o a None = None.
Proof. intros o [a|]; reflexivity. Qed.

Lemma mul_op : forall o, is_mul o -> existsb (N.eqb o) [42; 47]%N = true.
Proof. intros o [->| ->]; reflexivity. Qed.
Lemma add_op : forall o, is_add o -> existsb (N.eqb o) [43; 45]%N = true.
Proof. intros o [->| ->]; reflexivity. Qed.

Lemma digit_not_open : forall w, digits w -> forall v, str_eqb (w ++ v) (s_ "(") = false.
Proof.
  intros w [N D] v. destruct w as [|c w]; [contradiction|]. inversion D as [|? ? Dc]; subst. cbn. destruct (N.eqb c 40) eqn:E; [|reflexivity].
  apply N.eqb_eq in E. subst c. discriminate Dc.
Qed.

Lemma start_rule : forall n rest, fconsume_node_start_rule_name n (FBegin n :: rest) = Ok rest.
Proof. intros. unfold fconsume_node_start_rule_name. cbn [fsplit_first_nodes bind]. rewrite str_eqb_refl. reflexivity. Qed.
Lemma end_rule : forall n rest, fconsume_node_end_rule_name n (FEnd n :: rest) = Ok rest.
Proof. intros. unfold fconsume_node_end_rule_name. cbn [fsplit_first_nodes bind]. rewrite str_eqb_refl. reflexivity. Qed.
Lemma this_value : forall v rest, fconsume_this_value v (FVal v :: rest) = Ok rest.
Proof. intros. unfold fconsume_this_value. cbn [fsplit_first_nodes bind fget_node_val]. rewrite str_eqb_refl. reflexivity. Qed.

Lemma flat_of_app : forall a b, flat_of (a ++ b) = flat_of a ++ flat_of b.
Proof. intros. unfold flat_of. apply flat_map_app. Qed.
Lemma flat_of_val : forall v l, flat_of (Val v :: l) = FVal v :: flat_of l.
Proof. reflexivity. Qed.

Opaque fconsume_node_start_rule_name fconsume_node_end_rule_name fconsume_this_value.

Lemma evals :
  (forall p, ok_prim p -> forall f rest, sz_prim p <= f -> eval_factor (eval_sum f) (flat_of [tidy_prim p] ++ rest) = lift (val_prim p) rest) /\
  (forall q, ok_prod q -> forall f n rest (k : option A -> option A), sz_prod q <= f -> sz_prod q <= n -> stops [42; 47]%N rest -> k None = None ->
     (let? (b, r) := eval_factor (eval_sum f) (flat_of (tidy_prod q) ++ rest) in let? a := arith A (k (Some b)) in more n (eval_factor (eval_sum f)) [42; 47]%N a r)
     = lift (val_prod k q) rest) /\
  (forall e, ok_sum e -> forall f n m rest (k : option A -> option A), sz_sum e <= f -> sz_sum e <= n -> sz_sum e <= m -> stops [43; 45]%N rest -> k None = None ->
     (let? (b, r) := eval_term m (eval_factor (eval_sum f)) (flat_of (tidy_sum e) ++ rest) in
      let? a := arith A (k (Some b)) in more n (eval_term m (eval_factor (eval_sum f))) [43; 45]%N a r)
     = lift (val_sum k e) rest).
Proof.
  assert (T : forall q, (forall f n rest (k : option A -> option A), sz_prod q <= f -> sz_prod q <= n -> stops [42; 47]%N rest -> k None = None ->
     (let? (b, r) := eval_factor (eval_sum f) (flat_of (tidy_prod q) ++ rest) in let? a := arith A (k (Some b)) in more n (eval_factor (eval_sum f)) [42; 47]%N a r)
     = lift (val_prod k q) rest) ->
     forall f m rest, sz_prod q <= f -> sz_prod q <= m ->
     eval_term m (eval_factor (eval_sum f)) (FBegin (s_ "add_t") :: flat_of (tidy_prod q) ++ FEnd (s_ "add_t") :: rest) = lift (val_prod (fun x => x) q) rest).
  { intros q H f m rest L1 L2. specialize (H f m (FEnd (s_ "add_t") :: rest) (fun x => x) L1 L2 I eq_refl). cbn [arith bind] in H.
    unfold SpecEval.eval_term. rewrite start_rule. cbn [in_tree map_err bind].
    destruct (eval_factor (eval_sum f) (flat_of (tidy_prod q) ++ FEnd (s_ "add_t") :: rest)) as [[b r]|er| |]; cbn [bind] in *.
    - rewrite H. destruct (val_prod (fun x => x) q) as [a|]; cbn [lift bind]; [|reflexivity]. rewrite end_rule. reflexivity.
    - destruct (val_prod (fun x => x) q) as [a|]; cbn [lift] in *; congruence.
    - destruct (val_prod (fun x => x) q) as [a|]; cbn [lift] in *; congruence.
    - destruct (val_prod (fun x => x) q) as [a|]; cbn [lift] in *; congruence. }
  apply calc_ind.
  - intros w fr [D Df] f rest L. cbn [tidy_prim]. rewrite flat_of_rule, flat_of_val. cbn [flat_of flat_map app].
    unfold SpecEval.eval_factor. rewrite start_rule. cbn [in_tree map_err bind fconsume_val fsplit_first_nodes].
    assert (E : str_eqb (show_prim (Num w fr)) (s_ "(") = false).
    { destruct fr as [v|]; cbn [show_prim]; [apply digit_not_open; exact D|]. rewrite <- (app_nil_r w). apply digit_not_open. exact D. }
    rewrite E. cbn [val_prim]. destruct (read (show_prim (Num w fr))) as [a|]; cbn [arith bind lift]; [|reflexivity]. rewrite end_rule. reflexivity.
  - intros e IH O f rest L. cbn [sz_prim] in L. destruct f as [|f]; [lia|]. cbn [tidy_prim]. rewrite flat_of_rule, flat_of_val, flat_of_app. cbn [flat_of flat_map app flatten flatten_acc].
    unfold SpecEval.eval_factor. rewrite start_rule. cbn [in_tree map_err bind fconsume_val fsplit_first_nodes].
    change (str_eqb (s_ "(") (s_ "(")) with true. cbn iota. rewrite <- !app_assoc. cbn [app].
    cbn [SpecEval.eval_sum]. cbn [ok_prim] in O.
    specialize (IH O f f f (FVal (s_ ")") :: FEnd (s_ "fact_t") :: rest) (fun x => x) ltac:(lia) ltac:(lia) ltac:(lia) eq_refl eq_refl). cbn [arith bind] in IH.
    rewrite IH. cbn [val_prim]. destruct (val_sum (fun x => x) e) as [a|]; cbn [lift bind]; [|reflexivity]. rewrite this_value. cbn [in_tree map_err bind].
    rewrite end_rule. reflexivity.
  - intros p IH O f n rest k L1 L2 ST K. cbn [sz_prod ok_prod] in *. cbn [tidy_prod]. rewrite (IH O f rest) by lia. cbn [val_prod].
    destruct (val_prim p) as [b|]; cbn [lift bind]; [|rewrite K; reflexivity]. destruct (k (Some b)) as [a|]; cbn [arith bind lift]; [|reflexivity].
    apply more_stops; [lia|exact ST].
  - intros p IHp i o j q IHq (Op & Oo & Oq) f n rest k L1 L2 ST K. cbn [sz_prod] in *. cbn [tidy_prod]. destruct n as [|n]; [lia|].
    change (flat_of (tidy_prim p :: Val [o] :: tidy_prod q)) with (flat_of ([tidy_prim p] ++ Val [o] :: tidy_prod q)).
    rewrite flat_of_app, flat_of_val, <- app_assoc, (IHp Op f _ ltac:(lia)). cbn [val_prod app].
    destruct (val_prim p) as [b|]; cbn [lift bind].
    2: { rewrite K. rewrite val_prod_none by reflexivity. reflexivity. }
    destruct (k (Some b)) as [a|]; cbn [arith bind]; [|rewrite val_prod_none by reflexivity; reflexivity].
    rewrite (more_goes _ _ _ _ _ _ (mul_op o Oo)). apply (IHq Oq f n rest (apply o (Some a))); [lia|lia|exact ST|reflexivity].
  - intros q IH O f n m rest k L1 L2 L3 ST K. cbn [sz_sum ok_sum] in *. cbn [tidy_sum]. rewrite flat_of_rule. cbn [flat_of flat_map]. cbn [app]. rewrite <- app_assoc. cbn [app].
    rewrite (T q (IH O) f m rest) by lia. cbn [val_sum].
    destruct (val_prod (fun x => x) q) as [b|]; cbn [lift bind]; [|rewrite K; reflexivity]. destruct (k (Some b)) as [a|]; cbn [arith bind lift]; [|reflexivity].
    apply more_stops; [lia|exact ST].
  - intros q IHq i o j e IHe (Oq & Oo & Oe) f n m rest k L1 L2 L3 ST K. cbn [sz_sum] in *. cbn [tidy_sum]. destruct n as [|n]; [lia|].
    rewrite flat_of_rule, flat_of_val. cbn [app]. rewrite <- app_assoc. cbn [app].
    rewrite (T q (IHq Oq) f m _) by lia. cbn [val_sum].
    destruct (val_prod (fun x => x) q) as [b|]; cbn [lift bind].
    2: { rewrite K. rewrite val_sum_none by reflexivity. reflexivity. }
    destruct (k (Some b)) as [a|]; cbn [arith bind]; [|rewrite val_sum_none by reflexivity; reflexivity].
    rewrite (more_goes _ _ _ _ _ _ (add_op o Oo)). apply (IHe Oe f n m rest (apply o (Some a))); [lia|lia|lia|exact ST|reflexivity].
Qed.

Lemma eval_main_ok : forall e f, ok_sum e -> sz_sum e < f -> eval_main f (flatten (Rule main (tidy_sum e))) = arith A (val_sum (fun x => x) e).
Proof.
  intros e f O L. rewrite flatten_rule. unfold SpecEval.eval_main. change (s_ "main") with main. rewrite start_rule. cbn [in_tree map_err bind].
  destruct f as [|f]; [lia|]. cbn [SpecEval.eval_sum].
  destruct evals as (_ & _ & H). specialize (H e O f f f [FEnd main] (fun x => x) ltac:(lia) ltac:(lia) ltac:(lia) I eq_refl). cbn [arith bind] in H.
  rewrite H. destruct (val_sum (fun x => x) e) as [a|]; cbn [lift bind arith]; [|reflexivity]. rewrite end_rule. reflexivity.
Qed.

(** ** More fuel changes no answer *)
Notation le2 m m' := (m = Fuel \/ m = m').
Lemma more_mono : forall f f' opd opd' ops acc t, f <= f' -> (forall t, le2 (opd t) (opd' t)) -> le2 (more f opd ops acc t) (more f' opd' ops acc t).
Proof.
  induction f as [|f IH]; intros f' opd opd' ops acc t L H; [left; reflexivity|]. destruct f' as [|f']; [lia|]. cbn [SpecEval.more].
  destruct (next_val t) as [[|o [|o' v]]|]; try (right; reflexivity). destruct (existsb (N.eqb o) ops); [|right; reflexivity].
  destruct (in_tree (fconsume_this_value [o] t)) as [r|e| |]; cbn [bind]; try (right; reflexivity).
  destruct (H r) as [E|E]; rewrite E; [left; reflexivity|]. destruct (opd' r) as [[b r']|e| |]; cbn [bind]; try (right; reflexivity).
  destruct (arith A (op o acc b)) as [a|e| |]; cbn [bind]; try (right; reflexivity). apply IH; [lia|exact H].
Qed.
Lemma factor_mono : forall s s' t, (forall t, le2 (s t) (s' t)) -> le2 (eval_factor s t) (eval_factor s' t).
Proof.
  intros s s' t H. unfold SpecEval.eval_factor. destruct (in_tree (fconsume_node_start_rule_name (s_ "fact_t") t)) as [r|e| |]; cbn [bind]; try (right; reflexivity).
  destruct (in_tree (fconsume_val r)) as [[v r']|e| |]; cbn [bind]; try (right; reflexivity). destruct (str_eqb v (s_ "(")); [|right; reflexivity].
  destruct (H r') as [E|E]; rewrite E; [left; reflexivity|right; reflexivity].
Qed.
Lemma term_mono : forall f f' s s' t, f <= f' -> (forall t, le2 (s t) (s' t)) -> le2 (eval_term f s t) (eval_term f' s' t).
Proof.
  intros f f' s s' t L H. unfold SpecEval.eval_term. destruct (in_tree (fconsume_node_start_rule_name (s_ "add_t") t)) as [r|e| |]; cbn [bind]; try (right; reflexivity).
  destruct (H r) as [E|E]; rewrite E; [left; reflexivity|]. destruct (s' r) as [[a r']|e| |]; cbn [bind]; try (right; reflexivity).
  destruct (more_mono f f' s s' [42; 47]%N a r' L H) as [E2|E2]; rewrite E2; [left; reflexivity|right; reflexivity].
Qed.
Lemma sum_mono : forall f f' t, f <= f' -> le2 (eval_sum f t) (eval_sum f' t).
Proof.
  induction f as [|f IH]; intros f' t L; [left; reflexivity|]. destruct f' as [|f']; [lia|]. cbn [SpecEval.eval_sum].
  assert (T : forall t, le2 (eval_term f (eval_factor (eval_sum f)) t) (eval_term f' (eval_factor (eval_sum f')) t)).
  { intro t0. apply term_mono; [lia|]. intro t1. apply factor_mono. intro t2. apply IH. lia. }
  destruct (T t) as [E|E]; rewrite E; [left; reflexivity|]. destruct (eval_term f' (eval_factor (eval_sum f')) t) as [[a r]|e| |]; cbn [bind]; try (right; reflexivity).
  apply more_mono; [lia|exact T].
Qed.
Lemma main_mono : forall f f' t, f <= f' -> le2 (eval_main f t) (eval_main f' t).
Proof.
  intros f f' t L. unfold SpecEval.eval_main. destruct (in_tree (fconsume_node_start_rule_name (s_ "main") t)) as [r|e| |]; cbn [bind]; try (right; reflexivity).
  destruct (sum_mono f f' r L) as [E|E]; rewrite E; [left; reflexivity|right; reflexivity].
Qed.

(** ** Formulas and texts with a value *)
Scheme factor_min := Minimality for SpecEval.factor Sort Prop
with term_min := Minimality for SpecEval.term_ Sort Prop
with sum_min := Minimality for SpecEval.sum_ Sort Prop.
Combined Scheme denotes_ind from factor_min, term_min, sum_min.

Lemma shows :
  (forall p, ok_prim p -> factor (show_prim p) (val_prim p)) /\
  (forall q, ok_prod q -> term_ (show_prod q) (val_prod (fun x => x) q) /\
     forall s v i o j, term_ s v -> is_mul o -> term_ (s ++ blanks i ++ [o] ++ blanks j ++ show_prod q) (val_prod (apply o v) q)) /\
  (forall e, ok_sum e -> sum_ (show_sum e) (val_sum (fun x => x) e) /\
     forall s v i o j, sum_ s v -> is_add o -> sum_ (s ++ blanks i ++ [o] ++ blanks j ++ show_sum e) (val_sum (apply o v) e)).
Proof.
  apply calc_ind.
  - intros w f [D Df]. cbn [val_prim]. apply F_number. destruct f as [v|]; cbn [show_prim]; constructor; assumption.
  - intros e IH O. cbn [ok_prim] in O. cbn [show_prim val_prim]. apply F_group. apply IH. exact O.
  - intros p IH O. cbn [ok_prod] in O. cbn [show_prod val_prod]. split; [apply T_factor, IH, O|]. intros s v i o j H Ho. apply T_times; [exact H|exact Ho|apply IH, O].
  - intros p IHp i o j q IHq (Op & Oo & Oq). cbn [show_prod val_prod]. destruct (IHq Oq) as [_ C]. split.
    + apply C; [apply T_factor, IHp, Op|exact Oo].
    + intros s v i' o' j' H Ho.
      pose proof (C _ _ i o j (T_times _ _ _ _ _ i' o' j' _ _ H Ho (IHp Op)) Oo) as X. rewrite <- !app_assoc in X. exact X.
  - intros q IH O. cbn [ok_sum] in O. cbn [show_sum val_sum]. split; [apply S_term, IH, O|]. intros s v i o j H Ho. apply S_plus; [exact H|exact Ho|apply IH, O].
  - intros q IHq i o j e IHe (Oq & Oo & Oe). cbn [show_sum val_sum]. destruct (IHe Oe) as [_ C]. split.
    + apply C; [apply S_term, IHq, Oq|exact Oo].
    + intros s v i' o' j' H Ho.
      pose proof (C _ _ i o j (S_plus _ _ _ _ _ i' o' j' _ _ H Ho (proj1 (IHq Oq))) Oo) as X. rewrite <- !app_assoc in X. exact X.
Qed.

(** One factor or term more, at the end. *)
Fixpoint snoc_prod (q : product) (i : nat) (o : char) (j : nat) (p : prim) : product :=
  match q with One p0 => Mul p0 i o j (One p) | Mul p0 i0 o0 j0 q' => Mul p0 i0 o0 j0 (snoc_prod q' i o j p) end.
Fixpoint snoc_sum (e : total) (i : nat) (o : char) (j : nat) (q : product) : total :=
  match e with Term q0 => Add q0 i o j (Term q) | Add q0 i0 o0 j0 e' => Add q0 i0 o0 j0 (snoc_sum e' i o j q) end.

Lemma snoc_prod_laws : forall q i o j p, (ok_prod q -> is_mul o -> ok_prim p -> ok_prod (snoc_prod q i o j p)) /\
  show_prod (snoc_prod q i o j p) = show_prod q ++ blanks i ++ [o] ++ blanks j ++ show_prim p /\
  forall k, val_prod k (snoc_prod q i o j p) = apply o (val_prod k q) (val_prim p).
Proof.
  induction q as [p0|p0 i0 o0 j0 q IH]; intros i o j p.
  - cbn. repeat split; auto.
  - destruct (IH i o j p) as (H1 & H2 & H3). cbn [snoc_prod ok_prod show_prod val_prod]. split; [|split].
    + intros (? & ? & ?) Ho Hp. auto.
    + rewrite H2, <- !app_assoc. reflexivity.
    + intro k. apply H3.
Qed.
Lemma snoc_sum_laws : forall e i o j q, (ok_sum e -> is_add o -> ok_prod q -> ok_sum (snoc_sum e i o j q)) /\
  show_sum (snoc_sum e i o j q) = show_sum e ++ blanks i ++ [o] ++ blanks j ++ show_prod q /\
  forall k, val_sum k (snoc_sum e i o j q) = apply o (val_sum k e) (val_prod (fun x => x) q).
Proof.
  induction e as [q0|q0 i0 o0 j0 e IH]; intros i o j q.
  - cbn. repeat split; auto.
  - destruct (IH i o j q) as (H1 & H2 & H3). cbn [snoc_sum ok_sum show_sum val_sum]. split; [|split].
    + intros (? & ? & ?) Ho Hp. auto.
    + rewrite H2, <- !app_assoc. reflexivity.
    + intro k. apply H3.
Qed.

Lemma denoted :
  (forall s v, factor s v -> exists p, ok_prim p /\ show_prim p = s /\ val_prim p = v) /\
  (forall s v, term_ s v -> exists q, ok_prod q /\ show_prod q = s /\ val_prod (fun x => x) q = v) /\
  (forall s v, sum_ s v -> exists e, ok_sum e /\ show_sum e = s /\ val_sum (fun x => x) e = v).
Proof.
  apply denotes_ind.
  - intros s v [w D|w v' D D']; [exists (Num w None)|exists (Num w (Some v'))]; (split; [split; auto|]; split; reflexivity).
  - intros s v _ (e & O & <- & <-). exists (Par e). split; [exact O|]. split; reflexivity.
  - intros s v _ (p & O & <- & <-). exists (One p). split; [exact O|]. split; reflexivity.
  - intros s v i o j s' v' _ (q & O & <- & <-) Ho _ (p & O' & <- & <-). exists (snoc_prod q i o j p).
    destruct (snoc_prod_laws q i o j p) as (H1 & H2 & H3). split; [auto|]. split; [exact H2|apply H3].
  - intros s v _ (q & O & <- & <-). exists (Term q). split; [exact O|]. split; reflexivity.
  - intros s v i o j s' v' _ (e & O & <- & <-) Ho _ (q & O' & <- & <-). exists (snoc_sum e i o j q).
    destruct (snoc_sum_laws e i o j q) as (H1 & H2 & H3). split; [auto|]. split; [exact H2|apply H3].
Qed.

Lemma denotes_iff : forall s v, denotes A read op s v <-> exists i e j, ok_sum e /\ s = blanks i ++ show_sum e ++ blanks j /\ val_sum (fun x => x) e = v.
Proof.
  intros s v. split.
  - intros (i & t & j & -> & H). apply (proj2 (proj2 denoted)) in H. destruct H as (e & O & <- & V). exists i, e, j. auto.
  - intros (i & e & j & O & -> & <-). exists i, (show_sum e), j. split; [reflexivity|]. apply shows. exact O.
Qed.

Lemma denotes_one : forall s v v', denotes A read op s v -> denotes A read op s v' -> v = v'.
Proof.
  intros s v v' H H'. apply denotes_iff in H, H'. destruct H as (i & e & j & O & E & <-). destruct H' as (i' & e' & j' & O' & E' & <-).
  rewrite E in E'. destruct (calculator_unambiguous _ _ _ _ _ _ O O' E') as (_ & -> & _). reflexivity.
Qed.

(** ** All together *)
Lemma accepted_value : forall s t, accepts calculator_text s t -> exists v, denotes A read op s v /\ exists n, forall f, n < f -> eval_main f (flatten (tidy t)) = arith A v.
Proof.
  intros s t H. apply calculator_accepts in H. destruct H as (i & e & j & O & E & ->). exists (val_sum (fun x => x) e).
  split; [apply denotes_iff; exists i, e, j; auto|]. exists (sz_sum e). intros f L. rewrite (calculator_tidy i e j O). exact (eval_main_ok e f O L).
Qed.

Lemma calculate_inv : forall f s r, calculate A read op f s = r -> r <> Fuel ->
  (exists er, parse f s calculator_read = Err er /\ r = Err (InText er)) \/
  (parse f s calculator_read = Panic /\ r = Panic) \/
  (exists v, denotes A read op s v /\ r = arith A v).
Proof.
  intros f s r H NF. unfold calculate in H. destruct (rules_from_peg_mono f (Nat.max f 300) calculator_text ltac:(lia)) as [M|M].
  { rewrite M in H. cbn in H. congruence. }
  destruct (rules_from_peg_mono 300 (Nat.max f 300) calculator_text ltac:(lia)) as [M'|M']; [rewrite calculator_reads in M'; discriminate|].
  rewrite calculator_reads in M'. assert (RG : rules_from_peg f calculator_text = Ok calculator_read) by congruence. clear M M'.
  rewrite RG in H. cbn [map_err bind] in H.
  destruct (parse f s calculator_read) as [t|er| |] eqn:P; cbn [map_err bind] in H.
  - right. right. destruct (accepted_value s t) as (v & D & n & V).
    { exists f, calculator_read. auto. }
    exists v. split; [exact D|]. destruct (main_mono f (S (f + n)) (flatten (tidy t)) ltac:(lia)) as [E|E]; [congruence|]. rewrite <- H, E. apply V. lia.
  - left. exists er. split; [reflexivity|congruence].
  - right. left. split; [reflexivity|congruence].
  - congruence.
Qed.

Lemma calculate_at : forall s t f, 300 <= f -> parse f s calculator_read = Ok t -> calculate A read op f s = eval_main f (flatten (tidy t)).
Proof.
  intros s t f L P. unfold calculate. destruct (rules_from_peg_mono 300 f calculator_text L) as [M|M]; rewrite calculator_reads in M; [discriminate|].
  rewrite <- M. cbn [map_err bind]. rewrite P. reflexivity.
Qed.

Lemma calculate_denotes : forall s v, denotes A read op s v -> exists n, forall fuel, n < fuel -> calculate A read op fuel s = arith A v.
Proof.
  intros s v D. pose proof D as D0. apply denotes_iff in D. destruct D as (i & e & j & O & E & V).
  assert (H : accepts calculator_text s (calculator_tree i e j)) by (apply calculator_accepts; exists i, e, j; auto).
  destruct (accepted_value s _ H) as (v' & D' & n & EV). rewrite (denotes_one s v v' D0 D').
  destruct H as (f & rs & R & P). exists (f + n + 300). intros fuel L.
  assert (rs = calculator_read). { destruct (rules_from_peg_mono f (f + 300) calculator_text ltac:(lia)) as [M|M]; [congruence|].
    destruct (rules_from_peg_mono 300 (f + 300) calculator_text ltac:(lia)) as [M'|M']; rewrite calculator_reads in M'; congruence. }
  subst rs. rewrite (calculate_at s (calculator_tree i e j)); [apply EV; lia|lia|]. rewrite (parse_mono f fuel); [exact P|lia|congruence].
Qed.

Lemma calculate_rejects : forall s, ascii s -> ((exists fuel er, calculate A read op fuel s = Err (InText er)) <-> forall v, ~ denotes A read op s v).
Proof.
  intros s AS. split.
  - intros (f & er & H) v D. destruct (calculate_denotes s v D) as (n & V).
    destruct (calculate_inv f s _ H ltac:(discriminate)) as [(er' & P & _)|[[_ X]|(v' & _ & X)]]; [|discriminate|destruct v'; discriminate].
    specialize (V (S (f + n + 300)) ltac:(lia)). apply calculate_inv in V; [|destruct v; discriminate].
    assert (P2 : parse (S (f + n + 300)) s calculator_read = Err er') by (rewrite (parse_mono f); [exact P|lia|congruence]).
    destruct (denotes_iff s v) as [DI _]. destruct (DI D) as (i & e & j & O & E & _).
    assert (H2 : accepts calculator_text s (calculator_tree i e j)) by (apply calculator_accepts; exists i, e, j; auto).
    assert (H3 : rejects calculator_text s) by (exists (S (f + n + 300)), calculator_read, er'; split; [|exact P2];
      destruct (rules_from_peg_mono 300 (S (f + n + 300)) calculator_text ltac:(lia)) as [M|M]; rewrite calculator_reads in M; congruence).
    exact (proj1 (rejects_peg _ _ _ calculator_reads s AS calculator_wf) H3 _ H2).
  - intro N. assert (R : rejects calculator_text s).
    { apply (rejects_peg _ _ _ calculator_reads s AS calculator_wf). intros t H. destruct (accepted_value s t H) as (v & D & _). exact (N v D). }
    destruct R as (f & rs & er & R & P). exists f, er. unfold calculate. rewrite R. cbn [map_err bind]. rewrite P. reflexivity.
Qed.

End Eval.
