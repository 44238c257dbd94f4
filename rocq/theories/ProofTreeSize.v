(** The tree of a text has linearly many nodes. *)
From Verif Require Import Base ModelAst ModelParser SpecPeg SpecPos SpecApi SpecWf SpecCost ProofParser ProofEngine ProofApi ProofWf ProofCost.

Definition count (ts : list node) : nat := fold_right (fun x n => node_count x + n) 0 ts.

Lemma count_app : forall a b, count (a ++ b) = count a + count b.
Proof. intros a b. induction a as [|x a IH]; cbn [count fold_right app]; [reflexivity|]. fold (count (a ++ b)). fold (count a). lia. Qed.

Section Size.
Variable rs : rules.
Let G := rules_get rs.
Hypothesis NLR : no_left_recursion G.
Hypothesis NEL : no_empty_loops G.

Let R := length rs.
Let B := fold_right (fun p n => expr_size (snd p) + n) 0 rs.
Let M := R * (B + 1) + (B + 1).
Let E := 2 ^ M.
Let C := E * M.

Notation len st := (length (it_parsing st)).
Notation pe f := (parse_expr rs f).
Notation room v := (left_depth rs 0 v).

Lemma room_max : forall v, room v <= R * (B + 1).
Proof. intro v. unfold left_depth. fold R B. nia. Qed.

(** [n] nodes for [c] chars, in a place with room [v] for an expression of size [s]. *)
Definition fits (c : nat) (v : list str) (s n : nat) : Prop :=
  (c = 0 -> n < 2 ^ (room v + s)) /\ (0 < c -> n + C <= C * c + E * (room v + s)).

Lemma E_pos : 1 <= E. Proof. apply pow2_pos. Qed.

Lemma fits_more : forall c v s s' n, fits c v s n -> s <= s' -> fits c v s' n.
Proof.
  intros c v s s' n [Z P] L. split; intro H; [eapply pow2_below; [exact (Z H)|lia]|]. specialize (P H).
  assert (E * (room v + s) <= E * (room v + s')) by (apply Nat.mul_le_mono_l; lia). lia.
Qed.

Lemma fits_zero : forall c v s, c = 0 -> fits c v s 0.
Proof. intros c v s ->. split; intro H; [apply pow2_pos|lia]. Qed.

(** Small enough to be counted in one unit of slack. *)
Lemma fits_small : forall v s n, s <= B + 1 -> fits 0 v s n -> n < E.
Proof.
  intros v s n L [Z _]. specialize (Z eq_refl). eapply pow2_below; [exact Z|]. pose proof (room_max v). unfold M. lia.
Qed.

Lemma fits_big : forall c v s n, s <= B + 1 -> 0 < c -> fits c v s n -> n <= C * c.
Proof.
  intros c v s n L H [_ P]. specialize (P H). pose proof (room_max v).
  assert (E * (room v + s) <= C) by (unfold C; apply Nat.mul_le_mono_l; unfold M; lia). lia.
Qed.

(** One after the other: the second part starts with fresh room if the first part consumed something. *)
Lemma fits_seq : forall c1 c2 v s1 s2 n1 n2, 1 <= s1 -> s2 <= B + 1 -> s1 <= B + 1 -> (s2 = 0 -> n2 = 0) ->
  fits c1 v s1 n1 -> (c1 = 0 -> fits c2 v s2 n2) -> (0 < c1 -> fits c2 [] s2 n2) -> (s2 = 0 -> c2 = 0) ->
  fits (c1 + c2) v (s1 + s2) (n1 + n2).
Proof.
  intros c1 c2 v s1 s2 n1 n2 L1 L2 L3 Z2 F1 FA FB ZC. pose proof E_pos as EP.
  destruct (Nat.eq_dec s2 0) as [S0|S0].
  - rewrite (Z2 S0), (ZC S0), S0, !Nat.add_0_r. exact F1.
  - destruct (Nat.eq_dec c1 0) as [C1|C1].
    + specialize (FA C1). subst c1. split; intro H.
      * assert (c2 = 0) by lia. subst c2. rewrite Nat.add_assoc. apply pow2_sum; [apply (proj1 F1 eq_refl)|apply (proj1 FA eq_refl)|lia|lia].
      * assert (H2 : 0 < c2) by lia. pose proof (proj2 FA H2) as P. pose proof (fits_small v s1 n1 L3 F1) as Q.
        assert (E * (room v + s2) + E <= E * (room v + (s1 + s2))) by nia. rewrite Nat.add_0_l. lia.
    + assert (H1 : 0 < c1) by lia. specialize (FB H1). split; intro H; [lia|]. pose proof (proj2 F1 H1) as P.
      assert (E * (room v + s1) + E <= E * (room v + (s1 + s2))) by nia.
      destruct (Nat.eq_dec c2 0) as [C2|C2].
      * subst c2. pose proof (fits_small [] s2 n2 L2 FB) as Q. rewrite Nat.add_0_r. lia.
      * assert (H2 : 0 < c2) by lia. pose proof (fits_big c2 [] s2 n2 L2 H2 FB). lia.
Qed.

Definition sized (f : nat) : Prop := forall v e st st' ts, inv st -> visited rs v -> left_in rs v e -> loops_ok rs e ->
  expr_size e <= B + 1 -> pe f st e = Ok (st', ts) -> fits (len st - len st') v (expr_size e) (count ts).

Lemma and_sized : forall f, sized f -> forall es v st acc st' ts, inv st -> visited rs v -> left_in rs v (And es) ->
  Forall (loops_ok rs) es -> sizes es <= B + 1 -> parse_and (pe f) st es acc = Ok (st', ts) ->
  exists us, ts = acc ++ us /\ fits (len st - len st') v (sizes es) (count us) /\ (es = [] -> us = [] /\ st' = st).
Proof.
  intros f SF es. induction es as [|e es IH]; intros v st acc st' ts I V LI LO SZ H; cbn [parse_and] in H.
  - injection H as <- <-. exists []. rewrite app_nil_r. split; [reflexivity|]. split; [|auto]. apply fits_zero. lia.
  - inversion LO as [|? ? LO1 LO2]; subst. cbn [sizes fold_right] in SZ. fold (sizes es) in SZ. pose proof (size_pos e) as SP.
    destruct (pe f st e) as [[s1 t1]|er| |] eqn:P; try discriminate.
    destruct (step_adv rs f st e s1 t1 I P) as [I1 A1]. apply adv_len in A1.
    assert (SE : expr_size e <= B + 1) by lia. assert (SS : sizes es <= B + 1) by lia.
    pose proof (SF v e st s1 t1 I V (left_head rs v e es LI) LO1 SE P) as F1.
    assert (IHx : forall v', visited rs v' -> left_in rs v' (And es) -> exists us, ts = (acc ++ t1) ++ us /\
                    fits (len s1 - len st') v' (sizes es) (count us) /\ (es = [] -> us = [] /\ st' = s1)).
    { intros v' V' LI'. apply (IH v' s1 (acc ++ t1) st' ts I1 V' LI' LO2 SS H). }
    destruct (and_empty rs f (expr_empty rs f) es s1 _ st' ts I1 H) as [LL _].
    assert (U : exists us, ts = (acc ++ t1) ++ us /\ (es = [] -> us = [] /\ st' = s1)).
    { destruct (IHx [] (visited_nil rs) (left_nil rs _)) as (us & X1 & _ & X3). eauto. }
    destruct U as (us & -> & U0). exists (t1 ++ us). rewrite app_assoc. split; [reflexivity|]. split; [|discriminate].
    rewrite count_app. cbn [sizes fold_right]. fold (sizes es). replace (len st - len st') with ((len st - len s1) + (len s1 - len st')) by lia.
    assert (NIL : sizes es = 0 -> es = []) by (intro X; destruct es as [|x es]; [reflexivity|]; pose proof (size_pos x); cbn in X; lia).
    apply fits_seq; try assumption; try lia.
    + intro X. destruct (U0 (NIL X)) as [-> _]. reflexivity.
    + intro X. destruct (IHx v V) as (us' & Y1 & Y2 & _).
      * eapply left_next; [exact LI|]. apply (expr_empty rs f st e s1 t1 I P). lia.
      * apply app_inv_head in Y1. subst us'. exact Y2.
    + intro X. destruct (IHx [] (visited_nil rs) (left_nil rs _)) as (us' & Y1 & Y2 & _). apply app_inv_head in Y1. subst us'. exact Y2.
    + intro X. destruct (U0 (NIL X)) as [_ ->]. lia.
Qed.

Lemma or_sized : forall f, sized f -> forall es v st o st' ts, inv st -> visited rs v -> (forall e, In e es -> left_in rs v e) ->
  Forall (loops_ok rs) es -> sizes es <= B + 1 -> parse_or (pe f) st es o = Ok (st', ts) ->
  fits (len st - len st') v (sizes es) (count ts).
Proof.
  intros f SF es. induction es as [|e es IH]; intros v st o st' ts I V LI LO SZ H; cbn [parse_or] in H.
  - destruct o; [discriminate|]. unfold err_normal, err_status in H. destruct (from_status _ _ _); discriminate.
  - inversion LO as [|? ? LO1 LO2]; subst. cbn [sizes fold_right] in *. fold (sizes es) in *.
    destruct (pe f st e) as [[s1 t1]|er| |] eqn:P; try discriminate.
    + injection H as <- <-. eapply fits_more; [apply (SF v e st s1 t1 I V (LI e (or_introl eq_refl)) LO1 ltac:(lia) P)|lia].
    + destruct (is_critical (e_priority er)); [discriminate|].
      eapply fits_more; [apply (IH v st (deep_err o er) st' ts I V); [intros x X; apply LI; right; exact X|exact LO2|lia|exact H]|lia].
Qed.

Lemma rep_sized : forall f, sized f -> forall e mn mx, loops_ok rs e -> (unlimited mx -> ~ may_be_empty G e) ->
  expr_size e + 1 + match mx with Some m => m | None => 0 end <= B + 1 ->
  forall g v st c acc st' ts, inv st -> visited rs v -> left_in rs v e ->
  match mx with Some (S m) => c < S m | _ => True end ->
  parse_repeat g (pe f) st e mn mx c acc = Ok (st', ts) ->
  exists us, ts = acc ++ us /\ fits (len st - len st') v (expr_size e + 1 + turns mx c) (count us).
Proof.
  intros f SF e mn mx LO NE SZ g. induction g as [|g IH]; intros v st c acc st' ts I V LI GB H; cbn [parse_repeat] in H; [discriminate|].
  pose proof (size_pos e) as SP.
  destruct (pe f st e) as [[s1 t1]|er| |] eqn:P; try discriminate.
  - assert (SE : expr_size e <= B + 1) by lia. pose proof (SF v e st s1 t1 I V LI LO SE P) as F1.
    destruct (touch_max_bound mx c) eqn:TM.
    + injection H as <- <-. exists t1. split; [reflexivity|]. eapply fits_more; [exact F1|lia].
    + destruct (step_adv rs f st e s1 t1 I P) as [I1 A1]. apply adv_len in A1.
      assert (GB' : match mx with Some (S m) => c + 1 < S m | _ => True end).
      { destruct mx as [[|m]|]; try exact Logic.I. cbn in TM. apply Nat.eqb_neq in TM. lia. }
      destruct (rep_empty rs f (expr_empty rs f) e mn mx g s1 (c + 1) _ st' ts I1 H) as [LL _].
      pose proof E_pos as EP.
      destruct (Nat.eq_dec (len s1) (len st)) as [Q|Q].
      * pose proof (expr_empty rs f st e s1 t1 I P Q) as ME.
        destruct mx as [[|m]|]; [destruct (NE (or_intror eq_refl) ME)| |destruct (NE (or_introl eq_refl) ME)].
        destruct (IH v s1 (c + 1) _ st' ts I1 V LI GB' H) as (us & -> & F2). exists (t1 ++ us). rewrite app_assoc. split; [reflexivity|].
        rewrite count_app. rewrite Q in F2. rewrite Q, Nat.sub_diag in F1. unfold turns in *.
        replace (expr_size e + 1 + (S m - c)) with (S (expr_size e + 1 + (S m - (c + 1)))) by lia.
        set (s := expr_size e + 1 + (S m - (c + 1))) in *. split; intro Z.
        -- pose proof (proj1 F1 eq_refl) as X. pose proof (proj1 F2 Z) as Y. rewrite <- plus_n_Sm, pow2_S.
           assert (2 ^ (room v + expr_size e) <= 2 ^ (room v + s)) by (apply pow2_le; unfold s; lia). lia.
        -- pose proof (fits_small v _ _ SE F1) as X. pose proof (proj2 F2 Z) as Y. rewrite <- plus_n_Sm, Nat.mul_succ_r. lia.
      * destruct (IH [] s1 (c + 1) _ st' ts I1 (visited_nil rs) (left_nil rs e) GB' H) as (us & -> & F2). exists (t1 ++ us).
        rewrite app_assoc. split; [reflexivity|]. rewrite count_app. assert (H1 : 0 < len st - len s1) by lia.
        assert (SS : expr_size e + 1 + turns mx (c + 1) <= B + 1) by (unfold turns; destruct mx; lia).
        pose proof (proj2 F1 H1) as X. split; intro Z; [lia|].
        assert (Y : E * (room v + expr_size e) + E <= E * (room v + (expr_size e + 1 + turns mx c))) by nia.
        destruct (Nat.eq_dec (len s1 - len st') 0) as [C2|C2].
        -- rewrite C2 in F2. pose proof (fits_small [] _ _ SS F2). replace (len st - len st') with (len st - len s1) by lia. lia.
        -- assert (H2 : 0 < len s1 - len st') by lia. pose proof (fits_big _ [] _ _ SS H2 F2).
           replace (len st - len st') with ((len st - len s1) + (len s1 - len st')) by lia. lia.
  - destruct (big_min_bound mn c); [|discriminate]. destruct (is_critical (e_priority er)); [discriminate|].
    injection H as <- <-. exists []. rewrite app_nil_r. split; [reflexivity|]. apply fits_zero. cbn. lia.
Qed.

Lemma one_fits : forall c v n, n <= 1 -> fits c v 1 n.
Proof.
  intros c v n L. pose proof E_pos as EP. split; intro H.
  - apply (pow2_below _ 1); [cbn; lia|lia].
  - assert (C <= C * c) by nia. assert (E <= E * (room v + 1)) by nia. lia.
Qed.

Lemma fits_wrap : forall c v s s' n, fits c v s n -> s + 1 <= s' -> fits c v s' (S n).
Proof.
  intros c v s s' n [Z P] L. pose proof E_pos as EP. split; intro H.
  - specialize (Z H). eapply pow2_below with (b := S (room v + s)); [rewrite pow2_S; lia|lia].
  - specialize (P H). assert (E * (room v + s) + E <= E * (room v + s')) by nia. lia.
Qed.

Lemma atom_node : forall st a st' nd, parse_atom st a = Ok (st', nd) -> node_count nd = 1.
Proof.
  intros st a st' nd H. destruct a as [l|cs rg|m| |]; cbn [parse_atom] in H.
  - unfold parse_literal in H. destruct (parse_literal_loop l st l); cbn [bind] in H; try discriminate. injection H as _ <-. reflexivity.
  - unfold parse_match in H. destruct (get_char st) as [[s1 c]|s1].
    + destruct (match_char cs rg c); [injection H as _ <-; reflexivity|]. unfold err_normal, err_status in H. destruct (from_status _ _ _); discriminate.
    + unfold err_normal, err_status in H. destruct (from_status _ _ _); discriminate.
  - unfold parse_error, err_status in H. destruct (from_status _ _ _); discriminate.
  - unfold parse_dot in H. destruct (get_char st) as [[s1 c]|s1]; [injection H as _ <-; reflexivity|].
    unfold err_normal, err_status in H. destruct (from_status _ _ _); discriminate.
  - unfold parse_eof in H. destruct (get_char st) as [[s1 c]|s1]; [|injection H as _ <-; reflexivity].
    unfold err_normal, err_status in H. destruct (from_status _ _ _); discriminate.
Qed.

Lemma expr_sized : forall f, sized f.
Proof.
  induction f as [|f IH]; intros v e st st' ts I V LI LO SZ H; [discriminate|].
  destruct e as [a|es|es|e1|e1 mn mx|n]; cbn [parse_expr] in H; cbn [expr_size] in *.
  - destruct (parse_atom st a) as [[s1 nd]|er| |] eqn:P; cbn [bind] in H; try discriminate. injection H as <- <-.
    apply one_fits. cbn [count fold_right]. rewrite (atom_node st a s1 nd P). lia.
  - fold (sizes es) in *. destruct (and_sized f IH es v st [] st' ts I V LI (loops_and rs es LO) ltac:(lia) H) as (us & -> & F & _).
    eapply fits_more; [exact F|lia].
  - fold (sizes es) in *.
    eapply fits_more; [apply (or_sized f IH es v st None st' ts I V (fun x X => left_or rs v es x LI X) (loops_or rs es LO) ltac:(lia) H)|lia].
  - unfold parse_not in H. destruct (pe f st e1) as [[s1 t1]|er| |]; try discriminate.
    + unfold err_normal, err_status in H. destruct (from_status _ _ _); discriminate.
    + injection H as <- <-. apply fits_zero. lia.
  - assert (SZ' : expr_size e1 + 1 + match mx with Some m => m | None => 0 end <= B + 1) by (destruct mx; lia).
    destruct (rep_sized f IH e1 mn mx (loops_rep rs e1 mn mx LO) (fun U => LO e1 mn mx (oc_here _) U) SZ' f v st 0 [] st' ts I V
      (left_rep rs v e1 mn mx LI)) as (us & -> & F); [destruct mx as [[|m]|]; try exact Logic.I; lia|exact H|].
    eapply fits_more; [exact F|]. unfold turns. destruct mx; lia.
  - unfold parse_rule_name in H.
    set (st1 := if trace_rules st then push_rule st (s_ "r:" ++ n) else st) in *.
    assert (I1 : inv st1) by (subst st1; destruct (trace_rules st); exact I).
    assert (E1 : it_parsing st1 = it_parsing st) by (subst st1; destruct (trace_rules st); reflexivity).
    destruct (rules_get rs n) as [e|] eqn:EQ.
    + destruct (pe f st1 e) as [[s1 t1]|er| |] eqn:P; cbn [bind] in H; try discriminate. injection H as <- <-.
      destruct (enter rs NLR v n e V LI EQ) as (V' & LI' & LR). pose proof (body_size rs n e EQ) as BS. fold B in BS.
      pose proof (IH (n :: v) e st1 s1 t1 I1 V' LI' (loops_body rs NEL n e EQ) ltac:(lia) P) as F. rewrite E1 in F.
      cbn [count fold_right node_count]. fold (count t1). rewrite Nat.add_0_r.
      pose proof (left_enter rs 0 v n LR) as LE. fold B in LE. destruct F as [FZ FP]. pose proof E_pos as EP. split; intro X.
      * specialize (FZ X). eapply pow2_below with (b := S (room (n :: v) + expr_size e)); [rewrite pow2_S; lia|lia].
      * specialize (FP X). assert (E * (room (n :: v) + expr_size e) + E <= E * (room v + 1)) by nia. lia.
    + unfold err_status in H. destruct (from_status _ _ _); discriminate.
Qed.

Lemma tree_size : forall fuel s d ast, parse_with_debug fuel s rs d = Ok ast -> node_count ast <= (C + E) * (length s + 1).
Proof.
  intros fuel s d ast H. rewrite parse_unfold in H.
  destruct (expression_parse rs fuel (status_init_debug s d)) as [[st nd]|er| |] eqn:P; cbn [bind] in H; try discriminate.
  assert (nd = ast). { destruct (pn (st_pos st) =? byte_len s); [congruence|]. destruct (potential_error st); [discriminate|].
    unfold err_normal, err_status in H. destruct (from_status _ _ _); discriminate. } subst nd.
  assert (X : pe (S fuel) (status_init_debug s d) (RuleName main) = Ok (st, [ast])) by (rewrite expression_parse_expr, P; reflexivity).
  assert (F : fits (len (status_init_debug s d) - len st) [] 1 (count [ast])).
  { apply (expr_sized (S fuel) [] (RuleName main) _ st [ast]); try assumption.
    - apply inv_init.
    - apply visited_nil.
    - apply left_nil.
    - intros x mn mx O. inversion O.
    - cbn [expr_size]. lia. }
  cbn [count fold_right] in F. rewrite Nat.add_0_r in F. cbn [status_init_debug it_parsing] in F.
  assert (L1 : 1 <= B + 1) by lia. destruct (Nat.eq_dec (length s - len st) 0) as [Z|Z].
  - rewrite Z in F. pose proof (fits_small [] 1 _ L1 F). nia.
  - assert (Z' : 0 < length s - len st) by lia. pose proof (fits_big _ [] 1 _ L1 Z' F) as Y. assert (length s - len st <= length s) by lia. nia.
Qed.

(** * Traces *)

Notation wl st := (length (walking_rules st)).

(** How many rules a parse of an expression of size [s] can enter, on the path to an error, where [L] chars remain. *)
Definition steps (L : nat) (v : list str) (s : nat) : nat := C * L + E * (room v + s).

Lemma steps_more : forall L L' v s s', L <= L' -> s <= s' -> steps L v s <= steps L' v s'.
Proof. intros L L' v s s' H K. unfold steps. apply Nat.add_le_mono; apply Nat.mul_le_mono_l; lia. Qed.

Lemma steps_still : forall L v s1 s2 n, 1 <= s1 -> s1 <= B + 1 -> fits 0 v s1 n -> n + steps L v s2 <= steps L v (s1 + s2).
Proof. intros L v s1 s2 n H1 H2 F. pose proof (fits_small v s1 n H2 F). unfold steps. nia. Qed.

Lemma steps_moved : forall L c v s1 s2 n, s2 <= B + 1 -> 0 < c -> c <= L -> fits c v s1 n -> n + steps (L - c) [] s2 <= steps L v s1.
Proof.
  intros L c v s1 s2 n H2 Hc HL [_ P]. specialize (P Hc). unfold steps. pose proof (room_max []).
  assert (E * (room [] + s2) <= C) by (unfold C; apply Nat.mul_le_mono_l; unfold M; lia).
  assert (C * (L - c) + C * c = C * L) by (rewrite <- Nat.mul_add_distr_l; f_equal; lia). lia.
Qed.

Lemma err_status_walks : forall A st d p er, @err_status A st d p = Err er -> e_parsing_rules er = walking_rules st.
Proof.
  intros A st d p er H. unfold err_status, from_status in H. destruct (slice _ _ _); [|discriminate]. injection H as <-. reflexivity.
Qed.

Lemma get_char_walks : forall st, match get_char st with
  | inl (st', _) => walking_rules st' = walking_rules st /\ potential_error st' = potential_error st
  | inr st' => st' = st end.
Proof. intro st. unfold get_char. destruct (it_parsing st); [reflexivity|]. split; reflexivity. Qed.

Lemma literal_walks : forall l chs st, match parse_literal_loop l st chs with
  | Ok st' => walking_rules st' = walking_rules st /\ potential_error st' = potential_error st
  | Err er => e_parsing_rules er = walking_rules st
  | _ => True end.
Proof.
  intros l chs. induction chs as [|c chs IH]; intro st; cbn [parse_literal_loop]; [auto|]. unfold parse_char.
  pose proof (get_char_walks st) as W. destruct (get_char st) as [[s1 d]|s1].
  - destruct W as [W1 W2]. destruct (N.eqb c d).
    + specialize (IH s1). destruct (parse_literal_loop l s1 chs); [destruct IH; split; congruence|congruence|exact IH|exact IH].
    + destruct (err_normal _ _) eqn:X; unfold err_normal in X; [unfold err_status in X; destruct (from_status _ _ _); discriminate| |exact I|exact I].
      apply err_status_walks in X. congruence.
  - subst s1. destruct (err_normal _ _) eqn:X; unfold err_normal in X; [unfold err_status in X; destruct (from_status _ _ _); discriminate| |exact I|exact I].
    apply err_status_walks in X. congruence.
Qed.

Lemma atom_walks : forall st a, match parse_atom st a with
  | Ok (st', nd) => walking_rules st' = walking_rules st /\ potential_error st' = potential_error st
  | Err er => e_parsing_rules er = walking_rules st
  | _ => True end.
Proof.
  intros st a.
  assert (ERR : forall st' d p, walking_rules st' = walking_rules st -> match @err_status (status * node) st' d p with
    | Ok (st', nd) => walking_rules st' = walking_rules st /\ potential_error st' = potential_error st
    | Err er => e_parsing_rules er = walking_rules st
    | _ => True end).
  { intros st' d p W. destruct (@err_status (status * node) st' d p) eqn:X; [unfold err_status in X; destruct (from_status _ _ _); discriminate| |exact I|exact I].
    apply err_status_walks in X. congruence. }
  pose proof (get_char_walks st) as W. destruct a as [l|cs rg|m| |]; cbn [parse_atom].
  - unfold parse_literal. pose proof (literal_walks l l st) as X. destruct (parse_literal_loop l st l); cbn [bind]; exact X.
  - unfold parse_match. destruct (get_char st) as [[s1 c]|s1].
    + destruct W as [W1 W2]. destruct (match_char cs rg c); [split; assumption|]. apply ERR, W1.
    + subst s1. apply ERR. reflexivity.
  - apply ERR. reflexivity.
  - unfold parse_dot. destruct (get_char st) as [[s1 c]|s1]; [exact W|]. subst s1. apply ERR. reflexivity.
  - unfold parse_eof. destruct (get_char st) as [[s1 c]|s1]; [apply ERR, (proj1 W)|]. subst s1. split; reflexivity.
Qed.

(** A match enters the rules that its trees show. *)
Definition walks (f : nat) : Prop := forall e st st' ts, pe f st e = Ok (st', ts) -> wl st' <= wl st + count ts.

Lemma expr_walks : forall f, walks f.
Proof.
  induction f as [|f IH]; intros e st st' ts H; [discriminate|].
  destruct e as [a|es|es|e1|e1 mn mx|n]; cbn [parse_expr] in H.
  - pose proof (atom_walks st a) as W. destruct (parse_atom st a) as [[s1 nd]|er| |]; cbn [bind] in H; try discriminate. injection H as <- <-.
    rewrite (proj1 W). lia.
  - assert (X : forall es st acc st' ts, parse_and (pe f) st es acc = Ok (st', ts) -> wl st' + count acc <= wl st + count ts).
    { clear - IH. induction es as [|e es IHes]; intros st acc st' ts H; cbn [parse_and] in H; [injection H as <- <-; lia|].
      destruct (pe f st e) as [[s1 t1]|er| |] eqn:P; try discriminate. apply IH in P. apply IHes in H. rewrite count_app in H. lia. }
    apply X in H. cbn [count fold_right] in H. lia.
  - assert (X : forall es o, parse_or (pe f) st es o = Ok (st', ts) -> wl st' <= wl st + count ts).
    { clear H. induction es0 as [|e es0 IHes]; intros o H; cbn [parse_or] in H.
      - destruct o; [discriminate|]. unfold err_normal, err_status in H. destruct (from_status _ _ _); discriminate.
      - destruct (pe f st e) as [[s1 t1]|er| |] eqn:P; try discriminate; [injection H as <- <-; apply IH in P; exact P|].
        destruct (is_critical (e_priority er)); [discriminate|]. apply IHes in H. exact H. }
    apply X in H. exact H.
  - unfold parse_not in H. destruct (pe f st e1) as [[s1 t1]|er| |]; try discriminate.
    + unfold err_normal, err_status in H. destruct (from_status _ _ _); discriminate.
    + injection H as <- <-. lia.
  - assert (X : forall g st c acc st' ts, parse_repeat g (pe f) st e1 mn mx c acc = Ok (st', ts) -> wl st' + count acc <= wl st + count ts).
    { clear - IH. induction g as [|g IHg]; intros st c acc st' ts H; cbn [parse_repeat] in H; [discriminate|].
      destruct (pe f st e1) as [[s1 t1]|er| |] eqn:P; try discriminate.
      - apply IH in P. destruct (touch_max_bound mx c).
        + injection H as <- <-. rewrite count_app. lia.
        + apply IHg in H. rewrite count_app in H. lia.
      - destruct (big_min_bound mn c); [|discriminate]. destruct (is_critical (e_priority er)); [discriminate|]. injection H as <- <-. cbn. lia. }
    apply X in H. cbn [count fold_right] in H. lia.
  - unfold parse_rule_name in H. set (st1 := if trace_rules st then push_rule st (s_ "r:" ++ n) else st) in *.
    assert (W1 : wl st1 <= wl st + 1) by (subst st1; destruct (trace_rules st); cbn [push_rule walking_rules]; rewrite ?app_length; cbn [length]; lia).
    destruct (rules_get rs n) as [e|]; [|unfold err_status in H; destruct (from_status _ _ _); discriminate].
    destruct (pe f st1 e) as [[s1 t1]|er| |] eqn:P; cbn [bind] in H; try discriminate. injection H as <- <-. apply IH in P.
    cbn [count fold_right node_count]. fold (count t1). lia.
Qed.

(** The bound holds for errors, and for the errors kept for later. *)
Definition told_within (st : status) (k : nat) (o : result_expr) : Prop :=
  match o with
  | Err er => length (e_parsing_rules er) <= wl st + k
  | Ok (st', _) => forall q, potential_error st' = Some q -> potential_error st = Some q \/ length (e_parsing_rules q) <= wl st + k
  | _ => True
  end.

Lemma told_more : forall st k k' o, k <= k' -> told_within st k o -> told_within st k' o.
Proof.
  intros st k k' [[st' ts]|er| |] L H; cbn [told_within] in *; [|lia|exact I|exact I]. intros q Q. destruct (H q Q) as [X|X]; [left; exact X|right; lia].
Qed.

(** After a match that enters [n] rules. *)
Lemma told_then : forall st s1 k1 k2 k n ts o, told_within st k1 (Ok (s1, ts)) -> told_within s1 k2 o -> wl s1 <= wl st + n -> k1 <= k -> n + k2 <= k ->
  told_within st k o.
Proof.
  intros st s1 k1 k2 k n ts o H1 H2 W K1 K2. destruct o as [[st' us]|er| |]; cbn [told_within] in *; [|lia|exact I|exact I].
  intros q Q. destruct (H2 q Q) as [X|X]; [|right; lia]. destruct (H1 q X) as [Y|Y]; [left; exact Y|right; lia].
Qed.

Definition traced (f : nat) : Prop := forall v e st, inv st -> visited rs v -> left_in rs v e -> loops_ok rs e -> expr_size e <= B + 1 ->
  told_within st (steps (len st) v (expr_size e)) (pe f st e).

Lemma and_traced : forall f, traced f -> forall es v st acc, inv st -> visited rs v -> left_in rs v (And es) ->
  Forall (loops_ok rs) es -> sizes es <= B + 1 -> told_within st (steps (len st) v (sizes es)) (parse_and (pe f) st es acc).
Proof.
  intros f TF es. induction es as [|e es IH]; intros v st acc I V LI LO SZ; cbn [parse_and].
  - cbn [told_within]. auto.
  - inversion LO as [|? ? LO1 LO2]; subst. cbn [sizes fold_right] in *. fold (sizes es) in *. pose proof (size_pos e) as SP.
    assert (SE : expr_size e <= B + 1) by lia. assert (SS : sizes es <= B + 1) by lia.
    pose proof (TF v e st I V (left_head rs v e es LI) LO1 SE) as T1.
    destruct (pe f st e) as [[s1 t1]|er| |] eqn:P; [|eapply told_more; [|exact T1]; apply steps_more; lia|exact Logic.I|exact Logic.I].
    destruct (step_adv rs f st e s1 t1 I P) as [I1 A1]. apply adv_len in A1.
    pose proof (expr_sized f v e st s1 t1 I V (left_head rs v e es LI) LO1 SE P) as F1.
    pose proof (expr_walks f e st s1 t1 P) as W1.
    destruct (Nat.eq_dec (len s1) (len st)) as [Q|Q].
    + assert (LI' : left_in rs v (And es)) by (eapply left_next; [exact LI|]; apply (expr_empty rs f st e s1 t1 I P); lia).
      eapply told_then; [exact T1|apply (IH v s1 (acc ++ t1) I1 V LI' LO2 SS)|exact W1|apply steps_more; lia|].
      rewrite Q in *. rewrite Nat.sub_diag in F1. apply steps_still; [lia|lia|exact F1].
    + eapply told_then; [exact T1|apply (IH [] s1 (acc ++ t1) I1 (visited_nil rs) (left_nil rs _) LO2 SS)|exact W1|apply steps_more; lia|].
      replace (len s1) with (len st - (len st - len s1)) by lia.
      eapply Nat.le_trans; [apply (steps_moved (len st) (len st - len s1) v (expr_size e) (sizes es)); [lia|lia|lia|exact F1]|apply steps_more; lia].
Qed.

Lemma or_traced : forall f, traced f -> forall es v st o, inv st -> visited rs v -> (forall e, In e es -> left_in rs v e) ->
  Forall (loops_ok rs) es -> sizes es <= B + 1 -> forall k, sizes es <= k -> (forall q, o = Some q -> length (e_parsing_rules q) <= wl st + steps (len st) v k) ->
  told_within st (steps (len st) v k) (parse_or (pe f) st es o).
Proof.
  intros f TF es. induction es as [|e es IH]; intros v st o I V LI LO SZ k LK HO; cbn [parse_or].
  - destruct o as [q|]; [exact (HO q eq_refl)|]. destruct (err_normal _ _) as [[st' us]|er| |] eqn:X; try exact Logic.I.
    + unfold err_normal, err_status in X. destruct (from_status _ _ _); discriminate.
    + apply err_status_walks in X. cbn [told_within]. rewrite X. lia.
  - inversion LO as [|? ? LO1 LO2]; subst. cbn [sizes fold_right] in *. fold (sizes es) in *.
    pose proof (TF v e st I V (LI e (or_introl eq_refl)) LO1 ltac:(lia)) as T1.
    assert (T1' : told_within st (steps (len st) v k) (pe f st e)) by (eapply told_more; [|exact T1]; apply steps_more; lia).
    destruct (pe f st e) as [[s1 t1]|er| |]; try exact T1'. destruct (is_critical (e_priority er)); [exact T1'|].
    apply IH; try assumption; [intros x X; apply LI; right; exact X|lia|lia|].
    intros q Q. unfold deep_err in Q. cbn [told_within] in T1'. destruct o as [q1|]; [|injection Q as <-; exact T1'].
    destruct (prio_gt _ _); [injection Q as <-; apply HO; reflexivity|]. destruct (_ <? _); injection Q as <-; [apply HO; reflexivity|exact T1'].
Qed.

Lemma rep_traced : forall f, traced f -> forall e mn mx, loops_ok rs e -> (unlimited mx -> ~ may_be_empty G e) ->
  expr_size e + 1 + match mx with Some m => m | None => 0 end <= B + 1 ->
  forall g v st c acc, inv st -> visited rs v -> left_in rs v e ->
  match mx with Some (S m) => c < S m | _ => True end ->
  told_within st (steps (len st) v (expr_size e + 1 + turns mx c)) (parse_repeat g (pe f) st e mn mx c acc).
Proof.
  intros f TF e mn mx LO NE SZ g. induction g as [|g IH]; intros v st c acc I V LI GB; cbn [parse_repeat]; [exact Logic.I|].
  pose proof (size_pos e) as SP. assert (SE : expr_size e <= B + 1) by lia.
  pose proof (TF v e st I V LI LO SE) as T1.
  assert (T1' : told_within st (steps (len st) v (expr_size e + 1 + turns mx c)) (pe f st e)) by (eapply told_more; [|exact T1]; apply steps_more; lia).
  destruct (pe f st e) as [[s1 t1]|er| |] eqn:P; try exact Logic.I.
  - destruct (touch_max_bound mx c) eqn:TM; [exact T1'|].
    destruct (step_adv rs f st e s1 t1 I P) as [I1 A1]. apply adv_len in A1.
    pose proof (expr_sized f v e st s1 t1 I V LI LO SE P) as F1. pose proof (expr_walks f e st s1 t1 P) as W1.
    assert (GB' : match mx with Some (S m) => c + 1 < S m | _ => True end).
    { destruct mx as [[|m]|]; try exact Logic.I. cbn in TM. apply Nat.eqb_neq in TM. lia. }
    destruct (Nat.eq_dec (len s1) (len st)) as [Q|Q].
    + pose proof (expr_empty rs f st e s1 t1 I P Q) as ME.
      destruct mx as [[|m]|]; [destruct (NE (or_intror eq_refl) ME)| |destruct (NE (or_introl eq_refl) ME)].
      eapply told_then; [exact T1|apply (IH v s1 (c + 1) (acc ++ t1) I1 V LI GB')|exact W1|apply steps_more; lia|].
      rewrite Q in *. rewrite Nat.sub_diag in F1. pose proof (fits_small v _ _ SE F1). unfold turns, steps.
      replace (expr_size e + 1 + (S m - c)) with (S (expr_size e + 1 + (S m - (c + 1)))) by lia. set (k := expr_size e + 1 + (S m - (c + 1))).
      rewrite (Nat.add_succ_r (room v) k), (Nat.mul_succ_r E (room v + k)). lia.
    + eapply told_then; [exact T1|apply (IH [] s1 (c + 1) (acc ++ t1) I1 (visited_nil rs) (left_nil rs e) GB')|exact W1|apply steps_more; lia|].
      replace (len s1) with (len st - (len st - len s1)) by lia.
      eapply Nat.le_trans; [apply (steps_moved (len st) (len st - len s1) v (expr_size e) (expr_size e + 1 + turns mx (c + 1))); [unfold turns; destruct mx; lia|lia|lia|exact F1]|apply steps_more; lia].
  - cbn [told_within] in T1'. destruct (big_min_bound mn c); [|exact T1']. destruct (is_critical (e_priority er)); [exact T1'|].
    cbn [told_within set_potential_error potential_error]. intros q Q. injection Q as <-. right. exact T1'.
Qed.

Lemma expr_traced : forall f, traced f.
Proof.
  induction f as [|f IH]; intros v e st I V LI LO SZ; [exact Logic.I|].
  destruct e as [a|es|es|e1|e1 mn mx|n]; cbn [parse_expr]; cbn [expr_size] in *.
  - pose proof (atom_walks st a) as W. destruct (parse_atom st a) as [[s1 nd]|er| |]; cbn [bind told_within]; try exact Logic.I.
    + intros q Q. left. rewrite <- Q. symmetry. apply W.
    + rewrite W. lia.
  - fold (sizes es) in *. eapply told_more; [|apply (and_traced f IH es v st [] I V LI (loops_and rs es LO)); lia]. apply steps_more; lia.
  - fold (sizes es) in *. apply (or_traced f IH es v st None I V (fun x X => left_or rs v es x LI X) (loops_or rs es LO)); [lia|lia|discriminate].
  - unfold parse_not. destruct (pe f st e1) as [[s1 t1]|er| |]; try exact Logic.I; [|cbn [told_within]; auto].
    destruct (err_normal _ _) as [[st' us]|er| |] eqn:X; try exact Logic.I.
    + unfold err_normal, err_status in X. destruct (from_status _ _ _); discriminate.
    + apply err_status_walks in X. cbn [told_within]. rewrite X. lia.
  - assert (SZ' : expr_size e1 + 1 + match mx with Some m => m | None => 0 end <= B + 1) by (destruct mx; lia).
    eapply told_more; [|apply (rep_traced f IH e1 mn mx (loops_rep rs e1 mn mx LO) (fun U => LO e1 mn mx (oc_here _) U) SZ' f v st 0 [] I V
      (left_rep rs v e1 mn mx LI)); destruct mx as [[|m]|]; try exact Logic.I; lia].
    apply steps_more; [lia|]. unfold turns. destruct mx; lia.
  - unfold parse_rule_name.
    set (st1 := if trace_rules st then push_rule st (s_ "r:" ++ n) else st) in *.
    assert (I1 : inv st1) by (subst st1; destruct (trace_rules st); exact I).
    assert (E1 : it_parsing st1 = it_parsing st) by (subst st1; destruct (trace_rules st); reflexivity).
    assert (P1 : potential_error st1 = potential_error st) by (subst st1; destruct (trace_rules st); reflexivity).
    assert (W1 : wl st1 <= wl st + 1) by (subst st1; destruct (trace_rules st); cbn [push_rule walking_rules]; rewrite ?app_length; cbn [length]; lia).
    pose proof E_pos as EP. destruct (rules_get rs n) as [e|] eqn:EQ.
    + destruct (enter rs NLR v n e V LI EQ) as (V' & LI' & LR). pose proof (body_size rs n e EQ) as BS. fold B in BS.
      pose proof (IH (n :: v) e st1 I1 V' LI' (loops_body rs NEL n e EQ) ltac:(lia)) as T. rewrite E1 in T.
      pose proof (left_enter rs 0 v n LR) as LE. fold B in LE.
      assert (K : 1 + steps (len st) (n :: v) (expr_size e) <= steps (len st) v 1) by (unfold steps; nia).
      destruct (pe f st1 e) as [[s1 t1]|er| |]; cbn [bind told_within] in *; try exact Logic.I; [|lia].
      intros q Q. destruct (T q Q) as [X|X]; [left; congruence|right; lia].
    + destruct (err_status _ _ _) as [[st' us]|er| |] eqn:X; cbn [bind told_within]; try exact Logic.I.
      * unfold err_status in X. destruct (from_status _ _ _); discriminate.
      * apply err_status_walks in X. rewrite X. unfold steps. nia.
Qed.

Lemma trace_size : forall fuel s d er, parse_with_debug fuel s rs d = Err er -> length (e_parsing_rules er) <= (C + E * (room [] + 1)) * (length s + 1).
Proof.
  intros fuel s d er H. rewrite parse_unfold in H.
  assert (LO : loops_ok rs (RuleName main)) by (intros x mn mx O; inversion O).
  pose proof (expr_traced (S fuel) [] (RuleName main) (status_init_debug s d) (inv_init _ _) (visited_nil rs) (left_nil rs _) LO ltac:(cbn [expr_size]; lia)) as T.
  pose proof (fun st' ts => expr_walks (S fuel) (RuleName main) (status_init_debug s d) st' ts) as W.
  pose proof (fun st' ts P => expr_sized (S fuel) [] (RuleName main) (status_init_debug s d) st' ts (inv_init _ _) (visited_nil rs) (left_nil rs _) LO ltac:(cbn [expr_size]; lia) P) as Z.
  rewrite expression_parse_expr in T, W, Z. cbn [expr_size status_init_debug it_parsing] in *.
  assert (K : steps (length s) [] 1 <= (C + E * (room [] + 1)) * (length s + 1)) by (unfold steps; nia).
  destruct (expression_parse rs fuel (status_init_debug s d)) as [[st nd]|er'| |]; cbn [bind told_within] in *; try discriminate.
  - destruct (pn (st_pos st) =? byte_len s); [discriminate|]. destruct (potential_error st) as [q|].
    + injection H as <-. destruct (T q eq_refl) as [X|X]; [discriminate|]. cbn [status_init_debug walking_rules length] in X. lia.
    + apply err_status_walks in H. rewrite H. specialize (W st [nd] eq_refl). specialize (Z st [nd] eq_refl).
      cbn [status_init_debug walking_rules length] in W. destruct Z as [Z0 Z1]. pose proof E_pos as EP.
      destruct (Nat.eq_dec (length s - len st) 0) as [Q|Q].
      * pose proof (fits_small [] 1 (count [nd]) ltac:(lia) (conj (fun _ => Z0 Q) (fun X => False_ind _ (Nat.lt_irrefl 0 X)))). nia.
      * specialize (Z1 ltac:(lia)). assert (C * (length s - len st) <= C * length s) by (apply Nat.mul_le_mono_l; lia). nia.
  - injection H as <-. cbn [status_init_debug walking_rules length] in T. lia.
Qed.

End Size.

(** At most two tokens for each node. *)
Lemma flatten_acc_count : forall nd acc, length (flatten_acc acc nd) <= length acc + 2 * node_count nd.
Proof.
  fix IH 1. intros [v|n vn|] acc; cbn [flatten_acc node_count].
  - rewrite app_length. cbn. lia.
  - rewrite app_length. cbn [length].
    assert (X : forall l facc, length ((fix fold (facc : list fnode) (l : list node) : list fnode :=
         match l with [] => facc | x :: r => fold (flatten_acc facc x) r end) facc l) <= length facc + 2 * count l).
    { induction l as [|x l IHl]; intro facc; cbn [count fold_right]; [lia|]. fold (count l).
      eapply Nat.le_trans; [apply IHl|]. pose proof (IH x facc). lia. }
    specialize (X vn (acc ++ [FBegin n])). rewrite app_length in X. cbn [length] in X. fold (count vn). lia.
  - lia.
Qed.

Lemma flatten_count : forall nd, length (flatten nd) <= 2 * node_count nd.
Proof. intro nd. exact (flatten_acc_count nd []). Qed.
