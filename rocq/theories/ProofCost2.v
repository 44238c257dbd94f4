(** The cost of parsing does not depend on the fuel; rules whose cost is exponential. *)
From Verif Require Import Base ModelAst ModelParser ModelCost SpecPeg SpecPos SpecApi SpecWf SpecCost ProofParser ProofEngine ProofApi ProofWf WfCheck ProofCost.

(* ------------------------------------------------------------------------------------------- *)
(** * Independence of the fuel *)

Section Stable.
Variable op : nat -> nat -> nat.
Variable rs : rules.
Notation pe f := (parse_expr rs f).
Notation t f := (tally op rs f).

Lemma pe_more : forall f f' st e, f <= f' -> pe f st e <> Fuel -> pe f' st e = pe f st e.
Proof. intros f f' st e L N. apply (le_out_eq _ _ _ _ (parse_expr_mono rs f f' st e L) N). Qed.

Definition stable (f f' : nat) : Prop := forall st e, pe f st e <> Fuel -> t f' st e = t f st e.

Lemma and_stable : forall f f', f <= f' -> stable f f' -> forall es st acc, parse_and (pe f) st es acc <> Fuel ->
  tally_and op (pe f') (t f') st es = tally_and op (pe f) (t f) st es.
Proof.
  intros f f' L S es. induction es as [|e es IH]; intros st acc N; cbn [tally_and]; [reflexivity|]. cbn [parse_and] in N.
  assert (NF : pe f st e <> Fuel) by (intro X; rewrite X in N; congruence). rewrite (S st e NF), (pe_more f f' st e L NF). f_equal.
  destruct (pe f st e) as [[s1 t1]|er| |]; try reflexivity. apply (IH s1 _ N).
Qed.

Lemma or_stable : forall f f', f <= f' -> stable f f' -> forall es st o, parse_or (pe f) st es o <> Fuel ->
  tally_or op (pe f') (t f') st es = tally_or op (pe f) (t f) st es.
Proof.
  intros f f' L S es. induction es as [|e es IH]; intros st o N; cbn [tally_or]; [reflexivity|]. cbn [parse_or] in N.
  assert (NF : pe f st e <> Fuel) by (intro X; rewrite X in N; congruence). rewrite (S st e NF), (pe_more f f' st e L NF). f_equal.
  destruct (pe f st e) as [[s1 t1]|er| |]; try reflexivity. destruct (is_critical (e_priority er)); [reflexivity|]. apply (IH st _ N).
Qed.

Lemma rep_stable : forall f f', f <= f' -> stable f f' -> forall e mn mx g g' st c acc, g <= g' ->
  parse_repeat g (pe f) st e mn mx c acc <> Fuel ->
  tally_repeat op g' (pe f') (t f') st e mx c = tally_repeat op g (pe f) (t f) st e mx c.
Proof.
  intros f f' L S e mn mx g. induction g as [|g IH]; intros g' st c acc LG N; cbn [parse_repeat] in N; [congruence|].
  destruct g' as [|g']; [lia|]. cbn [tally_repeat].
  assert (NF : pe f st e <> Fuel) by (intro X; rewrite X in N; congruence). rewrite (S st e NF), (pe_more f f' st e L NF). f_equal.
  destruct (pe f st e) as [[s1 t1]|er| |]; try reflexivity. destruct (touch_max_bound mx c); [reflexivity|].
  apply (IH g' s1 _ (acc ++ t1)); [lia|exact N].
Qed.

Lemma expr_stable : forall f f', f <= f' -> stable f f'.
Proof.
  induction f as [|f IH]; intros f' L st e N; [exfalso; apply N; reflexivity|]. destruct f' as [|f']; [lia|].
  assert (L' : f <= f') by lia. pose proof (IH f' L') as S. cbn [tally]. f_equal.
  destruct e as [a|es|es|e1|e1 mn mx|n]; cbn [parse_expr] in N.
  - reflexivity.
  - apply (and_stable f f' L' S es st [] N).
  - apply (or_stable f f' L' S es st None N).
  - apply S. intro X. unfold parse_not in N. rewrite X in N. congruence.
  - apply (rep_stable f f' L' S e1 mn mx f f' st 0 [] L' N).
  - unfold tally_rule_name. unfold parse_rule_name in N. destruct (rules_get rs n) as [e|]; [|reflexivity].
    apply S. intro X. rewrite X in N. apply N. reflexivity.
Qed.

Lemma parse_tally_stable : forall f f' s d, f <= f' -> parse_with_debug f s rs d <> Fuel ->
  parse_tally op f' s rs d = parse_tally op f s rs d.
Proof.
  intros f f' s d L N. unfold parse_tally, tally_rule_name. rewrite parse_unfold in N. unfold expression_parse, parse_rule_name in N.
  destruct (rules_get rs (s_ "main")) as [e|]; [|reflexivity]. apply (expr_stable f f' L). intro X. rewrite X in N. apply N. reflexivity.
Qed.

End Stable.

(* ------------------------------------------------------------------------------------------- *)
(** * Rules that backtrack over everything again and again *)

Definition alt1 : expr := And [lit (s_ "("); ref_rule main; lit (s_ ")")].
Definition alt2 : expr := And [lit (s_ "("); ref_rule main].
Definition alt3 : expr := lit (s_ "z").

Lemma nested_get : rules_get nested_rules main = Some (Or [alt1; alt2; alt3]).
Proof. reflexivity. Qed.

Lemma nested_get_other : forall n e, rules_get nested_rules n = Some e -> e = Or [alt1; alt2; alt3].
Proof.
  intros n e H. unfold nested_rules in H. cbn [rules_macro fold_left rules_add hm_insert fst snd rules_new filter rules_get] in H.
  destruct (str_eqb main n); [injection H as <-; reflexivity|discriminate].
Qed.

Lemma nested_sane : sane_rules nested_rules.
Proof. intros n e H. apply nested_get_other in H. subst e. cbn. tauto. Qed.

Notation G := (rules_get nested_rules).

Lemma lit_ok : forall c s, peg G (lit [c]) (c :: s) (PMatch [Val [c]] s).
Proof. intros c s. exact (peg_lit_ok G [c] s). Qed.

Lemma lit_no : forall c s, (forall r, s <> c :: r) -> peg G (lit [c]) s PFail.
Proof. intros c s H. apply peg_lit_fail. intros rest X. exact (H rest X). Qed.

Lemma nested_S : forall n, nested_text (S n) = 40%N :: nested_text n.
Proof. reflexivity. Qed.

Lemma nested_peg : forall n, exists t, peg G (RuleName main) (nested_text n) (PMatch [t] []).
Proof.
  induction n as [|n [t IH]].
  - exists (Rule main [Val (s_ "z")]). change (PMatch [Rule main [Val (s_ "z")]] []) with (wrap main (PMatch [Val (s_ "z")] [])).
    apply peg_rule with (1 := nested_get). apply peg_or_next.
    { apply peg_and_stop; [|exact I]. apply lit_no. intros r X. discriminate X. }
    apply peg_or_next.
    { apply peg_and_stop; [|exact I]. apply lit_no. intros r X. discriminate X. }
    apply peg_or_first; [|discriminate]. exact (peg_lit_ok G (s_ "z") []).
  - eexists. match goal with |- peg _ _ _ (PMatch [?x] []) => unify x (Rule main [Val [40%N]; t]) end.
    change (PMatch [Rule main [Val [40%N]; t]] []) with (wrap main (PMatch [Val [40%N]; t] [])).
    apply peg_rule with (1 := nested_get). rewrite nested_S. apply peg_or_next.
    { change PFail with (prepend [Val [40%N]] (prepend [t] PFail)). eapply peg_and_cons; [apply lit_ok|].
      eapply peg_and_cons; [exact IH|]. apply peg_and_stop; [|exact I]. apply lit_no. intros r X. discriminate X. }
    apply peg_or_first; [|discriminate].
    change (PMatch [Val [40%N]; t] []) with (prepend [Val [40%N]] (prepend [t] (PMatch [] []))).
    eapply peg_and_cons; [apply lit_ok|]. eapply peg_and_cons; [exact IH|]. apply peg_and_nil.
Qed.

Lemma alt1_fails : forall n, peg G alt1 (nested_text (S n)) PFail.
Proof.
  intro n. destruct (nested_peg n) as [t IH]. rewrite nested_S.
  change PFail with (prepend [Val [40%N]] (prepend [t] PFail)). eapply peg_and_cons; [apply lit_ok|].
  eapply peg_and_cons; [exact IH|]. apply peg_and_stop; [|exact I]. apply lit_no. intros r X. discriminate X.
Qed.

(** An alternative that starts with a parenthesis goes down once. *)
Lemma alt_goes_down : forall op, (forall a b, a <= op a b /\ b <= op a b) -> forall n f st es k, inv st ->
  it_parsing st = nested_text (S n) -> ascii (text2parse st) -> parse_expr nested_rules f st (And (lit (s_ "(") :: ref_rule main :: es)) <> Fuel ->
  (forall f' st', inv st' -> it_parsing st' = nested_text n -> ascii (text2parse st') -> parse_expr nested_rules f' st' (ref_rule main) <> Fuel ->
     k <= tally op nested_rules f' st' (ref_rule main)) ->
  S k <= tally op nested_rules f st (And (lit (s_ "(") :: ref_rule main :: es)).
Proof.
  intros op M n f st es k I E As N H. destruct f as [|f]; [exfalso; apply N; reflexivity|]. cbn [parse_expr parse_and] in N.
  cbn [tally tally_and].
  assert (NF : parse_expr nested_rules f st (lit (s_ "(")) <> Fuel) by (intro X; rewrite X in N; congruence).
  pose proof (run_outcome nested_rules nested_sane f st (lit (s_ "(")) (PMatch [Val [40%N]] (nested_text n)) Logic.I I) as RO.
  rewrite E, nested_S in RO. specialize (RO (lit_ok _ _) NF).
  destruct (parse_expr nested_rules f st (lit (s_ "("))) as [[s1 t1]|er| |].
  - destruct RO as (X1 & I1 & A1). injection X1 as X1 X2. apply le_n_S.
    eapply Nat.le_trans; [|apply (proj2 (M _ _))]. cbn [parse_and tally_and] in *.
    eapply Nat.le_trans; [|apply (proj1 (M _ _))]. destruct A1 as (A1 & _). apply H; [exact I1|symmetry; exact X2|rewrite A1; exact As|].
    intro X. rewrite X in N. congruence.
  - destruct (e_priority er); [discriminate|]. destruct RO as (? & ? & _). discriminate.
  - contradiction.
  - contradiction.
Qed.

Lemma alt1_result : forall n f st, inv st -> it_parsing st = nested_text (S n) -> ascii (text2parse st) ->
  parse_expr nested_rules f st alt1 <> Fuel -> exists er, parse_expr nested_rules f st alt1 = Err er /\ is_critical (e_priority er) = false.
Proof.
  intros n f st I E As N. pose proof (run_outcome nested_rules nested_sane f st alt1 PFail) as RO.
  rewrite E in RO. specialize (RO ltac:(cbn; tauto) I (alt1_fails n) N).
  destruct (parse_expr nested_rules f st alt1) as [[s1 t1]|er| |]; try contradiction.
  - destruct RO as (X & _). discriminate.
  - exists er. split; [reflexivity|]. destruct (e_priority er); [reflexivity|]. destruct RO as (? & ? & _). discriminate.
Qed.

Lemma nested_down : forall op, (forall a b, a <= op a b /\ b <= op a b) -> (forall a b c d, a <= b -> c <= d -> op a c <= op b d) ->
  forall n f st k, inv st ->
  it_parsing st = nested_text (S n) -> ascii (text2parse st) -> parse_expr nested_rules f st (ref_rule main) <> Fuel ->
  (forall f' st', inv st' -> it_parsing st' = nested_text n -> ascii (text2parse st') -> parse_expr nested_rules f' st' (ref_rule main) <> Fuel ->
     k <= tally op nested_rules f' st' (ref_rule main)) ->
  2 + op (S k) (S k) <= tally op nested_rules f st (ref_rule main).
Proof.
  intros op M MO n f st k I E As N H. destruct f as [|f]; [exfalso; apply N; reflexivity|].
  unfold ref_rule in *. cbn [parse_expr tally] in *. unfold parse_rule_name, tally_rule_name in *. rewrite nested_get in *.
  set (st1 := if trace_rules st then push_rule st (s_ "r:" ++ main) else st) in *.
  assert (I1 : inv st1) by (subst st1; destruct (trace_rules st); exact I).
  assert (E1 : it_parsing st1 = it_parsing st) by (subst st1; destruct (trace_rules st); reflexivity).
  assert (T1 : text2parse st1 = text2parse st) by (subst st1; destruct (trace_rules st); reflexivity).
  rewrite <- E1 in E. rewrite <- T1 in As. clearbody st1.
  destruct f as [|f]; [exfalso; apply N; reflexivity|]. cbn [parse_expr parse_or] in N. cbn [tally tally_or].
  assert (NF1 : parse_expr nested_rules f st1 alt1 <> Fuel) by (intro X; rewrite X in N; apply N; reflexivity).
  destruct (alt1_result n f st1 I1 E As NF1) as (er & R1 & C1). rewrite R1, C1 in N. cbn [parse_or] in N.
  assert (NF2 : parse_expr nested_rules f st1 alt2 <> Fuel) by (intro X; rewrite X in N; apply N; reflexivity).
  pose proof (alt_goes_down op M n f st1 [lit (s_ ")")] k I1 E As NF1 H) as D1.
  pose proof (alt_goes_down op M n f st1 [] k I1 E As NF2 H) as D2.
  rewrite R1, C1. do 2 apply le_n_S. apply MO; [exact D1|]. eapply Nat.le_trans; [exact D2|apply (proj1 (M _ _))].
Qed.

Lemma add_above : forall a b, a <= a + b /\ b <= a + b. Proof. lia. Qed.
Lemma max_above : forall a b, a <= Nat.max a b /\ b <= Nat.max a b. Proof. lia. Qed.

Lemma nested_calls : forall n f st, inv st -> it_parsing st = nested_text n -> ascii (text2parse st) ->
  parse_expr nested_rules f st (ref_rule main) <> Fuel -> 2 ^ n <= tally Nat.add nested_rules f st (ref_rule main).
Proof.
  induction n as [|n IH]; intros f st I E As N.
  - destruct f as [|f]; [exfalso; apply N; reflexivity|]. cbn [tally]. cbn. lia.
  - assert (MO : forall a b c d, a <= b -> c <= d -> a + c <= b + d) by (intros; lia).
    pose proof (nested_down Nat.add add_above MO n f st (2 ^ n) I E As N (fun f' st' I' E' A' N' => IH f' st' I' E' A' N')).
    rewrite pow2_S. lia.
Qed.

Lemma nested_nesting : forall n f st, inv st -> it_parsing st = nested_text n -> ascii (text2parse st) ->
  parse_expr nested_rules f st (ref_rule main) <> Fuel -> 3 * n + 1 <= tally Nat.max nested_rules f st (ref_rule main).
Proof.
  induction n as [|n IH]; intros f st I E As N.
  - destruct f as [|f]; [exfalso; apply N; reflexivity|]. cbn [tally]. cbn. lia.
  - assert (MO : forall a b c d, a <= b -> c <= d -> Nat.max a c <= Nat.max b d) by (intros; lia).
    pose proof (nested_down Nat.max max_above MO n f st (3 * n + 1) I E As N (fun f' st' I' E' A' N' => IH f' st' I' E' A' N')). lia.
Qed.

Lemma nested_ascii : forall n, ascii (nested_text n).
Proof.
  intro n. apply Forall_app. split; [|repeat constructor]. apply Forall_forall. intros x X. apply repeat_spec in X. subst x.
  unfold ascii_char. reflexivity.
Qed.

Lemma nested_wf : well_formed (grammar_of nested_rules).
Proof. apply wf_check_sound; vm_compute; reflexivity. Qed.

Lemma nested_run : forall op n fuel d, parse_with_debug fuel (nested_text n) nested_rules d <> Fuel ->
  S (parse_tally op fuel (nested_text n) nested_rules d) = tally op nested_rules (S fuel) (status_init_debug (nested_text n) d) (ref_rule main) /\
  parse_expr nested_rules (S fuel) (status_init_debug (nested_text n) d) (ref_rule main) <> Fuel.
Proof.
  intros op n fuel d N. split; [reflexivity|]. unfold ref_rule. rewrite expression_parse_expr. rewrite parse_unfold in N. intro X.
  destruct (expression_parse nested_rules fuel _) as [[? ?]| | |]; try discriminate X. apply N. reflexivity.
Qed.

Lemma nested_accepted : forall n, exists ast f0, forall fuel, f0 <= fuel -> parse fuel (nested_text n) nested_rules = Ok ast.
Proof.
  intro n. destruct (nested_peg n) as [t P].
  destruct (proj2 (parse_accepts (nested_text n) nested_rules nested_sane (nested_ascii n))) as (f0 & ast & H).
  { destruct (peg_main_shape nested_rules (nested_text n) [t] [] P) as (e & kids & H1 & _ & H3). exists e, kids. auto. }
  exists ast, f0. intros fuel L. rewrite (parse_mono f0 fuel _ _ L); [exact H|]. rewrite H. discriminate.
Qed.
