(** Changing rules without changing what they mean: C46, C47. *)
From Verif Require Import Base ModelAst ModelParser SpecPeg SpecPos SpecReport SpecApi SpecAst SpecWf SpecRename SpecRefactor SpecSwap.
From Verif Require Import ProofParser ProofEngine ProofApi ProofAst ProofWf WfCheck ProofRename ProofRefactor ProofSwap PropertiesParser.

(* ---- C46 --------------------------------------------------------------------------------- *)

(** Rule names are only labels: any rule set, any text, same fuel, with and without debug. *)
Theorem C46_renaming_only_renames : forall f rs rs', renamed f rs rs' ->
  forall fuel s d, outcome_renamed f rs (parse_with_debug fuel s rs d) (parse_with_debug fuel s rs' d).
Proof. exact parse_renamed. Qed.
Print Assumptions C46_renaming_only_renames.

(** Renaming definitions and references is such a renaming if no two names in use are confused. *)
Theorem C46_rename_everything : forall f rs, f main = main ->
  (forall n m, In n (map fst rs) -> (In m (map fst rs) \/ reachable rs m) -> f n = f m -> n = m) ->
  renamed f rs (rename_rules f rs) /\ (unique_names rs -> unique_names (rename_rules f rs)).
Proof. intros f rs M J. split; [exact (rename_rules_renamed f rs M J)|intro U; exact (rename_rules_unique f rs U J)]. Qed.
Print Assumptions C46_rename_everything.

(** Names can be confused if their rules are the same after it: rules that say the same, also about themselves, can be merged. *)
Theorem C46_same_rules_can_be_merged : forall f rs, f main = main ->
  (forall n m, In n (map fst rs) -> (In m (map fst rs) \/ reachable rs m) -> f n = f m ->
     option_map (rename f) (rules_get rs n) = option_map (rename f) (rules_get rs m)) ->
  forall fuel s d, outcome_renamed f rs (parse_with_debug fuel s rs d) (parse_with_debug fuel s (rename_rules f rs) d).
Proof. intros f rs M J. exact (C46_renaming_only_renames f rs (rename_rules f rs) (merge_rules_renamed f rs M J)). Qed.
Print Assumptions C46_same_rules_can_be_merged.

(** Two rules for lists, each written with itself, become one. *)
Example C46_nonvacuous_merge :
  let f n := if str_eqb n (s_ "b") then s_ "a" else n in
  let rs := [(main, And [ref_rule (s_ "a"); lit (s_ ";"); ref_rule (s_ "b")]);
             (s_ "a", Or [And [lit (s_ "x"); ref_rule (s_ "a")]; lit (s_ "y")]); (s_ "b", Or [And [lit (s_ "x"); ref_rule (s_ "b")]; lit (s_ "y")])] in
  (f main = main /\ forall n m, In n (map fst rs) -> (In m (map fst rs) \/ reachable rs m) -> f n = f m ->
     option_map (rename f) (rules_get rs n) = option_map (rename f) (rules_get rs m)) /\
  (exists t, parse 20 (s_ "xy;y") rs = Ok t /\ parse 20 (s_ "xy;y") (rename_rules f rs) = Ok (rename_node f t)).
Proof.
  intros f rs. split; [split; [reflexivity|]|eexists; split; vm_compute; reflexivity]. intros n m IN _ E.
  assert (C : (m = n) \/ (n = s_ "a" /\ m = s_ "b") \/ (n = s_ "b" /\ m = s_ "a")).
  { unfold f in E. destruct (str_eqb n (s_ "b")) eqn:EN; destruct (str_eqb m (s_ "b")) eqn:EM; try apply str_eqb_eq in EN; try apply str_eqb_eq in EM; subst; tauto. }
  destruct C as [->|[[-> ->]|[-> ->]]]; reflexivity.
Qed.

(** Confusing two names changes the language. *)
Theorem C46_capture_refuted : exists f rs s, f main = main /\
  (exists er, parse 10 s rs = Err er) /\ exists t, parse 10 s (rename_rules f rs) = Ok t.
Proof.
  exists (fun n => if str_eqb n (s_ "b") then s_ "a" else n), [(main, ref_rule (s_ "b")); (s_ "a", lit (s_ "x")); (s_ "b", lit (s_ "y"))], (s_ "x").
  split; [reflexivity|]. split; eexists; vm_compute; reflexivity.
Qed.
Print Assumptions C46_capture_refuted.

Example C46_nonvacuous :
  let f n := if str_eqb n (s_ "w") then s_ "word" else n in
  let rs := [(main, And [ref_rule (s_ "w"); ref_rule (s_ "z")]); (s_ "w", lit (s_ "x"))] in
  renamed f rs (rename_rules f rs) /\
  exists e1 e2, parse_debug 10 (s_ "xy") rs = Err e1 /\ parse_debug 10 (s_ "xy") (rename_rules f rs) = Err e2 /\
    e_parsing_rules e1 = [s_ "r:main"; s_ "r:w"; s_ "r:z"] /\ e_parsing_rules e2 = [s_ "r:main"; s_ "r:word"; s_ "r:z"].
Proof.
  intros f rs. split.
  - apply rename_rules_renamed; [reflexivity|]. intros n m Hn Hm E.
    assert (W : forall x, f x = s_ "word" -> x = s_ "word" \/ x = s_ "w").
    { intros x. unfold f. destruct (str_eqb x (s_ "w")) eqn:Q; [apply str_eqb_eq in Q; auto|auto]. }
    assert (ND : ~ (In (s_ "word") (map fst rs) \/ reachable rs (s_ "word"))).
    { intros [[H|[H|[]]]|H]; try discriminate. inversion H as [Q|n0 e0 m0 R0 E0 F0 Q]; try discriminate. subst.
      unfold rs in E0. cbn [rules_get] in E0. destruct (str_eqb main n0); [|destruct (str_eqb (s_ "w") n0); [|discriminate]]; injection E0 as <-.
      - inversion F0 as [|e1 es I1 F1| | |]; subst. destruct I1 as [<-|[<-|[]]]; inversion F1.
      - inversion F0. }
    destruct Hn as [<-|[<-|[]]].
    + unfold f in E. cbn [str_eqb] in E. destruct (str_eqb m (s_ "w")) eqn:Q; [vm_compute in E; discriminate|exact E].
    + change (f (s_ "w")) with (s_ "word") in E. symmetry in E. apply W in E. destruct E as [->| ->]; [exfalso; apply ND; exact Hm|reflexivity].
  - do 2 eexists. vm_compute. repeat split.
Qed.

(* ---- C47 --------------------------------------------------------------------------------- *)

(** Whatever refactored rules answer, the original rules answer: the same tree, or an error. *)
Theorem C47_refactoring_is_sound : forall rs rs' s fuel, sane_rules rs -> sane_rules rs' -> ascii s ->
  refactored (grammar_of rs) (grammar_of rs') ->
  (forall t, parse fuel s rs' = Ok t -> exists fuel', parse fuel' s rs = Ok t) /\
  (forall er, parse fuel s rs' = Err er -> exists fuel' er', parse fuel' s rs = Err er').
Proof. intros rs rs' s fuel S S' A R. split; intros x H; [eapply refactor_ok|eapply refactor_err]; eassumption. Qed.
Print Assumptions C47_refactoring_is_sound.

(** If the refactored rules are well formed nothing is lost either. *)
Theorem C47_refactoring_to_well_formed_rules_is_exact : forall rs rs' s, sane_rules rs -> sane_rules rs' -> ascii s ->
  refactored (grammar_of rs) (grammar_of rs') -> well_formed (grammar_of rs') ->
  (forall t, (exists fuel, parse fuel s rs = Ok t) <-> (exists fuel, parse fuel s rs' = Ok t)) /\
  ((exists fuel er, parse fuel s rs = Err er) <-> (exists fuel er, parse fuel s rs' = Err er)).
Proof. exact refactor_iff. Qed.
Print Assumptions C47_refactoring_to_well_formed_rules_is_exact.

(** Otherwise termination can be lost: a rule may be refactored into itself. *)
Theorem C47_termination_refuted : exists rs rs' s, sane_rules rs /\ sane_rules rs' /\ ascii s /\
  refactored (grammar_of rs) (grammar_of rs') /\ (exists t, parse 10 s rs = Ok t) /\ forall fuel, parse fuel s rs' = Fuel.
Proof.
  set (rs := [(main, lit (s_ "a"))]). set (e' := And [Not (Not (ref_rule main)); lit (s_ "a")]). exists rs, [(main, e')], (s_ "a").
  assert (S1 : forall x, sane x -> sane_rules [(main, x)]).
  { intros x X n e E. cbn [rules_get] in E. destruct (str_eqb main n); [|discriminate]. injection E as <-. exact X. }
  split; [apply S1; exact I|]. split; [apply S1; cbn; tauto|]. split; [repeat constructor|]. split.
  - intro n. unfold grammar_of, rs. cbn [rules_get]. destruct (str_eqb main n); [|exact I]. apply rp_here. intros s r.
    assert (M : forall s r, peg (grammar_of rs) (ref_rule main) s r -> exists r0, peg (grammar_of rs) (lit (s_ "a")) s r0 /\ r = wrap main r0).
    { intros s0 r0 H. inversion H as [| | | | | | | | | | | | | | | | | | | | | |n0 e0 s1 r1 E D|n0 s1 E]; subst; [|discriminate]. injection E as <-. eauto. }
    assert (MI : forall s r, peg (grammar_of rs) (lit (s_ "a")) s r -> peg (grammar_of rs) (ref_rule main) s (wrap main r))
      by (intros; eapply peg_rule; [reflexivity|assumption]).
    split; intro H.
    + assert (H' := H). inversion H; subst.
      * change [Val (s_ "a")] with (@nil node ++ [Val (s_ "a")]). change (PMatch ([] ++ [Val (s_ "a")]) rest) with (prepend [] (PMatch [Val (s_ "a")] rest)).
        eapply peg_and_cons; [eapply peg_not_ok; [eapply peg_not_fail; apply (MI _ _ H')|exact I]|].
        change (PMatch [Val (s_ "a")] rest) with (prepend [Val (s_ "a")] (PMatch [] rest)). eapply peg_and_cons; [exact H'|constructor].
      * apply peg_and_stop; [|exact I]. eapply peg_not_fail. eapply peg_not_ok; [apply (MI _ _ H')|exact I].
    + apply and_prepend_inv in H. destruct H as [(ts & s1 & r1 & D & D2 & ->)|[D S]].
      * inversion D; subst. cbn [prepend]. apply and_prepend_inv in D2. destruct D2 as [(ts2 & s2 & r2 & D3 & D4 & ->)|[D3 S]].
        -- inversion D4; subst. cbn [prepend]. rewrite app_nil_r. exact D3.
        -- destruct r1; [contradiction| |]; exact D3.
      * inversion D as [| | | | | | | | | | | | | | |e0 s0 ts0 rest0 D1|e0 s0 r0 D1 S1'| | | | | | |]; subst; [|destruct S].
        inversion D1 as [| | | | | | | | | | | | | | |e0 s0 ts1 rest1 D2|e0 s0 r0 D2 S2| | | | | | |]; subst.
        destruct (M _ _ D2) as (r1 & D3 & ->). destruct r1; cbn in S2; [contradiction|exact D3|]. inversion D3.
  - split; [eexists; vm_compute; reflexivity|]. apply (C15_left_recursive_main_diverges _ e'); [reflexivity|repeat constructor].
Qed.
Print Assumptions C47_termination_refuted.

(** What is equivalent whatever the rules can be exchanged anywhere in any rules, well formed or not. *)
Theorem C47_equivalent_parts_are_interchangeable : forall e e', (forall G, equiv G e e') -> interchangeable e e'.
Proof. exact law_interchangeable. Qed.
Print Assumptions C47_equivalent_parts_are_interchangeable.

(** Equivalences to refactor with, besides those of C21. *)
Theorem C47_factor_out_a_common_start : forall x a b,
  (forall G, equiv G (Or [And (x :: a); And (x :: b)]) (And [x; Or [And a; And b]])) /\
  interchangeable (Or [And (x :: a); And (x :: b)]) (And [x; Or [And a; And b]]).
Proof. intros x a b. assert (L := fun G => factor_left G x a b). split; [exact L|exact (law_interchangeable _ _ L)]. Qed.
Print Assumptions C47_factor_out_a_common_start.

Theorem C47_drop_a_repeated_alternative : forall es1 e es2 es3,
  (forall G, equiv G (Or (es1 ++ e :: es2 ++ e :: es3)) (Or (es1 ++ e :: es2 ++ es3))) /\
  interchangeable (Or (es1 ++ e :: es2 ++ e :: es3)) (Or (es1 ++ e :: es2 ++ es3)).
Proof. intros es1 e es2 es3. assert (L := fun G => drop_repeated G es1 e es2 es3). split; [exact L|exact (law_interchangeable _ _ L)]. Qed.
Print Assumptions C47_drop_a_repeated_alternative.

Theorem C47_drop_what_is_never_tried : forall es1 e es2,
  (forall G, (forall s, ~ peg G e s PFail) -> equiv G (Or (es1 ++ e :: es2)) (Or (es1 ++ [e]))) /\
  (forall rs rs', sane_rules rs -> sane_rules rs' -> swapped (Or (es1 ++ e :: es2)) (Or (es1 ++ [e])) rs rs' ->
     (forall s, ~ peg (grammar_of rs) e s PFail) -> (forall s, ~ peg (grammar_of rs') e s PFail) -> same_answers rs rs').
Proof.
  intros es1 e es2. split; [intro G; exact (drop_shadowed G es1 e es2)|]. intros rs rs' S S' W N N'.
  exact (swap_exact _ _ rs rs' S S' W (drop_shadowed _ es1 e es2 N) (drop_shadowed _ es1 e es2 N')).
Qed.
Print Assumptions C47_drop_what_is_never_tried.

(** Two neighbouring alternatives can be exchanged if one fails wherever the other does not ... *)
Theorem C47_exchange_alternatives_that_exclude_each_other : forall es1 a b es2,
  let exclude G := (forall s r, peg G a s r -> r <> PFail -> peg G b s PFail) /\ (forall s r, peg G b s r -> r <> PFail -> peg G a s PFail) in
  (forall G, exclude G -> equiv G (Or (es1 ++ a :: b :: es2)) (Or (es1 ++ b :: a :: es2))) /\
  (forall rs rs', sane_rules rs -> sane_rules rs' -> swapped (Or (es1 ++ a :: b :: es2)) (Or (es1 ++ b :: a :: es2)) rs rs' ->
     exclude (grammar_of rs) -> exclude (grammar_of rs') -> same_answers rs rs').
Proof.
  intros es1 a b es2 exclude. assert (L : forall G, exclude G -> equiv G (Or (es1 ++ a :: b :: es2)) (Or (es1 ++ b :: a :: es2)))
    by (intros G [H1 H2]; apply swap_apart; assumption).
  split; [exact L|]. intros rs rs' S S' W X X'. exact (swap_exact _ _ rs rs' S S' W (L _ X) (L _ X')).
Qed.
Print Assumptions C47_exchange_alternatives_that_exclude_each_other.

(** ... as sequences that start with literals with different first chars do. *)
Theorem C47_exchange_alternatives_with_different_first_chars : forall es1 c u a d v b es2, c <> d ->
  let x := And (lit (c :: u) :: a) in let y := And (lit (d :: v) :: b) in
  (forall G, equiv G (Or (es1 ++ x :: y :: es2)) (Or (es1 ++ y :: x :: es2))) /\
  interchangeable (Or (es1 ++ x :: y :: es2)) (Or (es1 ++ y :: x :: es2)).
Proof.
  intros es1 c u a d v b es2 N x y. assert (L : forall G, equiv G (Or (es1 ++ x :: y :: es2)) (Or (es1 ++ y :: x :: es2)))
    by (intro G; apply swap_apart; intros s r; apply literals_apart; congruence).
  split; [exact L|exact (law_interchangeable _ _ L)].
Qed.
Print Assumptions C47_exchange_alternatives_with_different_first_chars.

(** The first turn of a repetition can be written out. *)
Theorem C47_write_out_a_needed_turn : forall e mn mx, 0 < mn -> mx <> Some 0 ->
  (forall G, equiv G (Repeat e mn mx) (And [e; Repeat e (pred mn) (option_map pred mx)])) /\
  interchangeable (Repeat e mn mx) (And [e; Repeat e (pred mn) (option_map pred mx)]).
Proof. intros e mn mx A B. assert (L := fun G => unroll_needed G e mn mx A B). split; [exact L|exact (law_interchangeable _ _ L)]. Qed.
Print Assumptions C47_write_out_a_needed_turn.

Theorem C47_write_out_an_optional_turn : forall e mx, mx <> Some 0 ->
  (forall G, equiv G (Repeat e 0 mx) (Or [And [e; Repeat e 0 (option_map pred mx)]; And []])) /\
  interchangeable (Repeat e 0 mx) (Or [And [e; Repeat e 0 (option_map pred mx)]; And []]).
Proof. intros e mx B. assert (L := fun G => unroll_optional G e mx B). split; [exact L|exact (law_interchangeable _ _ L)]. Qed.
Print Assumptions C47_write_out_an_optional_turn.

(** A common end cannot be factored out: a choice does not come back to its other alternatives when what follows fails. *)
Theorem C47_factor_out_a_common_end_refuted : exists a b x s t er,
  parse 20 s [(main, Or [And [a; x]; And [b; x]])] = Ok t /\ parse 20 s [(main, And [Or [a; b]; x])] = Err er.
Proof.
  exists (lit (s_ "a")), (lit (s_ "ab")), (lit (s_ "c")), (s_ "abc"). do 2 eexists. split; vm_compute; reflexivity.
Qed.
Print Assumptions C47_factor_out_a_common_end_refuted.

(** Equivalence is a congruence. *)
Theorem C47_equivalence_is_a_congruence : forall G e e', replaced (equiv G) e e' -> equiv G e e'.
Proof. exact replaced_equiv. Qed.
Print Assumptions C47_equivalence_is_a_congruence.

Example C47_nonvacuous :
  let rs := [(main, Repeat (Or [And [lit (s_ "a"); lit (s_ "b")]; And [lit (s_ "a"); lit (s_ "c")]]) 1 None)] in
  let rs' := [(main, Repeat (And [lit (s_ "a"); Or [And [lit (s_ "b")]; And [lit (s_ "c")]]]) 1 None)] in
  refactored (grammar_of rs) (grammar_of rs') /\ well_formed (grammar_of rs') /\
  parse 20 (s_ "abac") rs' = Ok (Rule main [Val (s_ "a"); Val (s_ "b"); Val (s_ "a"); Val (s_ "c")]).
Proof.
  intros rs rs'. split.
  - intro n. unfold grammar_of, rs, rs'. cbn [rules_get]. destruct (str_eqb main n); [|exact I]. apply rp_rep, rp_here, factor_left.
  - split; [|vm_compute; reflexivity]. apply wf_check_sound; vm_compute; reflexivity.
Qed.

Example C47_swap_nonvacuous :
  let e := Or [And [lit (s_ "a"); lit (s_ "b")]; And [lit (s_ "a"); lit (s_ "c")]] in
  let e' := And [lit (s_ "a"); Or [And [lit (s_ "b")]; And [lit (s_ "c")]]] in
  let rs := [(main, And [Repeat e 1 (Some 1); RuleName (s_ "n")]); (s_ "n", Or [e; RuleName (s_ "n")])] in
  let rs' := [(main, And [Repeat e' 1 (Some 1); RuleName (s_ "n")]); (s_ "n", Or [e; RuleName (s_ "n")])] in
  swapped e e' rs rs' /\ sane_rules rs /\ sane_rules rs' /\ exists t, parse 20 (s_ "abac") rs = Ok t /\ parse 20 (s_ "abac") rs' = Ok t.
Proof.
  intros e e' rs rs'.
  assert (S1 : forall x y, sane x -> sane y -> sane_rules [(main, x); (s_ "n", y)]).
  { intros x y X Y n z E. cbn [rules_get] in E. destruct (str_eqb main n); [injection E as <-; exact X|]. destruct (str_eqb (s_ "n") n); [|discriminate]. injection E as <-. exact Y. }
  split; [|split; [apply S1; cbn; repeat split; lia|split; [apply S1; cbn; repeat split; lia|]]].
  - intro n. unfold rs, rs'. cbn [rules_get]. destruct (str_eqb main n); [|destruct (str_eqb (s_ "n") n); [apply rp_same|exact I]].
    apply rp_and. repeat constructor; apply rp_rep, rp_here; split; reflexivity.
  - eexists. split; vm_compute; reflexivity.
Qed.
