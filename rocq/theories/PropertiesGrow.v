(** Properties: what growing rules keep. *)
From Verif Require Import Base ModelAst ModelParser SpecPeg SpecPos SpecApi SpecWf SpecBnf SpecSwap SpecGrow Examples.
From Verif Require Import ProofParser ProofEngine ProofApi ProofWf WfCheck ProofBnf PropertiesBnf ProofGrow.

(** * C85 growing rules *)

(** New alternatives, anywhere in any rules, change nothing for a text where what they start with is absent: the same tree, or also an error. *)
Theorem C85_new_syntax_keeps_old_texts : forall rs rs' s, sane_rules rs -> sane_rules rs' -> complete rs -> ascii s ->
  grown_rules (absent rs' s) rs rs' -> same_answer s rs rs'.
Proof. exact old_texts. Qed.
Print Assumptions C85_new_syntax_keeps_old_texts.

(** If no rule uses main, any alternatives can be added at its end: what was accepted still is, with the same tree. *)
Theorem C85_main_can_grow : forall rs rs' es new s debug t, sane_rules rs -> sane_rules rs' -> complete rs -> ascii s ->
  rules_get rs main = Some (Or es) -> rules_get rs' main = Some (Or (es ++ new)) ->
  (forall n e, n <> main -> rules_get rs n = Some e -> rules_get rs' n = Some e) -> (forall n e, rules_get rs n = Some e -> ~ has_ref main e) ->
  (exists fuel, parse_with_debug fuel s rs debug = Ok t) -> exists fuel, parse_with_debug fuel s rs' debug = Ok t.
Proof. exact main_grows. Qed.
Print Assumptions C85_main_can_grow.

(** If the next char tells what to do in the new rules, they can allow more in any way: what was accepted still is, with the same tree. *)
Theorem C85_predictive_rules_can_grow : forall rs rs', sane_rules rs -> sane_rules rs' -> well_formed (grammar_of rs') -> predictive_grammar (grammar_of rs') ->
  looser_rules rs rs' -> forall s debug fuel t, ascii s -> parse_with_debug fuel s rs debug = Ok t ->
  forall fuel', depth_factor rs' * (length s + 1) <= fuel' -> parse_with_debug fuel' s rs' debug = Ok t.
Proof. exact looser_predictive. Qed.
Print Assumptions C85_predictive_rules_can_grow.

(** In general a new alternative, although the last one, can reject what was accepted: [main = r* 'b'] with [r = 'a'], and [r = 'a' / 'b']. *)
Definition grow_old : rules := [(main, And [rep0 (ref_rule (s_ "r")) 0; lit (s_ "b")]); (s_ "r", Or [lit (s_ "a")])].
Definition grow_new : rules := [(main, And [rep0 (ref_rule (s_ "r")) 0; lit (s_ "b")]); (s_ "r", Or [lit (s_ "a"); lit (s_ "b")])].

Theorem C85_last_alternative_is_safe_refuted : exists rs rs' r es x s t er, sane_rules rs /\ sane_rules rs' /\ well_formed (grammar_of rs) /\ well_formed (grammar_of rs') /\ ascii s /\
  rules_get rs r = Some (Or es) /\ rules_get rs' r = Some (Or (es ++ [x])) /\ (forall n, n <> r -> rules_get rs' n = rules_get rs n) /\
  parse 50 s rs = Ok t /\ parse 50 s rs' = Err er.
Proof.
  exists grow_old, grow_new, (s_ "r"), [lit (s_ "a")], (lit (s_ "b")), (s_ "aab"). do 2 eexists.
  split; [apply sane_rules_all; repeat constructor|]. split; [apply sane_rules_all; repeat constructor|].
  split; [apply wf_check_sound; vm_compute; reflexivity|]. split; [apply wf_check_sound; vm_compute; reflexivity|]. split; [repeat constructor|].
  split; [reflexivity|]. split; [reflexivity|]. split; [|split; vm_compute; reflexivity].
  intros n N. unfold grow_old, grow_new. cbn [rules_get]. destruct (str_eqb main n); [reflexivity|]. destruct (str_eqb (s_ "r") n) eqn:E; [|reflexivity]. apply str_eqb_eq in E. congruence.
Qed.
Print Assumptions C85_last_alternative_is_safe_refuted.

(** The same for main, if it is used: [main = 'a' main* 'b'], and [.. / 'b']. *)
Theorem C85_used_main_can_grow_refuted : exists es x s t er, let rs := [(main, Or es)] in let rs' := [(main, Or (es ++ [x]))] in
  well_formed (grammar_of rs) /\ well_formed (grammar_of rs') /\ ascii s /\ parse 50 s rs = Ok t /\ parse 50 s rs' = Err er.
Proof.
  exists [And [lit (s_ "a"); rep0 (ref_rule main) 0; lit (s_ "b")]], (lit (s_ "b")), (s_ "aabb"). do 2 eexists. cbv zeta.
  split; [apply wf_check_sound; vm_compute; reflexivity|]. split; [apply wf_check_sound; vm_compute; reflexivity|]. split; [repeat constructor|]. split; vm_compute; reflexivity.
Qed.
Print Assumptions C85_used_main_can_grow_refuted.

(** Lists of numbers, C61's, with new items that start with an at sign (64). *)
Definition grown_bnf : rules := rules_macro
  [ (main, And [ref_rule (s_ "list")]);
    (s_ "list", And [lit (s_ "["); Repeat (And [ref_rule (s_ "item"); Repeat (And [lit (s_ ","); ref_rule (s_ "item")]) 0 None]) 0 (Some 1); lit (s_ "]")]);
    (s_ "item", Or [ref_rule (s_ "name"); ref_rule (s_ "list"); Repeat (ematch [] [(48%N, 57%N)]) 1 None]);
    (s_ "name", And [lit (s_ "@"); Repeat (ematch [] [(97%N, 122%N)]) 1 None]) ].

(** .. and where items can also be hexadecimal or have a sign, and lists can end with exclamation marks. *)
Definition looser_bnf : rules := rules_macro
  [ (main, And [ref_rule (s_ "list")]);
    (s_ "list", And [lit (s_ "["); Repeat (And [ref_rule (s_ "item"); Repeat (And [lit (s_ ","); ref_rule (s_ "item")]) 0 None]) 0 (Some 1); Repeat (lit (s_ "!")) 0 None; lit (s_ "]")]);
    (s_ "item", Or [ref_rule (s_ "list"); And [lit (s_ "-"); Repeat (ematch [] [(48%N, 57%N)]) 1 None]; Repeat (ematch [] [(48%N, 57%N); (97%N, 102%N)]) 1 None]) ].
Definition looser_tables : list (str * info) :=
  [ (main, Info false [(91, Some 91)]%N [] true);
    (s_ "list", Info false [(91, Some 91)]%N [(44, Some 44); (93, Some 93); (33, Some 33)]%N true);
    (s_ "item", Info false [(91, Some 91); (48, Some 57); (97, Some 102); (45, Some 45)]%N [(44, Some 44); (93, Some 93); (33, Some 33)]%N false) ].

Example C85_nonvacuous : sane_rules bnf_rules /\ sane_rules grown_bnf /\ complete bnf_rules /\ grown_rules (absent grown_bnf (s_ "[1,[],[23]]")) bnf_rules grown_bnf /\
  (exists t, parse 100 (s_ "[1,[],[23]]") bnf_rules = Ok t /\ parse 100 (s_ "[1,[],[23]]") grown_bnf = Ok t) /\ (exists t, parse 100 (s_ "[1,@a]") grown_bnf = Ok t) /\
  sane_rules looser_bnf /\ well_formed (grammar_of looser_bnf) /\ predictive_grammar (grammar_of looser_bnf) /\ looser_rules bnf_rules looser_bnf /\
  (exists t, parse 100 (s_ "[-1,[1f!!],3!]") looser_bnf = Ok t).
Proof.
  split; [apply sane_rules_all; repeat constructor|]. split; [apply sane_rules_all; repeat constructor|].
  split.
  { split; [discriminate|]. intros n e m H R. apply ProofBnf.rules_get_in in H. vm_compute in H. apply has_ref_refs in R.
    repeat (destruct H as [H|H]; [injection H as <- <-; vm_compute in R; repeat (destruct R as [<-|R]; [vm_compute; discriminate|]); destruct R|]). destruct H. }
  split.
  { intros n e H. apply ProofBnf.rules_get_in in H. vm_compute in H. 
    repeat (destruct H as [H|H]; [injection H as <- <-; eexists; (split; [vm_compute; reflexivity|])|]); [| | |destruct H]; try apply grown_refl.
    apply gr_or. apply gc_new; [|apply gc_keep; [constructor|apply gc_keep; [repeat constructor|constructor]]].
    eapply ab_rule; [vm_compute; reflexivity|]. apply ab_and, ab_lit. intros u v E. assert (I : In 64%N (s_ "[1,[],[23]]")) by (rewrite E; apply in_or_app; right; left; reflexivity).
    vm_compute in I. repeat (destruct I as [I|I]; [discriminate|]). exact I. }
  split; [eexists; split; vm_compute; reflexivity|]. split; [vm_compute; eexists; reflexivity|]. split; [apply sane_rules_all; repeat constructor|].
  split; [apply wf_check_sound; vm_compute; reflexivity|]. split; [apply (predictive_check_ok looser_tables); vm_compute; reflexivity|].
  split; [|vm_compute; eexists; reflexivity].
  intros n e H. apply ProofBnf.rules_get_in in H. vm_compute in H.
  repeat (destruct H as [H|H]; [injection H as <- <-; eexists; (split; [vm_compute; reflexivity|])|]); [| | |destruct H].
  - constructor. intros e [<-|[<-|[]]].
    + eexists. split; [left; reflexivity|constructor].
    + eexists. split; [right; right; left; reflexivity|]. constructor; [|lia|exact Logic.I]. constructor. intros c [[]|(lo & hi & I & L)]. right. exists lo, hi. split; [|exact L]. destruct I as [I|[]]. left. exact I.
  - constructor. constructor; [constructor|]. constructor; [|apply lp_new; repeat constructor]. constructor; [|lia|exact (Nat.le_refl 1)]. constructor.
    constructor; [constructor|]. constructor; [|constructor]. constructor; [repeat constructor|lia|exact Logic.I].
  - repeat constructor.
Qed.
