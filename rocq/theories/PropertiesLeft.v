(** Properties: left recursion and what to write instead. *)
From Verif Require Import Base ModelAst ModelParser ModelPeg SpecPeg SpecPos SpecApi SpecWf SpecBnf SpecCombinators SpecLeft Examples.
From Verif Require Import PegTools ProofParser ProofEngine ProofApi ProofWf WfCheck ProofBnf ProofLeft.

(** * C81 left recursion *)

(** Read as BNF, [a = a x / .. / b / ..] and [a = (b / ..) (x / ..)*] generate the same texts in every place of the grammar, and the trees differ
    in the left edges only. *)
Theorem C81_repetition_replaces_left_recursion : forall a steps bases G G', rewritten a steps bases G G' -> proper_bases a bases G ->
  forall e w ts', derives G' e w ts' <-> exists ts, derives G e w ts /\ ts' = map (ungrouped a) ts.
Proof. exact same_texts. Qed.
Print Assumptions C81_repetition_replaces_left_recursion.

(** If the next char tells what to do in the rewritten rules, they parse what the left-recursive ones mean, and reject the rest. *)
Theorem C81_rewritten_rules_parse : forall a steps bases rs rs', rewritten a steps bases (grammar_of rs) (grammar_of rs') -> proper_bases a bases (grammar_of rs) ->
  sane_rules rs' -> well_formed (grammar_of rs') -> predictive_grammar (grammar_of rs') ->
  forall s debug fuel, ascii s -> depth_factor rs' * (length s + 1) <= fuel ->
  (forall t', parse_with_debug fuel s rs' debug = Ok t' <-> exists t, derives (grammar_of rs) (RuleName main) s [t] /\ t' = ungrouped a t) /\
  ((exists er, parse_with_debug fuel s rs' debug = Err er) <-> ~ exists t, derives (grammar_of rs) (RuleName main) s [t]).
Proof. exact rewritten_parse. Qed.
Print Assumptions C81_rewritten_rules_parse.

(** The left-recursive rules themselves never answer, whatever the text. *)
Theorem C81_left_recursive_rules_hang : forall rs a steps bases, rules_get rs a = Some (left_recursive a steps bases) -> steps <> [] ->
  (a = main \/ exists e, rules_get rs main = Some e /\ starts_with a e) -> forall fuel s debug, parse_with_debug fuel s rs debug = Fuel.
Proof. exact left_hangs. Qed.
Print Assumptions C81_left_recursive_rules_hang.

(** Nor does it help to write the bases first: then nothing is ever repeated, and where no base matches the parser does not answer. *)
Theorem C81_bases_first_do_not_repeat : forall a steps bases G,
  G a = Some (Or (bases ++ map (fun x => And (ref_rule a :: x)) steps)) -> steps <> [] ->
  forall s r, peg G (RuleName a) s r -> exists r0, peg G (Or bases) s r0 /\ r0 <> PFail /\ r = wrap a r0.
Proof. exact bases_only. Qed.
Print Assumptions C81_bases_first_do_not_repeat.

Theorem C81_bases_first_accept_bases : forall rs steps bases s debug,
  rules_get rs main = Some (Or (bases ++ map (fun x => And (ref_rule main :: x)) steps)) -> steps <> [] -> sane_rules rs -> ascii s ->
  forall t, (exists fuel, parse_with_debug fuel s rs debug = Ok t) <-> exists ts, peg (grammar_of rs) (Or bases) s (PMatch ts []) /\ t = Rule main ts.
Proof. exact bases_first_parse. Qed.
Print Assumptions C81_bases_first_accept_bases.

(** [sum = sum '+' item / sum '-' item / [0-9] / '(' sum ')'] *)
Definition digit_ : expr := ematch [] [(48%N, 57%N)].
Definition nm_sum : str := s_ "sum".
Definition nm_item : str := s_ "item".
Definition sum_bases : list expr := [digit_; And [lit (s_ "("); ref_rule nm_sum; lit (s_ ")")]].
Definition sum_steps : list (list expr) := [[lit (s_ "+"); ref_rule nm_item]; [lit (s_ "-"); ref_rule nm_item]].
Definition sum_rules (e : expr) : rules := [(main, ref_rule nm_sum); (nm_sum, e); (nm_item, Or sum_bases)].
Definition left_sum : rules := sum_rules (left_recursive nm_sum sum_steps sum_bases).
Definition flat_sum : rules := sum_rules (repeating sum_steps sum_bases).

Definition sum_tables : list (str * info) :=
  [ (main, Info false [(40, Some 40); (48, Some 57)]%N [] true);
    (nm_sum, Info false [(40, Some 40); (48, Some 57)]%N [(41, Some 41)]%N true);
    (nm_item, Info false [(40, Some 40); (48, Some 57)]%N [(41, Some 41); (43, Some 43); (45, Some 45)]%N true) ].

Example C81_nonvacuous : rewritten nm_sum sum_steps sum_bases (grammar_of left_sum) (grammar_of flat_sum) /\
  proper_bases nm_sum sum_bases (grammar_of left_sum) /\ sane_rules flat_sum /\ well_formed (grammar_of flat_sum) /\ predictive_grammar (grammar_of flat_sum) /\
  (exists t, parse 99 (s_ "1+(2-3)-4") flat_sum = Ok t) /\ (exists er, parse 99 (s_ "1+-2") flat_sum = Err er) /\
  (forall fuel s, parse fuel s left_sum = Fuel) /\
  ungrouped nm_sum (Rule nm_sum [Rule nm_sum [Rule nm_sum [Val (s_ "1")]; Val (s_ "+"); Rule nm_item [Val (s_ "2")]]; Val (s_ "-"); Rule nm_item [Val (s_ "3")]]) =
    Rule nm_sum [Val (s_ "1"); Val (s_ "+"); Rule nm_item [Val (s_ "2")]; Val (s_ "-"); Rule nm_item [Val (s_ "3")]] /\
  (let rs := [(main, Or ([lit (s_ "1")] ++ map (fun x => And (ref_rule main :: x)) [[lit (s_ "+"); lit (s_ "1")]]))] in
   sane_rules rs /\ parse 99 (s_ "1") rs = Ok (Rule main [Val (s_ "1")]) /\ exists er, parse 99 (s_ "1+1") rs = Err er).
Proof.
  split. { split; [reflexivity|]. split; [reflexivity|]. intros n N. unfold left_sum, flat_sum, sum_rules, grammar_of. cbn [rules_get].
    destruct (str_eqb main n); [reflexivity|]. destruct (str_eqb nm_sum n) eqn:E; [apply str_eqb_eq in E; congruence|reflexivity]. }
  split. { intros b w l r [<-|[<-|[]]] D; inversion D; subst.
    match goal with X : derives _ (lit _) _ _ |- _ => inversion X; subst end. discriminate. }
  split; [apply sane_rules_all; repeat constructor|]. split; [apply wf_check_sound; vm_compute; reflexivity|].
  split; [apply (predictive_check_ok sum_tables); vm_compute; reflexivity|].
  split; [eexists; vm_compute; reflexivity|]. split; [eexists; vm_compute; reflexivity|]. split.
  - intros fuel s. apply (C81_left_recursive_rules_hang left_sum nm_sum sum_steps sum_bases); [reflexivity|discriminate|]. right. eexists. split; [reflexivity|constructor].
  - split; [vm_compute; reflexivity|]. split; [apply sane_rules_all; repeat constructor|]. split; [vm_compute; reflexivity|]. eexists. vm_compute. reflexivity.
Qed.
