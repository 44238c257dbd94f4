(** Properties: searching a text. *)
From Verif Require Import Base ModelAst ModelParser SpecPeg SpecPos SpecApi SpecStuck SpecPower SpecTable SpecLines SpecLexer SpecSearch.
From Verif Require Import ProofParser ProofEngine ProofApi ProofPower ProofLines ProofLexer ProofSearch Examples.

(** * C99 searching a text *)

(** [main = (!n .)* n .*] finds the first place of a text where the rule [n] matches: the chars before it and after it are single nodes,
    and between them is the node of [n]. Before that place, [n] may fail or give a message: both only mean that the search goes on. *)
Theorem C99_first_match_is_found : forall rs n, sane_rules rs -> main_unused rs [ref_rule n] -> forall s debug ast, ascii s ->
  ((exists fuel, parse_with_debug fuel s (find_rules rs n) debug = Ok ast) <->
   exists u ks rest, first_match (grammar_of rs) n s u ks rest /\ ast = Rule main (by_chars u ++ Rule n ks :: by_chars rest)).
Proof. intros rs n SR MU s debug ast A. exact (find_ok rs n SR MU s A debug ast). Qed.
Print Assumptions C99_first_match_is_found.

(** A text is rejected without a message when [n] matches at no place of it and fails at its end. *)
Theorem C99_rejected_without_a_match : forall rs n, sane_rules rs -> main_unused rs [ref_rule n] -> forall s debug, ascii s ->
  ((exists fuel er, parse_with_debug fuel s (find_rules rs n) debug = Err er /\ e_priority er = Normal) <->
   never_matches (grammar_of rs) n s /\ peg (grammar_of rs) (RuleName n) [] PFail).
Proof. intros rs n SR MU s debug A. exact (find_rejects rs n SR MU s debug A). Qed.
Print Assumptions C99_rejected_without_a_match.

(** The only message that comes through is the one at the end of the text. *)
Theorem C99_only_the_last_message : forall rs n, sane_rules rs -> main_unused rs [ref_rule n] -> forall s m k, ascii s ->
  (complains (find_rules rs n) s m k <->
   never_matches (grammar_of rs) n s /\ (exists rest, peg (grammar_of rs) (RuleName n) [] (PAbort m rest)) /\ k = length s).
Proof. intros rs n SR MU s m k A. exact (find_complains rs n SR MU s m k A). Qed.
Print Assumptions C99_only_the_last_message.

(** The search ends if and only if it gets to a match, or to the end of the text. *)
Theorem C99_search_ends : forall rs n, sane_rules rs -> main_unused rs [ref_rule n] -> forall s, ascii s ->
  (finishes (find_rules rs n) s <-> (exists u ks rest, first_match (grammar_of rs) n s u ks rest) \/ never_matches (grammar_of rs) n s).
Proof. intros rs n SR MU s A. exact (find_finishes rs n SR MU s A). Qed.
Print Assumptions C99_search_ends.

(** There is at most one first match. *)
Theorem C99_one_first_match : forall G n s u ks rest, first_match G n s u ks rest ->
  ~ never_matches G n s /\ forall u' ks' rest', first_match G n s u' ks' rest' -> u = u' /\ ks = ks' /\ rest = rest'.
Proof.
  assert (NB : forall G n v ts rest, peg G (RuleName n) v (PMatch ts rest) -> misses G n v -> False).
  { intros G n v ts rest D (r & D' & St). pose proof (peg_det _ _ _ _ D _ D') as <-. exact St. }
  intros G n s u ks rest (v & -> & H & D). split; [intro N; exact (NB _ _ _ _ _ D (N u v eq_refl))|].
  intros u' ks' rest' (v' & E & H' & D').
  assert (X : u = u' /\ v = v').
  { destruct (app_eq_app _ _ _ _ E) as (l & [[-> ->]|[-> ->]]); (destruct l as [|c l]; [cbn; rewrite ?app_nil_r; split; reflexivity|exfalso]).
    - exact (NB _ _ _ _ _ D' (H u' (c :: l) eq_refl ltac:(discriminate))).
    - exact (NB _ _ _ _ _ D (H' u (c :: l) eq_refl ltac:(discriminate))). }
  destruct X as [-> ->]. pose proof (peg_det _ _ _ _ D _ D') as X. injection X as -> ->. repeat split.
Qed.
Print Assumptions C99_one_first_match.

(** [main = (n / o)*] with [o = .] finds all matches, each as soon as possible after the one before. *)
Theorem C99_all_matches_are_found : forall rs n o, sane_rules rs -> main_unused rs (map ref_rule [n; o]) -> rules_get rs o = Some dot_ ->
  forall s debug ast, ascii s ->
  ((exists fuel, parse_with_debug fuel s (scan_rules rs n o) debug = Ok ast) <->
   exists ps, scans (grammar_of rs) n s ps /\ ast = Rule main (map (part_node n o) ps)).
Proof. intros rs n o SR MU OD s debug ast A. exact (scan_ok rs n o SR MU OD s debug ast A). Qed.
Print Assumptions C99_all_matches_are_found.

(** There is one way to do that, the parts make up the text, and the first hit is the first match. *)
Theorem C99_one_way_to_scan : forall G n s ps, scans G n s ps ->
  flat_map part_text ps = s /\ (forall qs, scans G n s qs -> qs = ps) /\
  (never_matches G n s /\ ps = map Between s \/
   exists u ks w rest qs, first_match G n s u ks rest /\ s = u ++ w ++ rest /\ ps = map Between u ++ Hit ks w :: qs /\ scans G n rest qs).
Proof.
  intros G n s ps H. split; [exact (scans_text G n s ps H)|]. split; [intros qs Q; symmetry; exact (scans_det G n s ps H qs Q)|].
  induction H as [D|ks w s ps D W H IH|c s ps D H IH].
  - left. split; [|reflexivity]. intros a b E. symmetry in E. apply app_eq_nil in E. destruct E as [_ ->]. exists PFail. split; [exact D|exact Logic.I].
  - right. exists [], ks, w, s, ps. split; [|split; [reflexivity|split; [reflexivity|exact H]]].
    exists (w ++ s). split; [reflexivity|]. split; [|exact D]. intros a b E N. symmetry in E. apply app_eq_nil in E. destruct E as [_ ->]. destruct (N eq_refl).
  - assert (M : misses G n (c :: s)) by (exists PFail; split; [exact D|exact Logic.I]). destruct IH as [[N ->]|(u & ks & w & rest & qs & (v & E & K & D') & E' & -> & Q)].
    + left. split; [|reflexivity]. intros [|x a] b E; cbn in E; [subst b; exact M|]. injection E as _ E. exact (N a b E).
    + right. exists (c :: u), ks, w, rest, qs. split; [|split; [rewrite E'; reflexivity|split; [reflexivity|exact Q]]]. exists v. split; [rewrite E; reflexivity|]. split; [|exact D'].
      intros [|x a] b F NE; cbn in F; [subst b; cbn [app]; rewrite <- E; exact M|]. injection F as _ F. exact (K a b F NE).
Qed.
Print Assumptions C99_one_way_to_scan.

(** Such rules accept every text where [n] gives no message and no empty match; and they reject nothing but with a message of [n]. *)
Theorem C99_every_text_can_be_scanned : forall rs n o, sane_rules rs -> main_unused rs (map ref_rule [n; o]) -> rules_get rs o = Some dot_ ->
  forall s debug, ascii s ->
  ((forall a v, s = a ++ v -> peg (grammar_of rs) (RuleName n) v PFail \/
      exists w ks rest, v = w ++ rest /\ w <> [] /\ peg (grammar_of rs) (RuleName n) v (PMatch [Rule n ks] rest)) ->
   exists fuel ast, parse_with_debug fuel s (scan_rules rs n o) debug = Ok ast) /\
  (forall fuel er, parse_with_debug fuel s (scan_rules rs n o) debug = Err er -> e_priority er = Critical).
Proof.
  intros rs n o SR MU OD s debug A. split.
  - intro H. destruct (scans_all rs n s H) as [ps S]. destruct (proj2 (scan_ok rs n o SR MU OD s debug _ A) (ex_intro _ ps (conj S eq_refl))) as [fuel E].
    exists fuel. eexists. exact E.
  - intros fuel er. exact (scan_rejects rs n o SR MU OD s debug fuel er A).
Qed.
Print Assumptions C99_every_text_can_be_scanned.

(** [prune] with the name of one of the two rules leaves the hits, or the text without the hits. *)
Theorem C99_hits_and_the_rest : forall n o ps, n <> o ->
  ((forall ks w, In (Hit ks w) ps -> ~ In o (flat_map names ks)) -> prune [o] (Rule main (map (part_node n o) ps)) = Rule main (hit_nodes n ps)) /\
  prune [n] (Rule main (map (part_node n o) ps)) = Rule main (map (fun c => Rule o [Val [c]]) (text_between ps)).
Proof. intros n o ps N. split; [exact (prune_between n o ps N)|exact (prune_hits n o ps N)]. Qed.
Print Assumptions C99_hits_and_the_rest.

(** [number = [0-9]+], [other = .] *)
Definition number_rules : rules := rules_macro [(s_ "number", rep0 (Simple (Match [] [(48, 57)%N])) 1); (s_ "other", dot_)].

(** A rule that can match the empty text is found at once, and a search for all its matches never returns. *)
Theorem C99_empty_matches_refuted : let rs := rules_macro [(s_ "digits", rep0 (Simple (Match [] [(48, 57)%N])) 0); (s_ "other", dot_)] in
  parse 100 (s_ "ab12") (find_rules rs (s_ "digits")) = Ok (Rule main (Rule (s_ "digits") [] :: by_chars (s_ "ab12"))) /\
  forall fuel debug, parse_with_debug fuel (s_ "ab12") (scan_rules rs (s_ "digits") (s_ "other")) debug = Fuel.
Proof.
  cbv zeta. split; [vm_compute; reflexivity|]. intros fuel debug. unfold scan_rules.
  eapply empty_token_hangs with (toks := []) (rest := s_ "ab12").
  - apply sane_rules_all; repeat constructor.
  - destruct (main_unused_all (rules_macro [(s_ "digits", rep0 (Simple (Match [] [(48, 57)%N])) 0); (s_ "other", dot_)]) (Or (map ref_rule [s_ "digits"; s_ "other"])) eq_refl eq_refl) as [M N]. split; [exact M|].
    inversion N as [|x l X Y]; subst. apply Forall_forall. intros e I H. apply X. exact (hr_or _ e _ I H).
  - repeat constructor.
  - apply lx_stop.
  - exists [], [s_ "other"]. split; [reflexivity|]. split; [intros m []|]. split; [|discriminate].
    refine (peg_rule _ (s_ "digits") _ _ (PMatch [] (s_ "ab12")) eq_refl _). apply peg_rep_done; [discriminate|]. apply peg_class_fail. intros c s E. injection E as <- _. intros [[]|(lo & hi & [E|[]] & L)]. injection E as <- <-. lia.
Qed.
Print Assumptions C99_empty_matches_refuted.

Example C99_nonvacuous : exists er,
  sane_rules number_rules /\ main_unused number_rules [ref_rule (s_ "number")] /\ main_unused number_rules (map ref_rule [s_ "number"; s_ "other"]) /\
  rules_get number_rules (s_ "other") = Some dot_ /\
  parse 100 (s_ "a12b3") (find_rules number_rules (s_ "number")) = Ok (Rule main [Val (s_ "a"); Rule (s_ "number") [Val (s_ "1"); Val (s_ "2")]; Val (s_ "b"); Val (s_ "3")]) /\
  parse 100 (s_ "abc") (find_rules number_rules (s_ "number")) = Err er /\ e_priority er = Normal /\
  parse 100 (s_ "a12b3") (scan_rules number_rules (s_ "number") (s_ "other")) =
    Ok (Rule main (map (part_node (s_ "number") (s_ "other")) [Between 97%N; Hit [Val (s_ "1"); Val (s_ "2")] (s_ "12"); Between 98%N; Hit [Val (s_ "3")] (s_ "3")])).
Proof.
  eexists. split; [apply sane_rules_all; repeat constructor|]. split; [exact (main_unused_all number_rules (ref_rule (s_ "number")) eq_refl eq_refl)|]. split.
  { destruct (main_unused_all number_rules (Or (map ref_rule [s_ "number"; s_ "other"])) eq_refl eq_refl) as [M N]. split; [exact M|].
    inversion N as [|x l X Y]; subst. apply Forall_forall. intros e I H. apply X. exact (hr_or _ e _ I H). }
  split; [reflexivity|]. split; [vm_compute; reflexivity|]. split; [vm_compute; reflexivity|]. split; [reflexivity|]. vm_compute. reflexivity.
Qed.
