(** Rules that differ only in what prune, pass_through_except and compact take away: C106. *)
From Verif Require Import Base ModelAst ModelParser SpecPeg SpecPos SpecApi SpecWf SpecRefactor SpecLang SpecSwap SpecViews.
From Verif Require Import ProofParser ProofEngine ProofApi ProofWf ProofRefactor ProofLang ProofIdioms ProofSwap ProofViews Examples.

(* ---- C106 -------------------------------------------------------------------------------- *)

(** Whatever tree the rewritten rules give, the original rules give one that looks the same after the tools, and they
    reject what is rejected. *)
Theorem C106_rewriting_is_sound : forall a k rs rs' s fuel, sane_rules rs -> sane_rules rs' -> ascii s ->
  retooled a k (grammar_of rs) (grammar_of rs') ->
  (forall t, parse fuel s rs' = Ok t -> exists fuel' t', parse fuel' s rs = Ok t' /\
     compact (pass_through_except k (prune a t')) = compact (pass_through_except k (prune a t))) /\
  (forall er, parse fuel s rs' = Err er -> exists fuel' er', parse fuel' s rs = Err er').
Proof.
  intros a k rs rs' s fuel S S' A R. split; intros x H; [eapply retool_ok; eassumption|].
  eapply rewrite_err; try eassumption. eapply retooled_rewritten. exact R.
Qed.
Print Assumptions C106_rewriting_is_sound.

(** If each rule set is a rewriting of the other one, nothing can be told apart after the tools. *)
Theorem C106_rewriting_both_ways_is_exact : forall a k rs rs', sane_rules rs -> sane_rules rs' ->
  retooled a k (grammar_of rs) (grammar_of rs') -> retooled a k (grammar_of rs') (grammar_of rs) -> same_views a k rs rs'.
Proof. exact retool_iff. Qed.
Print Assumptions C106_rewriting_both_ways_is_exact.

(** Nor if the rewritten rules are well formed. *)
Theorem C106_rewriting_to_well_formed_rules_is_exact : forall a k rs rs' s, sane_rules rs -> sane_rules rs' -> ascii s ->
  retooled a k (grammar_of rs) (grammar_of rs') -> well_formed (grammar_of rs') ->
  (forall t, (exists fuel ast, parse fuel s rs = Ok ast /\ tools a k ast = t) <->
             (exists fuel ast, parse fuel s rs' = Ok ast /\ tools a k ast = t)) /\
  ((exists fuel er, parse fuel s rs = Err er) <-> (exists fuel er, parse fuel s rs' = Err er)).
Proof.
  intros a k rs rs' s S S' A R W. split; [apply retool_wf; assumption|].
  apply (rewrite_iff rs rs' s S S' A (retooled_rewritten _ _ _ _ R) W).
Qed.
Print Assumptions C106_rewriting_to_well_formed_rules_is_exact.

(** Parts can be replaced inside parts; parts with the same trees look the same, and parts that look the same match the
    same texts.  Under a negation only the texts matter. *)
Theorem C106_same_view_is_a_congruence : forall a k G e e',
  (replaced (same_view a k G) e e' -> same_view a k G e e') /\
  (equiv G e e' -> same_view a k G e e') /\ (same_view a k G e e' -> same_language G e e') /\
  (same_language G e e' -> same_view a k G (Not e) (Not e')).
Proof.
  intros a k G e e'. split; [apply replaced_vsame|]. split; [apply vsame_of_equiv|]. split; [apply same_of_vsame|apply vsame_not_lang].
Qed.
Print Assumptions C106_same_view_is_a_congruence.

(** A part can be moved to a helper rule, and a helper rule can be written out, if the rule is neither pruned nor kept. *)
Theorem C106_helper_rules : forall a k n e, ~ In n a -> ~ In n k ->
  (forall G, G n = Some e -> same_view a k G (RuleName n) e) /\
  (forall rs rs', sane_rules rs -> sane_rules rs' -> rules_get rs n = Some e -> rules_get rs' n = Some e ->
     swapped (RuleName n) e rs rs' -> same_views a k rs rs').
Proof.
  intros a k n e A K. split; [intros G E; apply view_inline; assumption|]. intros rs rs' S S' E E' W.
  apply (swap_views a k (RuleName n) e); try assumption; apply view_inline; assumption.
Qed.
Print Assumptions C106_helper_rules.

(** A literal can be cut in two, wherever it stands. *)
Theorem C106_literals_can_be_cut : forall a k x y,
  (forall G, same_view a k G (lit (x ++ y)) (And [lit x; lit y])) /\
  (forall rs rs', sane_rules rs -> sane_rules rs' -> swapped (lit (x ++ y)) (And [lit x; lit y]) rs rs' -> same_views a k rs rs').
Proof.
  intros a k x y. split; [intro G; apply view_split|]. intros rs rs' S S' W.
  apply (swap_views a k (lit (x ++ y)) (And [lit x; lit y])); try assumption; apply view_split.
Qed.
Print Assumptions C106_literals_can_be_cut.

(** [r = e r / e] and [e+] give the same tree, if [r] is neither pruned nor kept; ... *)
Theorem C106_recursion_is_plus : forall a k r e, ~ In r a -> ~ In r k -> let body := Or [And [e; RuleName r]; e] in
  (forall G, G r = Some body -> same_view a k G (RuleName r) (Repeat e 1 None)) /\
  (forall rs rs', sane_rules rs -> sane_rules rs' -> rules_get rs r = Some body -> rules_get rs' r = Some body ->
     swapped (RuleName r) (Repeat e 1 None) rs rs' -> same_views a k rs rs').
Proof.
  intros a k r e A K body. split; [intros G E; apply view_plus; assumption|]. intros rs rs' S S' E E' W.
  apply (swap_views a k (RuleName r) (Repeat e 1 None)); try assumption; apply view_plus; assumption.
Qed.
Print Assumptions C106_recursion_is_plus.

(** ... so do [r = e sep r / e] and [e (sep e)*]. *)
Theorem C106_recursion_is_list : forall a k r e sep, ~ In r a -> ~ In r k -> let body := Or [And [e; sep; RuleName r]; e] in
  (forall G, G r = Some body -> same_view a k G (RuleName r) (And [e; Repeat (And [sep; e]) 0 None])) /\
  (forall rs rs', sane_rules rs -> sane_rules rs' -> rules_get rs r = Some body -> rules_get rs' r = Some body ->
     swapped (RuleName r) (And [e; Repeat (And [sep; e]) 0 None]) rs rs' -> same_views a k rs rs').
Proof.
  intros a k r e sep A K body. split; [intros G E; apply view_list; assumption|]. intros rs rs' S S' E E' W.
  apply (swap_views a k (RuleName r) (And [e; Repeat (And [sep; e]) 0 None])); try assumption; apply view_list; assumption.
Qed.
Print Assumptions C106_recursion_is_list.

(** The body of a pruned rule can be exchanged for any other one that matches the same prefixes. *)
Theorem C106_pruned_rules_need_only_match : forall a k rs rs' n e e', sane_rules rs -> sane_rules rs' -> In n a -> n <> main ->
  rules_get rs n = Some e -> rules_get rs' n = Some e' -> (forall m, m <> n -> rules_get rs' m = rules_get rs m) ->
  same_language (grammar_of rs) e e' -> same_language (grammar_of rs') e e' -> same_views a k rs rs'.
Proof.
  intros a k rs rs' n e e' S S' A N E E' O L L'. apply retool_iff; [exact S|exact S'| |]; intro m; unfold grammar_of;
    (destruct (list_eq_dec N.eq_dec m n) as [->|M]; [rewrite E, E'; right; split; [exact A|]; split; [exact N|]; apply rp_here|
      rewrite (O m M); destruct (rules_get rs m); [left; apply rp_same|exact I]]).
  - exact L.
  - apply same_sym. exact L'.
Qed.
Print Assumptions C106_pruned_rules_need_only_match.

(** With an empty literal the recursion leaves an empty piece of text behind: [r = e r / ""] is not [e*]. *)
Theorem C106_empty_literals_stay_refuted : exists r e rs rs' s t t', let body := Or [And [e; RuleName r]; lit []] in
  rules_get rs r = Some body /\ rules_get rs' r = Some body /\ r <> main /\
  swapped (RuleName r) (Repeat e 0 None) rs rs' /\ parse 40 s rs = Ok t /\ parse 40 s rs' = Ok t' /\
  compact (pass_through_except [main; s_ "x"] t) = Rule main [Rule (s_ "x") [Val s]; Val []] /\
  compact (pass_through_except [main; s_ "x"] t') = Rule main [Rule (s_ "x") [Val s]].
Proof.
  exists (s_ "r"), (RuleName (s_ "x")).
  exists [(main, RuleName (s_ "r")); (s_ "r", Or [And [RuleName (s_ "x"); RuleName (s_ "r")]; lit []]); (s_ "x", lit (s_ "a"))].
  exists [(main, Repeat (RuleName (s_ "x")) 0 None); (s_ "r", Or [And [RuleName (s_ "x"); RuleName (s_ "r")]; lit []]); (s_ "x", lit (s_ "a"))].
  exists (s_ "a"). eexists. eexists. cbn zeta. split; [reflexivity|]. split; [reflexivity|]. split; [discriminate|]. split.
  - intro n. cbn [rules_get]. destruct (str_eqb main n); [apply rp_here; auto|].
    destruct (str_eqb (s_ "r") n); [apply rp_same|]. destruct (str_eqb (s_ "x") n); [apply rp_same|exact I].
  - split; [vm_compute; reflexivity|]. split; [vm_compute; reflexivity|]. split; vm_compute; reflexivity.
Qed.
Print Assumptions C106_empty_literals_stay_refuted.

(** If the recursive rule is kept the trees differ. *)
Theorem C106_kept_rules_show_refuted : exists r e rs rs' s t t', let body := Or [And [e; RuleName r]; e] in
  rules_get rs r = Some body /\ rules_get rs' r = Some body /\ r <> main /\
  swapped (RuleName r) (Repeat e 1 None) rs rs' /\ parse 40 s rs = Ok t /\ parse 40 s rs' = Ok t' /\
  compact (pass_through_except [main; r] t) <> compact (pass_through_except [main; r] t').
Proof.
  exists (s_ "r"), (lit (s_ "a")).
  exists [(main, RuleName (s_ "r")); (s_ "r", Or [And [lit (s_ "a"); RuleName (s_ "r")]; lit (s_ "a")])].
  exists [(main, Repeat (lit (s_ "a")) 1 None); (s_ "r", Or [And [lit (s_ "a"); RuleName (s_ "r")]; lit (s_ "a")])].
  exists (s_ "aa"). eexists. eexists. cbn zeta. split; [reflexivity|]. split; [reflexivity|]. split; [discriminate|]. split.
  - intro n. cbn [rules_get]. destruct (str_eqb main n); [apply rp_here; auto|].
    destruct (str_eqb (s_ "r") n); [apply rp_same|exact I].
  - split; [vm_compute; reflexivity|]. split; [vm_compute; reflexivity|]. vm_compute. discriminate.
Qed.
Print Assumptions C106_kept_rules_show_refuted.

(* ---- Examples ---------------------------------------------------------------------------- *)

Definition ex_item : str * expr := (s_ "item", Repeat (Simple (Match [] [(97%N, 122%N)])) 1 None).
Definition ex_sep : str * expr := (s_ "_", Repeat (lit (s_ " ")) 0 None).
Definition ex_comma : expr := And [lit (s_ ","); RuleName (s_ "_")].
Definition ex_list : str * expr := (s_ "list", Or [And [RuleName (s_ "item"); ex_comma; RuleName (s_ "list")]; RuleName (s_ "item")]).
Definition ex_recursive : rules := [(main, And [lit (s_ "["); RuleName (s_ "list"); lit (s_ "]")]); ex_list; ex_item; ex_sep].
Definition ex_repeated : rules :=
  [(main, And [lit (s_ "["); And [RuleName (s_ "item"); Repeat (And [ex_comma; RuleName (s_ "item")]) 0 None]; lit (s_ "]")]); ex_list; ex_item; ex_sep].

Example C106_lists_hyp : let a := [s_ "_"] in let k := [main; s_ "item"] in
  sane_rules ex_recursive /\ sane_rules ex_repeated /\ ~ In (s_ "list") a /\ ~ In (s_ "list") k /\
  rules_get ex_recursive (s_ "list") = Some (snd ex_list) /\ rules_get ex_repeated (s_ "list") = Some (snd ex_list) /\
  swapped (RuleName (s_ "list")) (And [RuleName (s_ "item"); Repeat (And [ex_comma; RuleName (s_ "item")]) 0 None]) ex_recursive ex_repeated.
Proof.
  cbn zeta. split; [apply sane_rules_all; repeat constructor|]. split; [apply sane_rules_all; repeat constructor|].
  split; [intros [H|[]]; discriminate|]. split; [intros [H|[H|[]]]; discriminate|]. split; [reflexivity|]. split; [reflexivity|].
  intro n. unfold ex_recursive, ex_repeated, ex_list, ex_item, ex_sep. cbn [rules_get].
  destruct (str_eqb main n); [apply rp_and; constructor; [apply rp_same|]; constructor; [apply rp_here; auto|]; constructor; [apply rp_same|constructor]|].
  destruct (str_eqb (s_ "list") n); [apply rp_same|]. destruct (str_eqb (s_ "item") n); [apply rp_same|].
  destruct (str_eqb (s_ "_") n); [apply rp_same|exact I].
Qed.

Example C106_lists : same_views [s_ "_"] [main; s_ "item"] ex_recursive ex_repeated.
Proof.
  destruct C106_lists_hyp as (S & S' & A & K & E & E' & W).
  exact (proj2 (C106_recursion_is_list _ _ _ _ _ A K) _ _ S S' E E' W).
Qed.

Example C106_lists_see : exists t t', parse 60 (s_ "[ab, c,d]") ex_recursive = Ok t /\ parse 60 (s_ "[ab, c,d]") ex_repeated = Ok t' /\ t <> t' /\
  tools [s_ "_"] [main; s_ "item"] t = Rule main [Val (s_ "["); Rule (s_ "item") [Val (s_ "ab")]; Val (s_ ",");
    Rule (s_ "item") [Val (s_ "c")]; Val (s_ ","); Rule (s_ "item") [Val (s_ "d")]; Val (s_ "]")] /\
  tools [s_ "_"] [main; s_ "item"] t' = tools [s_ "_"] [main; s_ "item"] t.
Proof.
  eexists. eexists. split; [vm_compute; reflexivity|]. split; [vm_compute; reflexivity|]. split; [discriminate|]. split; vm_compute; reflexivity.
Qed.

(** Blanks read by a recursion of their own instead of a repetition, in a rule that is pruned. *)
Definition ex_blanks : str * expr := (s_ "_", Or [Repeat (lit (s_ " ")) 1 None; And []]).
Definition ex_other : rules := [(main, And [lit (s_ "["); RuleName (s_ "list"); lit (s_ "]")]); ex_list; ex_item; ex_blanks].

Example C106_blanks : same_views [s_ "_"] [main; s_ "item"] ex_recursive ex_other.
Proof.
  assert (L : forall G, same_language G (snd ex_sep) (snd ex_blanks)).
  { assert (HALF : forall G s o, lang G (snd ex_sep) s o -> lang G (snd ex_blanks) s o).
    { intros G. apply (lang_rep0_ind G _ (fun s o => lang G (snd ex_blanks) s o)).
      - intros s s1 o D R _. unfold ex_blanks, snd. apply lang_or_first; [|intros ->; apply lang_fail in R; exact (rep0_never_fails _ _ _ R)].
        apply lang_rep1. left. eauto.
      - intros s F. unfold ex_blanks, snd. apply lang_or_next; [|apply lang_or_first; [apply lang_and_nil|discriminate]].
        apply lang_rep_short; [discriminate|lia|exact F].
      - intros s m rest D. unfold ex_blanks, snd. apply lang_or_first; [|discriminate]. apply lang_rep1. right. split; [exact D|exact I]. }
    intros G s o. split; [apply HALF|]. intros (r & D & <-).
    assert (T : exists r', peg G (snd ex_sep) s r').
    { clear. unfold ex_sep, snd. induction s as [|c s IH].
      - eexists. apply peg_rep_done; [discriminate|]. constructor. discriminate.
      - destruct (N.eq_dec c 32) as [->|N].
        + destruct IH as [r' IH]. eexists. eapply peg_rep_more; [discriminate|exact (peg_lit_ok G (s_ " ") s)|exact IH].
        + eexists. apply peg_rep_done; [discriminate|]. constructor. intros rest H. injection H as -> _. apply N. reflexivity. }
    destruct T as [r' T]. rewrite (lang_det _ _ _ _ _ (lang_peg _ _ _ _ D) (HALF _ _ _ (lang_peg _ _ _ _ T))). exists r'. auto. }
  apply (C106_pruned_rules_need_only_match _ _ ex_recursive ex_other (s_ "_") (snd ex_sep) (snd ex_blanks));
    [apply sane_rules_all; repeat constructor|apply sane_rules_all; repeat constructor|left; reflexivity|discriminate|reflexivity|reflexivity| |apply L|apply L].
  intros m M. unfold ex_other, ex_recursive, ex_sep, ex_blanks. cbn [rules_get].
  destruct (str_eqb main m); [reflexivity|]. unfold ex_list, ex_item. cbn [rules_get]. destruct (str_eqb (s_ "list") m); [reflexivity|].
  destruct (str_eqb (s_ "item") m); [reflexivity|]. destruct (str_eqb (s_ "_") m) eqn:Q; [|reflexivity].
  apply str_eqb_eq in Q. congruence.
Qed.

(** A helper rule written out, and a literal cut in two. *)
Definition ex_helped : rules := [(main, And [lit (s_ "let "); RuleName (s_ "name")]); (s_ "name", Repeat dot_ 1 None)].
Definition ex_helpless : rules := [(main, And [lit (s_ "let "); Repeat dot_ 1 None]); (s_ "name", Repeat dot_ 1 None)].
Definition ex_cut : rules := [(main, And [And [lit (s_ "let"); lit (s_ " ")]; RuleName (s_ "name")]); (s_ "name", Repeat dot_ 1 None)].

Example C106_helper_and_cut : same_views [] [main] ex_helped ex_helpless /\ same_views [] [main] ex_helped ex_cut /\
  exists t t', parse 60 (s_ "let xy") ex_helped = Ok t /\ parse 60 (s_ "let xy") ex_cut = Ok t' /\ t <> t' /\
    tools [] [main] t = Rule main [Val (s_ "let xy")] /\ tools [] [main] t' = Rule main [Val (s_ "let xy")].
Proof.
  assert (S1 : sane_rules ex_helped) by (apply sane_rules_all; repeat constructor).
  assert (S2 : sane_rules ex_helpless) by (apply sane_rules_all; repeat constructor).
  assert (S3 : sane_rules ex_cut) by (apply sane_rules_all; repeat constructor).
  split; [|split].
  - refine (proj2 (C106_helper_rules [] [main] (s_ "name") (Repeat dot_ 1 None) _ _) _ _ S1 S2 eq_refl eq_refl _); [intros []|intros [H|[]]; discriminate|].
    intro n. unfold ex_helped, ex_helpless. cbn [rules_get].
    destruct (str_eqb main n); [apply rp_and; constructor; [apply rp_same|]; constructor; [apply rp_here; auto|constructor]|].
    destruct (str_eqb (s_ "name") n); [apply rp_same|exact I].
  - refine (proj2 (C106_literals_can_be_cut [] [main] (s_ "let") (s_ " ")) _ _ S1 S3 _).
    intro n. unfold ex_helped, ex_cut. cbn [rules_get].
    destruct (str_eqb main n); [apply rp_and; constructor; [apply rp_here; auto|]; constructor; [apply rp_same|constructor]|].
    destruct (str_eqb (s_ "name") n); [apply rp_same|exact I].
  - eexists. eexists. split; [vm_compute; reflexivity|]. split; [vm_compute; reflexivity|]. split; [discriminate|]. split; vm_compute; reflexivity.
Qed.
