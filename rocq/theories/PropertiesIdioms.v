(** Rewriting rules without changing the accepted texts, and the idioms of the documentation: C55. *)
From Verif Require Import Base ModelAst ModelParser SpecPeg SpecPos SpecApi SpecWf SpecRefactor SpecLang SpecSwap.
From Verif Require Import ProofParser ProofEngine ProofApi ProofWf WfCheck ProofRefactor ProofLang ProofIdioms ProofSwap ProofTill.

(* ---- C55 --------------------------------------------------------------------------------- *)

(** Whatever the rewritten rules accept or reject, the original rules accept or reject. *)
Theorem C55_rewriting_is_sound : forall rs rs' s fuel, sane_rules rs -> sane_rules rs' -> ascii s ->
  rewritten (grammar_of rs) (grammar_of rs') ->
  (forall t, parse fuel s rs' = Ok t -> exists fuel' t', parse fuel' s rs = Ok t') /\
  (forall er, parse fuel s rs' = Err er -> exists fuel' er', parse fuel' s rs = Err er').
Proof. intros rs rs' s fuel S S' A R. split; intros x H; [eapply rewrite_ok|eapply rewrite_err]; eassumption. Qed.
Print Assumptions C55_rewriting_is_sound.

(** If the rewritten rules are well formed the accepted texts, and the rejected ones, are the same. *)
Theorem C55_rewriting_to_well_formed_rules_is_exact : forall rs rs' s, sane_rules rs -> sane_rules rs' -> ascii s ->
  rewritten (grammar_of rs) (grammar_of rs') -> well_formed (grammar_of rs') ->
  ((exists fuel t, parse fuel s rs = Ok t) <-> (exists fuel t, parse fuel s rs' = Ok t)) /\
  ((exists fuel er, parse fuel s rs = Err er) <-> (exists fuel er, parse fuel s rs' = Err er)).
Proof. exact rewrite_iff. Qed.
Print Assumptions C55_rewriting_to_well_formed_rules_is_exact.

(** Rewriting inside expressions is a congruence, and contains the refactorings of C47. *)
Theorem C55_same_language_is_a_congruence : forall G e e', replaced (same_language G) e e' -> same_language G e e'.
Proof. exact replaced_same. Qed.
Print Assumptions C55_same_language_is_a_congruence.

Theorem C55_equivalent_expressions_have_the_same_language : forall G e e', equiv G e e' -> same_language G e e'.
Proof. exact same_of_equiv. Qed.
Print Assumptions C55_equivalent_expressions_have_the_same_language.

(** A reference can be replaced by the body of its rule. *)
Theorem C55_inlining : forall n e,
  (forall G, G n = Some e -> same_language G (RuleName n) e) /\
  (forall rs rs', sane_rules rs -> sane_rules rs' -> rules_get rs n = Some e -> rules_get rs' n = Some e ->
     swapped (RuleName n) e rs rs' -> same_texts rs rs').
Proof.
  intros n e. split; [intros G E; exact (inline_rule G n e E)|]. intros rs rs' S S' E E' W.
  exact (swap_texts _ _ rs rs' S S' W (inline_rule _ n e E) (inline_rule _ n e E')).
Qed.
Print Assumptions C55_inlining.

(** README, "one or more 'a' recursive": [r = e r / e] is [e+]; its tree is the list of turns, nested. *)
Theorem C55_recursion_is_plus : forall r e, let body := Or [And [e; RuleName r]; e] in
  (forall G, G r = Some body ->
     same_language G (RuleName r) (Repeat e 1 None) /\
     (forall s ts rest, peg G (RuleName r) s (PMatch ts rest) ->
        exists l, l <> [] /\ ts = nest r l /\ peg G (Repeat e 1 None) s (PMatch (concat l) rest)) /\
     (forall s ts rest, peg G (Repeat e 1 None) s (PMatch ts rest) ->
        exists l, l <> [] /\ ts = concat l /\ peg G (RuleName r) s (PMatch (nest r l) rest))) /\
  (forall rs rs', sane_rules rs -> sane_rules rs' -> rules_get rs r = Some body -> rules_get rs' r = Some body ->
     swapped (RuleName r) (Repeat e 1 None) rs rs' -> same_texts rs rs').
Proof.
  intros r e body. split.
  - intros G GR. split; [exact (rec_is_plus G r e GR)|]. split; [exact (rep_of_rec G r e GR)|exact (rec_of_rep G r e GR)].
  - intros rs rs' S S' E E' W. exact (swap_texts _ _ rs rs' S S' W (rec_is_plus _ r e E) (rec_is_plus _ r e E')).
Qed.
Print Assumptions C55_recursion_is_plus.

(** [r = e sep r / e] is [e (sep e)*]. *)
Theorem C55_recursion_is_list : forall r e sep, let body := Or [And [e; sep; RuleName r]; e] in
  (forall G, G r = Some body -> same_language G (RuleName r) (And [e; Repeat (And [sep; e]) 0 None])) /\
  (forall rs rs', sane_rules rs -> sane_rules rs' -> rules_get rs r = Some body -> rules_get rs' r = Some body ->
     swapped (RuleName r) (And [e; Repeat (And [sep; e]) 0 None]) rs rs' -> same_texts rs rs').
Proof.
  intros r e sep body. split; [intros G GR; exact (rec_is_list G r e sep GR)|].
  intros rs rs' S S' E E' W. exact (swap_texts _ _ rs rs' S S' W (rec_is_list _ r e sep E) (rec_is_list _ r e sep E')).
Qed.
Print Assumptions C55_recursion_is_list.

(** README, 'hello' / 'hello world': an alternative that fails whenever an earlier one fails can be dropped ... *)
Theorem C55_drop_a_covered_alternative : forall es1 e es2 e' es3,
  let covered G := forall s, peg G e s PFail -> peg G e' s PFail in
  (forall G, covered G -> equiv G (Or (es1 ++ e :: es2 ++ e' :: es3)) (Or (es1 ++ e :: es2 ++ es3))) /\
  (forall rs rs', sane_rules rs -> sane_rules rs' -> swapped (Or (es1 ++ e :: es2 ++ e' :: es3)) (Or (es1 ++ e :: es2 ++ es3)) rs rs' ->
     covered (grammar_of rs) -> covered (grammar_of rs') -> same_answers rs rs').
Proof.
  intros es1 e es2 e' es3 covered. split; [intros G C; exact (drop_covered G es1 e es2 e' es3 C)|].
  intros rs rs' S S' W C C'. exact (swap_exact _ _ rs rs' S S' W (drop_covered _ es1 e es2 e' es3 C) (drop_covered _ es1 e es2 e' es3 C')).
Qed.
Print Assumptions C55_drop_a_covered_alternative.

(** ... and an alternative starting with a longer literal is such. *)
Theorem C55_longer_literals_are_covered : forall es1 a es2 b es es3,
  interchangeable (Or (es1 ++ lit a :: es2 ++ lit (a ++ b) :: es3)) (Or (es1 ++ lit a :: es2 ++ es3)) /\
  interchangeable (Or (es1 ++ lit a :: es2 ++ And (lit (a ++ b) :: es) :: es3)) (Or (es1 ++ lit a :: es2 ++ es3)) /\
  (forall G, equiv G (Or (es1 ++ lit a :: es2 ++ lit (a ++ b) :: es3)) (Or (es1 ++ lit a :: es2 ++ es3)) /\
     equiv G (Or (es1 ++ lit a :: es2 ++ And (lit (a ++ b) :: es) :: es3)) (Or (es1 ++ lit a :: es2 ++ es3))).
Proof.
  intros es1 a es2 b es es3.
  assert (L : forall G, equiv G (Or (es1 ++ lit a :: es2 ++ lit (a ++ b) :: es3)) (Or (es1 ++ lit a :: es2 ++ es3)) /\
     equiv G (Or (es1 ++ lit a :: es2 ++ And (lit (a ++ b) :: es) :: es3)) (Or (es1 ++ lit a :: es2 ++ es3)))
    by (intro G; split; apply drop_covered; intros s H; [apply longer_literal_covered|apply longer_sequence_covered]; exact H).
  split; [apply law_interchangeable; intro G; apply L|]. split; [apply law_interchangeable; intro G; apply L|exact L].
Qed.
Print Assumptions C55_longer_literals_are_covered.

(** README, "consume all chars till": it matches up to and including the first occurrence, and fails if there is none. *)
Theorem C55_consume_till : forall l,
  (forall G s p, peg G (till l) s p <->
     (exists w r, first_at l s w r /\ p = PMatch (map (fun c => Val [c]) w ++ [Val l]) r) \/ ((forall w r, s <> w ++ l ++ r) /\ p = PFail)) /\
  (forall s ast, ascii s -> (exists fuel, parse fuel s [(main, till l)] = Ok ast) <->
     exists w, first_at l s w [] /\ ast = Rule main (map (fun c => Val [c]) w ++ [Val l])).
Proof. intro l. split; [intros G s p; exact (till_spec G l s p)|exact (till_parse l)]. Qed.
Print Assumptions C55_consume_till.

(** README, "recursion match par": exactly the nestings. *)
Theorem C55_matching_brackets : forall m a b, (forall u v, a ++ u <> b ++ v) ->
  let body := Or [And [lit a; RuleName m; lit b]; And [lit a; lit b]] in
  (forall G, G m = Some body -> forall s rest, (exists ts, peg G (RuleName m) s (PMatch ts rest)) <->
     exists n, 1 <= n /\ s = times n a ++ times n b ++ rest) /\
  (m <> main -> forall s, ascii s -> (exists fuel ast, parse fuel s [(main, RuleName m); (m, body)] = Ok ast) <->
     exists n, 1 <= n /\ s = times n a ++ times n b).
Proof. intros m a b N body. split; [intros G E; exact (brackets_spec G m a b E N)|exact (brackets_parse m a b N)]. Qed.
Print Assumptions C55_matching_brackets.

(** With brackets that can be confused, [m = "a" m "a" / "a" "a"], not every nesting is matched. *)
Theorem C55_confused_brackets_refuted : exists a b rs s, rules_get rs main = Some (Or [And [lit a; RuleName main; lit b]; And [lit a; lit b]]) /\
  s = times 3 a ++ times 3 b /\ exists er, parse 40 s rs = Err er.
Proof.
  exists (s_ "a"), (s_ "a"), [(main, Or [And [lit (s_ "a"); RuleName main; lit (s_ "a")]; And [lit (s_ "a"); lit (s_ "a")]])].
  exists (s_ "aaaaaa"). split; [reflexivity|]. split; [reflexivity|]. eexists. vm_compute. reflexivity.
Qed.
Print Assumptions C55_confused_brackets_refuted.

(** Moving the longer literal first does change the language. *)
Theorem C55_order_matters_refuted : exists rs rs' s, rules_get rs main = Some (Or [lit (s_ "hello"); lit (s_ "hello world")]) /\
  rules_get rs' main = Some (Or [lit (s_ "hello world"); lit (s_ "hello")]) /\
  (exists er, parse 20 s rs = Err er) /\ exists t, parse 20 s rs' = Ok t.
Proof.
  exists [(main, Or [lit (s_ "hello"); lit (s_ "hello world")])], [(main, Or [lit (s_ "hello world"); lit (s_ "hello")])], (s_ "hello world").
  repeat split; eexists; vm_compute; reflexivity.
Qed.
Print Assumptions C55_order_matters_refuted.

Example C55_nonvacuous :
  let as_ := s_ "as" in
  let body := Or [And [lit (s_ "a"); RuleName as_]; lit (s_ "a")] in
  let rs := [(main, And [RuleName as_; Or [lit (s_ "b"); lit (s_ "bc")]]); (as_, body)] in
  let rs' := [(main, And [Repeat (lit (s_ "a")) 1 None; Or [lit (s_ "b")]]); (as_, body)] in
  rewritten (grammar_of rs) (grammar_of rs') /\ well_formed (grammar_of rs') /\
  parse 20 (s_ "aab") rs = Ok (Rule main (nest as_ [[Val (s_ "a")]; [Val (s_ "a")]] ++ [Val (s_ "b")])) /\
  parse 20 (s_ "aab") rs' = Ok (Rule main [Val (s_ "a"); Val (s_ "a"); Val (s_ "b")]) /\
  first_at (s_ "*/") (s_ "a**/b*/") (s_ "a*") (s_ "b*/").
Proof.
  intros as_ body rs rs'. split; [|split; [apply wf_check_sound; vm_compute; reflexivity|]].
  - intro n. unfold grammar_of, rs, rs'. cbn [rules_get]. destruct (str_eqb main n).
    + apply rp_and. constructor; [apply rp_here, rec_is_plus; reflexivity|]. constructor; [|constructor].
      apply rp_here. apply same_of_equiv. exact (drop_covered _ [] (lit (s_ "b")) [] (lit (s_ "bc")) [] (fun s H => longer_literal_covered _ (s_ "b") (s_ "c") s H)).
    + destruct (str_eqb as_ n); [apply rp_same|exact I].
  - split; [vm_compute; reflexivity|]. split; [vm_compute; reflexivity|]. split; [reflexivity|].
    intros w' r' E. destruct w' as [|c [|d w']]; [discriminate E|discriminate E|cbn; lia].
Qed.
