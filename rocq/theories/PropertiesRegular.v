(** Properties: rules without recursion and regular languages. *)
From Verif Require Import Base ModelAst ModelParser SpecPeg SpecPos SpecApi SpecWf SpecLoops SpecPower SpecRegex SpecSpeed SpecRegular SpecLang SpecTable.
From Verif Require Import ProofAst ProofParser ProofEngine ProofApi ProofWf ProofBnf ProofLoops ProofPower ProofSpeed ProofFinite ProofRegular Examples.

(** * C94 rules without recursion say what regular expressions say *)

(** The texts that rules without recursion accept are those of a finite automaton, whatever the rules look at and throw away;
    and so are the texts on which the parse never returns. *)
Theorem C94_no_recursion_is_an_automaton : forall rs, sane_rules rs -> no_recursion (grammar_of rs) ->
  (exists M, closed M /\ forall s, takes rs s <-> runs M 0 s) /\ (exists M, closed M /\ forall s, ascii s -> (~ finishes rs s <-> runs M 0 s)).
Proof. exact no_recursion_regular. Qed.
Print Assumptions C94_no_recursion_is_an_automaton.

(** They are the texts of a regular expression. *)
Theorem C94_no_recursion_is_a_regular_expression : forall rs, sane_rules rs -> no_recursion (grammar_of rs) -> exists r, forall s, takes rs s <-> matches r s.
Proof.
  intros rs SR NR. destruct (proj1 (no_recursion_regular rs SR NR)) as (M & CM & H). destruct (det_same_all M CM) as (CD & DD & S). exists (automaton_regex (determinized M)). intro s.
  rewrite (automaton_regex_ok (determinized M) CD DD), S. apply H.
Qed.
Print Assumptions C94_no_recursion_is_a_regular_expression.

(** For every finite automaton there is one rule that accepts its texts. It refers to no rule, and always returns. *)
Theorem C94_automata_need_no_recursion : forall M, closed M -> let rs := flat_rules (determinized M) in
  sane_rules rs /\ no_recursion (grammar_of rs) /\ no_empty_loops (grammar_of rs) /\ forall s, ascii s -> (takes rs s <-> runs M 0 s).
Proof.
  intros M CM rs. destruct (det_same_all M CM) as (CD & DD & S). split; [apply flat_sane|]. split; [apply flat_no_recursion|]. split; [apply flat_no_empty_loops|].
  intros s A. rewrite <- S. exact (flat_takes (determinized M) CD DD s A).
Qed.
Print Assumptions C94_automata_need_no_recursion.

(** And for every regular expression. *)
Theorem C94_regular_expressions_need_no_recursion : forall r, let rs := flat_rules (determinized (regex_automaton r)) in
  sane_rules rs /\ no_recursion (grammar_of rs) /\ no_empty_loops (grammar_of rs) /\ forall s, ascii s -> (takes rs s <-> matches r s).
Proof.
  intros r rs. destruct (C94_automata_need_no_recursion (regex_automaton r) (regex_closed r)) as (A & B & C & D). split; [exact A|]. split; [exact B|]. split; [exact C|].
  intros s As. rewrite <- (regex_runs r s As). exact (D s As).
Qed.
Print Assumptions C94_regular_expressions_need_no_recursion.

(** What rules without recursion accept goes on for ever in one way only: in each accepted text that is long enough there is a part,
    not far from its start, that can be left out or repeated. *)
Theorem C94_long_texts_repeat : forall rs, sane_rules rs -> no_recursion (grammar_of rs) ->
  exists k, forall s, takes rs s -> k <= length s -> exists u v w, s = u ++ v ++ w /\ v <> [] /\ length (u ++ v) <= k /\ forall n, takes rs (u ++ times n v ++ w).
Proof.
  intros rs SR NR. destruct (proj1 (no_recursion_regular rs SR NR)) as (M & CM & H). exists (length M). intros s T L. apply H in T.
  destruct (pump M CM s T L) as (u & v & w & E & N & B & P). exists u, v, w. split; [exact E|]. split; [exact N|]. split; [exact B|]. intro n. apply H, P.
Qed.
Print Assumptions C94_long_texts_repeat.

(** Pairs that match, like brackets, need recursion: rules without it that accept as many [x] as [y], for all numbers, also accept
    different numbers. *)
Theorem C94_pairs_need_recursion : forall rs x y, sane_rules rs -> x <> y -> no_recursion (grammar_of rs) ->
  (forall n, takes rs (times n [x] ++ times n [y])) -> exists n m, n < m /\ takes rs (times n [x] ++ times m [y]).
Proof.
  intros rs x y SR N NR H. destruct (proj1 (no_recursion_regular rs SR NR)) as (M & CM & HM). destruct (pairs_need_more M x y CM N) as (n & m & L & R); [intro n; apply HM, H|].
  exists n, m. split; [exact L|]. apply HM, R.
Qed.
Print Assumptions C94_pairs_need_recursion.

(** Letters up to the first dot, but not a dash before a dot: [main = part+ '.'], [part = !"-." (letter / '-')], [letter = [a-z]]. *)
Definition label_rules : rules := rules_macro [
  (main, And [rep0 (ref_rule (s_ "part")) 1; lit (s_ ".")]);
  (s_ "part", And [Not (lit (s_ "-.")); Or [ref_rule (s_ "letter"); lit (s_ "-")]]);
  (s_ "letter", ematch [] [(97, 122)]%N)].

(** [main = ('a' / !'b')* 'b'] does not return where neither an a nor a b follows. *)
Definition stuck_rules : rules := rules_macro [(main, And [rep0 (Or [lit (s_ "a"); Not (lit (s_ "b"))]) 0; lit (s_ "b")])].

(** An even number of a. *)
Definition even_auto : automaton := [(true, [(97%N, 1)]); (false, [(97%N, 0)])].

Definition all_rules : rules := rules_macro [(main, rep0 dot_ 0)].

Example C94_nonvacuous :
  sane_rules label_rules /\ no_recursion (grammar_of label_rules) /\ takes label_rules (s_ "a-b.") /\ ~ takes label_rules (s_ "a-.") /\
  sane_rules stuck_rules /\ no_recursion (grammar_of stuck_rules) /\ takes stuck_rules (s_ "aab") /\ finishes stuck_rules (s_ "aab") /\ ~ finishes stuck_rules (s_ "aa") /\
  closed even_auto /\ deterministic even_auto /\ runs even_auto 0 (s_ "aa") /\ ~ runs even_auto 0 (s_ "a") /\
  takes (flat_rules even_auto) (s_ "aaaa") /\ ~ takes (flat_rules even_auto) (s_ "aaa") /\ matches (automaton_regex even_auto) (s_ "aa") /\
  sane_rules all_rules /\ no_recursion (grammar_of all_rules) /\ forall n, takes all_rules (times n (s_ "(") ++ times n (s_ ")")).
Proof.
  assert (CE : closed even_auto).
  { split; [cbn; lia|]. intros a steps c q I J. destruct I as [E|[E|[]]]; injection E as <- <-; destruct J as [E|[]]; injection E as <- <-; cbn; lia. }
  assert (DE : deterministic even_auto).
  { intros a steps I. destruct I as [E|[E|[]]]; injection E as <- <-; constructor; [intros []|constructor|intros []|constructor]. }
  assert (R2 : runs even_auto 0 (s_ "aa")).
  { eapply runs_step; [reflexivity|left; reflexivity|]. eapply runs_step; [reflexivity|left; reflexivity|]. eapply runs_end. reflexivity. }
  assert (R3 : ~ runs even_auto 0 (s_ "aaa")).
  { intro R. apply (stays_all even_auto CE DE) in R. vm_compute in R. discriminate. }
  assert (SS : sane_rules stuck_rules) by (apply sane_rules_all; repeat constructor).
  assert (NT : forall rs s fuel er, parse fuel s rs = Err er -> ~ takes rs s).
  { intros rs s fuel er E (f & ast & P). destruct (Nat.le_ge_cases fuel f) as [L|L].
    - rewrite (parse_mono fuel f s rs L) in P by congruence. congruence.
    - rewrite (parse_mono f fuel s rs L) in E by congruence. congruence. }
  split; [apply sane_rules_all; repeat constructor|]. split; [apply (downward_ok [main; s_ "part"; s_ "letter"]); vm_compute; reflexivity|].
  split; [exists 40; eexists; vm_compute; reflexivity|]. split; [refine (NT _ _ 40 _ _); vm_compute; reflexivity|].
  split; [exact SS|]. split; [apply (downward_ok [main]); vm_compute; reflexivity|]. split; [exists 40; eexists; vm_compute; reflexivity|]. split; [exists 40; vm_compute; discriminate|].
  split.
  { intro F. apply (parse_terminates_iff _ _ false SS) in F; [|repeat constructor]. destruct F as [r P]. unfold peg_main in P. set (G := grammar_of stuck_rules) in *.
    set (x := Or [lit (s_ "a"); Not (lit (s_ "b"))]). assert (E0 : forall ts, peg G x [] ts -> ts = PMatch [] []).
    { intros ts X. apply (peg_det _ _ _ _ X). apply peg_or_next; [apply peg_lit_fail; discriminate|]. apply peg_or_first; [|discriminate].
      apply (peg_not_ok G _ [] PFail); [apply peg_lit_fail; discriminate|exact I]. }
    assert (P0 : peg G x [] (PMatch [] [])).
    { apply peg_or_next; [apply peg_lit_fail; discriminate|]. apply peg_or_first; [|discriminate]. apply (peg_not_ok G _ [] PFail); [apply peg_lit_fail; discriminate|exact I]. }
    assert (Pa : forall s, peg G x (97%N :: s) (PMatch [Val (s_ "a")] s)).
    { intro s. apply peg_or_first; [|discriminate]. exact (peg_lit_ok G (s_ "a") s). }
    assert (H : forall r, ~ peg G (Repeat x 0 None) (s_ "aa") r).
    { apply (rep_hangs_later G x 0 None (s_ "aa") _ _ ltac:(discriminate) (Pa (s_ "a"))). apply (rep_hangs_later G x 0 None (s_ "a") _ _ ltac:(discriminate) (Pa [])).
      exact (empty_turn G x [] [] P0 0). }
    inversion P as [| | | | | | | | | | | | | | | | | | | | | |n e s r' E P' W|n s E]; subst; [|discriminate E]. injection E as <-. inversion P'; subst; eapply H; eassumption. }
  split; [exact CE|]. split; [exact DE|]. split; [exact R2|]. split; [intro R; apply (stays_all even_auto CE DE) in R; vm_compute in R; discriminate|].
  split; [apply (flat_takes even_auto CE DE); [repeat constructor|]; apply (stays_all even_auto CE DE); vm_compute; reflexivity|].
  split; [intro T; apply (flat_takes even_auto CE DE) in T; [exact (R3 T)|repeat constructor]|]. split; [apply (automaton_regex_ok even_auto CE DE); exact R2|].
  split; [apply sane_rules_all; repeat constructor|]. split; [apply (downward_ok [main]); vm_compute; reflexivity|].
  intro n. set (s := times n (s_ "(") ++ times n (s_ ")")). assert (A : ascii s).
  { assert (X : forall n c, ascii_char c -> ascii (times n [c])) by (intros m c Ac; induction m as [|m IH]; [constructor|constructor; assumption]).
    apply Forall_app. split; apply X; reflexivity. }
  assert (P : peg_main all_rules s (PMatch [Rule main (by_chars s)] [])) by (exact (peg_rule _ main _ s _ eq_refl (all_chars _ s))).
  destruct (proj2 (parse_accepts_iff s all_rules false ltac:(apply sane_rules_all; repeat constructor) A _) P) as [fuel F]. exists fuel. eexists. exact F.
Qed.
