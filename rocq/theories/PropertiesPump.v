(** Properties: long texts, and what predicates add. *)
From Verif Require Import Base ModelAst ModelParser SpecPeg SpecPos SpecApi SpecWf SpecLang SpecTable SpecBnf SpecPower Examples.
From Verif Require Import ProofParser ProofEngine ProofApi ProofWf WfCheck ProofBnf ProofPower ProofPump ProofPump2 ProofPump3 PropertiesPower.

(** * C117 long texts have parts that can be repeated, unless there are predicates *)

(** Read as BNF, a grammar generates, with each text that is long enough, all texts where two parts of it (one of them may be empty), near
    each other, are left out, or repeated equally often. *)
Theorem C117_long_generated_texts_repeat : forall rs e, exists p, forall s ts, derives (grammar_of rs) e s ts -> p < length s ->
  exists a u w v b, s = a ++ u ++ w ++ v ++ b /\ u ++ v <> [] /\ length (u ++ w ++ v) <= p /\
    forall n, exists us, derives (grammar_of rs) e (a ++ times n u ++ w ++ times n v ++ b) us.
Proof. exact generated_near. Qed.

(** So do rules where the next char always tells what to do. *)
Theorem C117_long_accepted_texts_repeat : forall rs,
  sane_rules rs -> well_formed (grammar_of rs) -> predictive_grammar (grammar_of rs) ->
  exists p, forall s, takes rs s -> p < length s ->
  exists a u w v b, s = a ++ u ++ w ++ v ++ b /\ u ++ v <> [] /\ length (u ++ w ++ v) <= p /\ forall n, takes rs (a ++ times n u ++ w ++ times n v ++ b).
Proof. exact predictive_near. Qed.

(** Hence neither can ask for three equal numbers, as the rules of C72 do with a predicate: with all these texts there are others. *)
Theorem C117_three_equal_numbers_are_not_generated : forall rs e x y z, x <> y -> y <> z -> x <> z ->
  (forall n, 1 <= n -> exists ts, derives (grammar_of rs) e (times n [x] ++ times n [y] ++ times n [z]) ts) ->
  exists s ts, derives (grammar_of rs) e s ts /\ ~ exists n, 1 <= n /\ s = times n [x] ++ times n [y] ++ times n [z].
Proof.
  intros rs e x y z XY YZ XZ H. destruct (generated_pump rs e) as (p & P).
  destruct (three_and_more x y z XY YZ XZ (fun s => exists ts, derives (grammar_of rs) e s ts) p H) as (s & (ts & D) & N); [|exists s, ts; split; assumption].
  intros s (ts & D) L. exact (P s ts D L).
Qed.

Theorem C117_three_equal_numbers_need_more : forall rs x y z, x <> y -> y <> z -> x <> z ->
  sane_rules rs -> well_formed (grammar_of rs) -> predictive_grammar (grammar_of rs) ->
  (forall n, 1 <= n -> takes rs (times n [x] ++ times n [y] ++ times n [z])) ->
  exists s, takes rs s /\ ~ exists n, 1 <= n /\ s = times n [x] ++ times n [y] ++ times n [z].
Proof.
  intros rs x y z XY YZ XZ SR WF PG H. destruct (predictive_pump rs SR WF PG) as (p & P).
  exact (three_and_more x y z XY YZ XZ (takes rs) p H P).
Qed.

(** Nor can they ask for a text to come again, as the name of an opening tag in the closing tag: with all [t m t], for the texts [t] of two
    chars, there are others. *)
Theorem C117_copies_are_not_generated : forall rs e x y m, x <> y -> x <> m -> y <> m ->
  (forall t, Forall (fun c => c = x \/ c = y) t -> exists ts, derives (grammar_of rs) e (t ++ m :: t) ts) ->
  exists s ts, derives (grammar_of rs) e s ts /\ ~ exists t, Forall (fun c => c = x \/ c = y) t /\ s = t ++ m :: t.
Proof.
  intros rs e x y m XY XM YM H. destruct (generated_near rs e) as (p & P).
  destruct (copies_and_more x y m XY XM YM (fun s => exists ts, derives (grammar_of rs) e s ts) p) as (s & (ts & D) & N); [| |exists s, ts; split; assumption].
  - intros s (t & F & ->). exact (H t F).
  - intros s (ts & D) L. exact (P s ts D L).
Qed.

Theorem C117_copies_need_more : forall rs x y m, x <> y -> x <> m -> y <> m ->
  sane_rules rs -> well_formed (grammar_of rs) -> predictive_grammar (grammar_of rs) ->
  (forall t, Forall (fun c => c = x \/ c = y) t -> takes rs (t ++ m :: t)) ->
  exists s, takes rs s /\ ~ exists t, Forall (fun c => c = x \/ c = y) t /\ s = t ++ m :: t.
Proof.
  intros rs x y m XY XM YM SR WF PG H. destruct (predictive_near rs SR WF PG) as (p & P).
  refine (copies_and_more x y m XY XM YM (takes rs) p _ P). intros s (t & F & ->). exact (H t F).
Qed.

(** In general long accepted texts do not repeat: with a predicate, no text of the rules of C72, however long, has such parts. *)
Theorem C117_long_accepted_texts_repeat_refuted : exists rs, sane_rules rs /\ well_formed (grammar_of rs) /\
  (forall p, exists s, p < length s /\ takes rs s) /\
  forall s a u w v b, takes rs s -> s = a ++ u ++ w ++ v ++ b -> u ++ v <> [] -> ~ forall n, takes rs (a ++ times n u ++ w ++ times n v ++ b).
Proof.
  assert (K : forall s, takes (three_rules 97%N 98%N 99%N) s <-> exists n, 1 <= n /\ s = three 97%N 98%N 99%N n).
  { intro s. split.
    - intro T. assert (A := taken_ascii _ s T).
      exact (proj1 (proj1 (C72_three_equal_numbers 97%N 98%N 99%N ltac:(discriminate) ltac:(discriminate) s A)) T).
    - intros (n & N & ->). assert (A : ascii (three 97%N 98%N 99%N n)).
      { unfold three. apply Forall_app; split; [|apply Forall_app; split]; apply ascii_times; repeat constructor. }
      apply (proj1 (C72_three_equal_numbers 97%N 98%N 99%N ltac:(discriminate) ltac:(discriminate) _ A)). exists n. split; [exact N|reflexivity]. }
  exists (three_rules 97%N 98%N 99%N). split; [apply sane_rules_all; repeat constructor|]. split; [apply wf_check_sound; vm_compute; reflexivity|]. split.
  - intro p. exists (three 97%N 98%N 99%N (S p)). split; [rewrite three_length; lia|]. apply K. exists (S p). split; [lia|reflexivity].
  - intros s a u w v b T E N H. apply K in T. destruct T as (n & _ & ->). destruct (proj1 (K _) (H 0)) as (k & _ & Ek). destruct (proj1 (K _) (H 2)) as (m & _ & Em).
    cbn [times app] in Ek, Em. rewrite !app_nil_r in Em.
    exact (three_do_not_repeat 97%N 98%N 99%N ltac:(discriminate) ltac:(discriminate) ltac:(discriminate) a u w v b k m n (eq_sym E) N Ek Em).
Qed.

(** Two equal numbers: [main = 'a' main 'b' / 'c']. *)
Definition two_rules : rules := rules_macro [(main, Or [And [lit (s_ "a"); ref_rule main; lit (s_ "b")]; lit (s_ "c")])].
Definition two_tables : list (str * info) := [(main, Info false [(97, Some 97); (99, Some 99)]%N [(98, Some 98)]%N true)].

Example C117_nonvacuous :
  sane_rules two_rules /\ well_formed (grammar_of two_rules) /\ predictive_grammar (grammar_of two_rules) /\
  (forall n, takes two_rules (times n (s_ "a") ++ s_ "c" ++ times n (s_ "b"))) /\
  (exists rs, (forall n, 1 <= n -> takes rs (times n (s_ "a") ++ times n (s_ "b") ++ times n (s_ "c"))) /\ sane_rules rs /\
     (forall t, Forall (fun c => c = 97%N \/ c = 98%N) t -> takes rs (t ++ 99%N :: t)) /\
     well_formed (grammar_of rs) /\ predictive_grammar (grammar_of rs)).
Proof.
  assert (SR : sane_rules two_rules) by (apply sane_rules_all; repeat constructor).
  assert (W : well_formed (grammar_of two_rules)) by (apply wf_check_sound; vm_compute; reflexivity).
  assert (Q : predictive_grammar (grammar_of two_rules)) by (apply (predictive_check_ok two_tables); vm_compute; reflexivity).
  split; [exact SR|]. split; [exact W|]. split; [exact Q|]. split.
  - intro n. assert (A : ascii (times n (s_ "a") ++ s_ "c" ++ times n (s_ "b"))).
    { apply Forall_app; split; [apply ascii_times; repeat constructor|]. apply Forall_app; split; [repeat constructor|apply ascii_times; repeat constructor]. }
    assert (D : exists t, derives (grammar_of two_rules) (RuleName main) (times n (s_ "a") ++ s_ "c" ++ times n (s_ "b")) [t]).
    { clear A. induction n as [|n (t & D)].
      - eexists. eapply d_rule; [reflexivity|]. eapply (d_or _ (lit (s_ "c"))); [right; left; reflexivity|]. exact (d_lit _ (s_ "c")).
      - eexists. eapply d_rule; [reflexivity|]. eapply (d_or _ (And [lit (s_ "a"); ref_rule main; lit (s_ "b")])); [left; reflexivity|].
        change (times (S n) (s_ "a")) with (s_ "a" ++ times n (s_ "a")). rewrite (times_snoc n (s_ "b")).
        replace ((s_ "a" ++ times n (s_ "a")) ++ s_ "c" ++ times n (s_ "b") ++ s_ "b")
          with (s_ "a" ++ (times n (s_ "a") ++ s_ "c" ++ times n (s_ "b")) ++ s_ "b" ++ []) by (rewrite <- !app_assoc, app_nil_r; reflexivity).
        apply d_and_cons; [exact (d_lit _ (s_ "a"))|]. apply d_and_cons; [exact D|]. apply d_and_cons; [exact (d_lit _ (s_ "b"))|constructor]. }
    destruct D as (t & D). exact (generated_taken two_rules _ t SR W Q A D).
  - assert (ALL : forall s, ascii s -> takes [(main, rep0 dot_ 0)] s).
    { intros s A. destruct (proj2 (parse_accepts_iff s [(main, rep0 dot_ 0)] false (sane_rules_all [(main, rep0 dot_ 0)] ltac:(repeat constructor)) A (Rule main (by_chars s)))) as (fuel & E).
      - unfold peg_main. exact (peg_rule _ main (rep0 dot_ 0) _ (PMatch _ []) eq_refl (all_chars _ _)).
      - exists fuel. eexists. exact E. }
    exists [(main, rep0 dot_ 0)]. split; [|split; [apply sane_rules_all; repeat constructor|split; [|split; [apply wf_check_sound; vm_compute; reflexivity|]]]].
    + intros n _. apply ALL. apply Forall_app; split; [|apply Forall_app; split]; apply ascii_times; repeat constructor.
    + intros t F. apply ALL. assert (X : ascii t) by (eapply Forall_impl; [|exact F]; cbn; intros c [-> | ->]; reflexivity). apply Forall_app. split; [exact X|]. constructor; [reflexivity|exact X].
    + apply (predictive_check_ok [(main, Info true [(0, None)]%N [] true)]). vm_compute. reflexivity.
Qed.

Print Assumptions C117_long_generated_texts_repeat.
Print Assumptions C117_long_accepted_texts_repeat.
Print Assumptions C117_three_equal_numbers_are_not_generated.
Print Assumptions C117_three_equal_numbers_need_more.
Print Assumptions C117_long_accepted_texts_repeat_refuted.
Print Assumptions C117_copies_are_not_generated.
Print Assumptions C117_copies_need_more.
