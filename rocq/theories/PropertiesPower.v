(** Properties: what rules can say. *)
From Verif Require Import Base ModelAst ModelParser ModelPeg SpecPeg SpecPos SpecApi SpecLang SpecTable SpecPower Examples.
From Verif Require Import ProofParser ProofEngine ProofApi ProofTable ProofPower.

(** * C70 finite automata *)

(** The rules made from an automaton accept exactly the texts that the automaton accepts, and reject the others with a plain error. *)
Theorem C70_automata_are_rules : forall M, closed M -> forall s debug, ascii s -> exists bound, forall fuel, bound <= fuel ->
  (runs M 0 s /\ exists ast, parse_with_debug fuel s (automaton_rules M) debug = Ok ast) \/
  (~ runs M 0 s /\ exists er, parse_with_debug fuel s (automaton_rules M) debug = Err er /\ e_priority er = Normal).
Proof. exact automaton_decides. Qed.

(** The tree is that of the run where each step is the first one that can work. *)
Theorem C70_the_tree_is_the_first_run : forall M, closed M -> forall s debug, ascii s -> forall ast,
  (exists fuel, parse_with_debug fuel s (automaton_rules M) debug = Ok ast) <-> exists path, first_run M 0 s path /\ ast = Rule main [run_tree 0 s path].
Proof. exact automaton_accepts. Qed.

(** A text has one such run if it has a run at all. *)
Theorem C70_one_first_run : forall M, closed M -> forall s,
  (runs M 0 s <-> exists path, first_run M 0 s path) /\ forall path path', first_run M 0 s path -> first_run M 0 s path' -> path = path'.
Proof. intros M CL s. split; [exact (runs_have_first M CL 0 s (proj1 CL))|]. intros path path' F F'. exact (first_run_det M 0 s path F path' F'). Qed.

(** Words of a and b that end in ab; the automaton has to guess where the end begins. *)
Definition ends_in_ab : automaton := [(false, [(97%N, 0); (98%N, 0); (97%N, 1)]); (false, [(98%N, 2)]); (true, [])].

Example C70_nonvacuous : closed ends_in_ab /\
  (exists rs, rules_from_peg 400 (s_ "main = s
s = 'a' s / 'b' s / 'a' ss
ss = 'b' sss
sss = !.
") = Ok rs /\ rules_get rs (st 0) = rules_get (automaton_rules ends_in_ab) (st 0) /\
     forall s, In s [s_ "abab"; s_ "aba"; s_ "ab"; s_ ""; s_ "c"] -> parse 99 s rs = parse 99 s (automaton_rules ends_in_ab)) /\
  runs ends_in_ab 0 (s_ "abab") /\ first_run ends_in_ab 0 (s_ "abab") [0; 0; 1; 2] /\
  parse 99 (s_ "abab") (automaton_rules ends_in_ab) = Ok (Rule main [run_tree 0 (s_ "abab") [0; 0; 1; 2]]) /\
  ~ runs ends_in_ab 0 (s_ "aba") /\ exists er, parse 99 (s_ "aba") (automaton_rules ends_in_ab) = Err er.
Proof.
  assert (CL : closed ends_in_ab).
  { split; [cbn; lia|]. intros a steps c q [E|[E|[E|[]]]]; injection E as <- <-; intro IN;
      repeat (destruct IN as [IN|IN]; [injection IN as <- <-; cbn; lia|]); destruct IN. }
  assert (P : parse 99 (s_ "abab") (automaton_rules ends_in_ab) = Ok (Rule main [run_tree 0 (s_ "abab") [0; 0; 1; 2]])) by (vm_compute; reflexivity).
  assert (F : first_run ends_in_ab 0 (s_ "abab") [0; 0; 1; 2]).
  { destruct (proj1 (automaton_accepts ends_in_ab CL (s_ "abab") false ltac:(repeat constructor) _) (ex_intro _ 99 P)) as (path & F & E).
    assert (path = [0; 0; 1; 2]) as <-; [|exact F]. apply (run_tree_inj (s_ "abab") 0); [exact (first_run_length _ _ _ _ F)|reflexivity|]. symmetry.
    exact (f_equal (fun t => match t with Rule _ [x] => x | _ => EOF end) E). }
  split; [exact CL|].
  split; [eexists; split; [vm_compute; reflexivity|]; split; [reflexivity|]; intros s IN; repeat (destruct IN as [<-|IN]; [vm_compute; reflexivity|]); destruct IN|].
  split; [apply (proj1 (C70_one_first_run ends_in_ab CL _)); eexists; exact F|]. split; [exact F|]. split; [exact P|].
  assert (Q : exists er, parse 99 (s_ "aba") (automaton_rules ends_in_ab) = Err er) by (eexists; vm_compute; reflexivity).
  split; [|exact Q]. intro R. destruct Q as [er Q].
  destruct (automaton_decides ends_in_ab CL (s_ "aba") false ltac:(repeat constructor)) as [bound H]. destruct (H (bound + 99) ltac:(lia)) as [[_ [ast H']]|[N _]]; [|contradiction].
  destruct (parse_with_debug_mono 99 (bound + 99) (s_ "aba") (automaton_rules ends_in_ab) false ltac:(lia)) as [E|E]; unfold parse in Q; rewrite Q in E; [discriminate|congruence].
Qed.

(** * C71 combinations of parsers *)

(** Texts that are both: the tree is the second one.  Texts that are the second but not the first.  And texts that are one of them, with the first tree if
    there are two. *)
Theorem C71_combinations : forall rs a b s, sane_rules rs -> sane a -> sane b -> main_unused rs [a; b] -> ascii s ->
  finishes (with_main rs a) s -> finishes (with_main rs b) s -> forall ast,
  ((exists fuel, parse fuel s (with_main rs (both a b)) = Ok ast) <-> takes (with_main rs a) s /\ exists fuel, parse fuel s (with_main rs b) = Ok ast) /\
  ((exists fuel, parse fuel s (with_main rs (but_not a b)) = Ok ast) <-> ~ takes (with_main rs a) s /\ exists fuel, parse fuel s (with_main rs b) = Ok ast) /\
  ((exists fuel, parse fuel s (with_main rs (either a b)) = Ok ast) <->
     (exists fuel, parse fuel s (with_main rs a) = Ok ast) \/ ~ takes (with_main rs a) s /\ exists fuel, parse fuel s (with_main rs b) = Ok ast).
Proof. exact combos. Qed.

(** They finish where both parts do. *)
Theorem C71_combinations_finish : forall rs a b s, sane_rules rs -> sane a -> sane b -> main_unused rs [a; b] -> ascii s ->
  finishes (with_main rs a) s -> finishes (with_main rs b) s ->
  finishes (with_main rs (both a b)) s /\ finishes (with_main rs (but_not a b)) s /\ finishes (with_main rs (either a b)) s.
Proof. exact combos_finish. Qed.

(** All other texts. *)
Theorem C71_complement : forall rs a s, sane_rules rs -> sane a -> main_unused rs [a] -> ascii s -> finishes (with_main rs a) s ->
  finishes (with_main rs (complement a)) s /\
  forall ast, (exists fuel, parse fuel s (with_main rs (complement a)) = Ok ast) <-> ~ takes (with_main rs a) s /\ ast = Rule main (by_chars s).
Proof. exact complement_ok. Qed.

(** Without [!.] a predicate looks at the start of the text only, and a plain choice does not come back to its second part. *)
Theorem C71_plain_combinations_refuted : exists rs a b s, sane_rules rs /\ sane a /\ sane b /\ main_unused rs [a; b] /\ ascii s /\
  finishes (with_main rs a) s /\ ~ takes (with_main rs a) s /\ takes (with_main rs b) s /\
  ~ takes (with_main rs (And [Not a; b])) s /\ ~ takes (with_main rs (Or [a; b])) s.
Proof.
  exists [], (lit (s_ "a")), (lit (s_ "ab")), (s_ "ab").
  assert (N : forall e er, parse 20 (s_ "ab") (with_main [] e) = Err er -> ~ takes (with_main [] e) (s_ "ab")).
  { intros e er P (fuel & ast & Q). pose proof (ProofRefactor.parse_same _ _ _ _ _ _ P Q ltac:(discriminate) ltac:(discriminate)). discriminate. }
  split; [intros n e; discriminate|]. split; [exact I|]. split; [exact I|].
  split; [split; [intros n e _; discriminate|]; repeat constructor; intro R; inversion R|]. split; [repeat constructor|].
  split; [exists 20; vm_compute; discriminate|]. split; [eapply N; vm_compute; reflexivity|].
  split; [exists 20; eexists; vm_compute; reflexivity|]. split; eapply N; vm_compute; reflexivity.
Qed.

(** Words and numbers of hexadecimal digits. *)
Definition hex_rules : rules := [(s_ "word", Repeat (ematch [] [(97, 122)]%N) 1 None); (s_ "hex", Repeat (ematch [] [(97, 102); (48, 57)]%N) 1 None)].

Example C71_nonvacuous :
  let a := ref_rule (s_ "word") in let b := ref_rule (s_ "hex") in
  sane_rules hex_rules /\ main_unused hex_rules [a; b] /\ (forall s, In s [s_ "cafe"; s_ "c4"; s_ "cat"; s_ "+"] ->
     ascii s /\ finishes (with_main hex_rules a) s /\ finishes (with_main hex_rules b) s) /\
  takes (with_main hex_rules (both a b)) (s_ "cafe") /\ takes (with_main hex_rules (but_not a b)) (s_ "c4") /\
  takes (with_main hex_rules (either a b)) (s_ "cat") /\ takes (with_main hex_rules (either a b)) (s_ "c4") /\
  (exists er, parse 30 (s_ "c4") (with_main hex_rules (Or [a; b])) = Err er) /\
  takes (with_main hex_rules (complement a)) (s_ "c4") /\ (exists er, parse 30 (s_ "cat") (with_main hex_rules (complement a)) = Err er).
Proof.
  cbv zeta. split; [apply sane_rules_all; repeat constructor|].
  split; [split|].
  - intros n e _. cbn [hex_rules rules_get]. repeat (destruct (str_eqb _ n); [intros [= <-] R; inversion R as [| | | |? ? ? R']; subst; inversion R'|]). discriminate.
  - repeat constructor; intro R; inversion R.
  - split. { intros s IN. repeat (destruct IN as [<-|IN]; [split; [repeat constructor|split; exists 30; vm_compute; discriminate]|]). destruct IN. }
    repeat split; try (exists 30; eexists; vm_compute; reflexivity); eexists; vm_compute; reflexivity.
Qed.

(** * C72 three equal numbers *)

(** Rules can count: the same number, at least one, of three chars.  No BNF grammar generates these texts: C117. *)
Theorem C72_three_equal_numbers : forall x y z, x <> y -> y <> z -> forall s, ascii s ->
  ((exists fuel ast, parse fuel s (three_rules x y z) = Ok ast) <-> exists n, 1 <= n /\ s = times n [x] ++ times n [y] ++ times n [z]) /\
  ((exists fuel er, parse fuel s (three_rules x y z) = Err er) <-> ~ exists n, 1 <= n /\ s = times n [x] ++ times n [y] ++ times n [z]).
Proof. intros x y z XY YZ s A. split; [exact (three_accepts x y z XY YZ s A)|exact (three_rejects x y z XY YZ s A)]. Qed.

(** With two equal neighbours the counts are not told apart. *)
Theorem C72_equal_neighbours_refuted : exists x y z n, 1 <= n /\ ascii (times n [x] ++ times n [y] ++ times n [z]) /\
  exists fuel er, parse fuel (times n [x] ++ times n [y] ++ times n [z]) (three_rules x y z) = Err er.
Proof. exists 97%N, 97%N, 98%N, 1. split; [lia|]. split; [repeat constructor|]. exists 40. eexists. vm_compute. reflexivity. Qed.

Example C72_nonvacuous :
  (exists rs, rules_from_peg 400 (s_ "main = !(!(xy 'c')) 'a'+ yz
xy = 'a' xy 'b' / 'a' 'b'
yz = 'b' yz 'c' / 'b' 'c'
") = Ok rs /\ forall s, In s [s_ "abc"; s_ "aaabbbccc"; s_ "aabbbccc"; s_ "aabbc"; s_ ""] ->
     parse 60 s rs = parse 60 s (three_rules 97%N 98%N 99%N)) /\
  (exists t, parse 60 (s_ "aaabbbccc") (three_rules 97%N 98%N 99%N) = Ok t) /\ (exists er, parse 60 (s_ "aabbc") (three_rules 97%N 98%N 99%N) = Err er) /\
  (exists t, parse 60 (s_ "aabbaa") (three_rules 97%N 98%N 97%N) = Ok t).
Proof.
  split; [eexists; split; [vm_compute; reflexivity|]; intros s IN; repeat (destruct IN as [<-|IN]; [vm_compute; reflexivity|]); destruct IN|].
  repeat split; eexists; vm_compute; reflexivity.
Qed.

Print Assumptions C70_automata_are_rules.
Print Assumptions C70_the_tree_is_the_first_run.
Print Assumptions C70_one_first_run.
Print Assumptions C71_combinations.
Print Assumptions C71_combinations_finish.
Print Assumptions C71_complement.
Print Assumptions C71_plain_combinations_refuted.
Print Assumptions C72_three_equal_numbers.
Print Assumptions C72_equal_neighbours_refuted.
