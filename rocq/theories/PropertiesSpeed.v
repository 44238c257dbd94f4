(** Properties: the time automata and regular expressions take. *)
From Verif Require Import Base ModelAst ModelParser ModelCost SpecPeg SpecPos SpecApi SpecPower SpecRegex SpecSpeed Examples.
From Verif Require Import ProofParser ProofEngine ProofApi ProofSpeed.

(** * C84 the time automata and regular expressions take *)

(** When each char leads to one state, the number of calls is at most proportional to the length of the text, matched or not .. *)
Theorem C84_deterministic_automata_are_linear : forall M, closed M -> deterministic M -> forall s debug fuel, ascii s ->
  parse_with_debug fuel s (automaton_rules M) debug <> Fuel -> parse_calls fuel s (automaton_rules M) debug <= (2 * most_steps M + 4) * (length s + 1).
Proof. exact deterministic_fast. Qed.
Print Assumptions C84_deterministic_automata_are_linear.

(** .. and any automaton can be written like that. *)
Theorem C84_automata_can_be_deterministic : forall M, closed M ->
  closed (determinized M) /\ deterministic (determinized M) /\ forall s, runs (determinized M) 0 s <-> runs M 0 s.
Proof. exact det_same_all. Qed.
Print Assumptions C84_automata_can_be_deterministic.

(** So there are rules for each regular expression that take 260 calls per char at most. *)
Theorem C84_regexes_can_be_linear : forall r s debug, ascii s -> exists bound, forall fuel, bound <= fuel ->
  ((matches r s /\ exists ast, parse_with_debug fuel s (fast_rules r) debug = Ok ast) \/
   (~ matches r s /\ exists er, parse_with_debug fuel s (fast_rules r) debug = Err er /\ e_priority er = Normal)) /\
  parse_calls fuel s (fast_rules r) debug <= 260 * (length s + 1).
Proof. exact fast_regex. Qed.
Print Assumptions C84_regexes_can_be_linear.

(** When a char can lead to two states, each char can double the number of calls .. *)
Theorem C84_other_automata_linear_refuted : exists M, closed M /\ forall n debug fuel, parse_with_debug fuel (many_a_then_b n) (automaton_rules M) debug <> Fuel ->
  2 ^ n <= parse_calls fuel (many_a_then_b n) (automaton_rules M) debug.
Proof.
  exists twice_auto. split; [|exact twice_slow]. split; [cbn; lia|]. intros a steps c q [H|[]] I. injection H as <- <-. destruct I as [I|[I|[]]]; injection I as <- <-; cbn; lia.
Qed.
Print Assumptions C84_other_automata_linear_refuted.

(** .. as it does for [(a|a)*] written as rules, one rule per repetition. *)
Theorem C84_other_regex_rules_linear_refuted : forall n debug fuel, parse_with_debug fuel (many_a_then_b n) (regex_rules twice_a) debug <> Fuel ->
  2 ^ n <= parse_calls fuel (many_a_then_b n) (regex_rules twice_a) debug.
Proof. exact twice_regex_slow. Qed.
Print Assumptions C84_other_regex_rules_linear_refuted.

(** An automaton for the texts whose last char but one is a, over a and b: it is not deterministic. The calls for 8 chars; the calls for [(a|a)*]. *)
Definition last_but_one : automaton := [(false, [(97%N, 0); (98%N, 0); (97%N, 1)]); (false, [(97%N, 2); (98%N, 2)]); (true, [])].

Example C84_nonvacuous : closed last_but_one /\ ~ deterministic last_but_one /\ length (determinized last_but_one) = 9 /\ most_steps (determinized last_but_one) = 2 /\
  (exists t, parse 200 (s_ "bbababab") (automaton_rules (determinized last_but_one)) = Ok t) /\
  (exists er, parse 200 (s_ "bbababba") (automaton_rules (determinized last_but_one)) = Err er) /\
  parse_calls 200 (s_ "bbababba") (automaton_rules (determinized last_but_one)) false = 58 /\
  parse_with_debug 200 (many_a_then_b 5) (regex_rules twice_a) false <> Fuel /\ parse_calls 200 (many_a_then_b 5) (regex_rules twice_a) false = 567 /\
  parse_calls 200 (many_a_then_b 5) (fast_rules twice_a) false = 36 /\ length (fast_rules twice_a) = 10.
Proof.
  split; [split; [cbn; lia|]; intros a steps c q H I; cbn in H; repeat (destruct H as [H|H]; [injection H as <- <-; cbn in I; repeat (destruct I as [I|I]; [injection I as <- <-; cbn; lia|]); destruct I|]); destruct H|].
  split; [intro D; specialize (D _ _ (or_introl eq_refl)); inversion D as [|? ? N _]; apply N; right; left; reflexivity|].
  split; [reflexivity|]. split; [reflexivity|]. split; [vm_compute; eexists; reflexivity|]. split; [vm_compute; eexists; reflexivity|].
  split; [vm_compute; reflexivity|]. split; [vm_compute; discriminate|]. split; [vm_compute; reflexivity|]. split; vm_compute; reflexivity.
Qed.
