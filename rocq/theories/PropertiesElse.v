(** Properties: statements with an optional branch. *)
From Verif Require Import Base ModelAst ModelParser ModelCost SpecPeg SpecPos SpecApi SpecWf SpecComments SpecElse.
From Verif Require Import ProofParser ProofEngine ProofApi ProofComments ProofElse ProofElse2 Examples.

(** * C109 the second branch goes to the nearest statement that can take it *)

(** [stmt = i stmt (e stmt)? / x] accepts exactly the texts of statements: there is always an [i] left for each [e]. *)
Theorem C109_accepted_texts : forall i e x, clear_marks i e x -> forall s debug, ascii s ->
  ((exists fuel ast, parse_with_debug fuel s (optional_rules i e x) debug = Ok ast) <-> (exists t, s = stm_text i e x t)) /\
  ((exists t, s = stm_text i e x t) <-> awaits i e x 0 s).
Proof.
  intros i e x CM s debug A. split; [|exact (counting i e x s)]. split.
  - intros (fuel & ast & F). destruct (proj1 (o_accepts i e x CM s debug A ast) (ex_intro _ fuel F)) as (t & E & _). exists t. exact E.
  - intros (t & E). destruct (one_nearest i e x CM t) as (t' & E' & NE & _).
    destruct (proj2 (o_accepts i e x CM s debug A _) (ex_intro _ t' (conj (eq_trans E (eq_sym E')) (conj NE eq_refl)))) as [fuel F]. exists fuel. eexists. exact F.
Qed.
Print Assumptions C109_accepted_texts.

(** A text can be read as several statements; the tree is the one where each second branch goes to the nearest [i] that can take it. *)
Theorem C109_nearest_wins : forall i e x, clear_marks i e x -> forall s debug, ascii s -> forall ast,
  (exists fuel, parse_with_debug fuel s (optional_rules i e x) debug = Ok ast) <->
  exists t, s = stm_text i e x t /\ nearest t /\ ast = Rule main [stm_tree i e x t].
Proof. exact o_accepts. Qed.
Print Assumptions C109_nearest_wins.

(** There is exactly one such reading of every text of a statement. *)
Theorem C109_one_nearest_reading : forall i e x, clear_marks i e x -> forall t,
  exists t', stm_text i e x t' = stm_text i e x t /\ nearest t' /\ forall u, stm_text i e x u = stm_text i e x t -> nearest u -> u = t'.
Proof. exact one_nearest. Qed.
Print Assumptions C109_one_nearest_reading.

(** All other texts are rejected with a plain error. *)
Theorem C109_other_texts_are_rejected : forall i e x, clear_marks i e x -> forall s debug, ascii s -> (forall t, s <> stm_text i e x t) ->
  exists fuel er, parse_with_debug fuel s (optional_rules i e x) debug = Err er /\ e_priority er = Normal.
Proof. exact o_rejects. Qed.
Print Assumptions C109_other_texts_are_rejected.

(** Statements are read in linear time. *)
Theorem C109_linear_on_statements : forall i e x, clear_marks i e x -> forall s fuel debug t, ascii s -> s = stm_text i e x t ->
  parse_with_debug fuel s (optional_rules i e x) debug <> Fuel ->
  parse_calls fuel s (optional_rules i e x) debug <= 7 * length s.
Proof. exact statement_calls. Qed.
Print Assumptions C109_linear_on_statements.

(** Other texts take quadratic time at most ... *)
Theorem C109_quadratic_on_all_texts : forall i e x, clear_marks i e x -> forall s fuel debug, ascii s ->
  parse_with_debug fuel s (optional_rules i e x) debug <> Fuel ->
  parse_calls fuel s (optional_rules i e x) debug <= 12 * ((length s + 1) * (length s + 1)).
Proof. exact all_calls. Qed.
Print Assumptions C109_quadratic_on_all_texts.

(** ... and some of them take it: each [i] looks again for the branch that is broken. *)
Theorem C109_quadratic_is_needed : forall i e x, clear_marks i e x -> forall n m fuel debug, let s := copies n i ++ x ++ e ++ copies m i in
  ascii s -> parse_with_debug fuel s (optional_rules i e x) debug <> Fuel ->
  n * m <= parse_calls fuel s (optional_rules i e x) debug.
Proof. exact vain_calls. Qed.
Print Assumptions C109_quadratic_is_needed.

(** Written out with the long alternative first, [stmt = i stmt e stmt / i stmt / x] gives the same trees ... *)
Theorem C109_long_alternative_first : forall i e x, clear_marks i e x -> forall s debug, ascii s -> forall ast,
  (exists fuel, parse_with_debug fuel s (long_first_rules i e x) debug = Ok ast) <->
  (exists fuel, parse_with_debug fuel s (optional_rules i e x) debug = Ok ast).
Proof. intros i e x CM s debug A ast. rewrite (l_accepts i e x CM s debug A ast), (o_accepts i e x CM s debug A ast). reflexivity. Qed.
Print Assumptions C109_long_alternative_first.

(** ... in exponential time, on correct texts too. *)
Theorem C109_long_alternative_is_exponential : forall i e x, clear_marks i e x -> forall n fuel debug, let s := copies n i ++ x in
  ascii s -> parse_with_debug fuel s (long_first_rules i e x) debug <> Fuel ->
  2 ^ n <= parse_calls fuel s (long_first_rules i e x) debug.
Proof. exact long_calls. Qed.
Print Assumptions C109_long_alternative_is_exponential.

(** With the short alternative first, [stmt = i stmt / i stmt e stmt / x], no text with a second branch is accepted. *)
Theorem C109_short_alternative_first : forall i e x, clear_marks i e x -> forall s debug, ascii s ->
  ((exists fuel ast, parse_with_debug fuel s (short_first_rules i e x) debug = Ok ast) <-> exists n, s = copies n i ++ x).
Proof. exact s_accepts. Qed.
Print Assumptions C109_short_alternative_first.

Definition mk_if : str := s_ "if c then ".
Definition mk_else : str := s_ " else ".
Definition mk_stmt : str := s_ "s".

(** A text with two readings; the time for seven [i]s. *)
Example C109_nonvacuous : clear_marks mk_if mk_else mk_stmt /\
  (let far := IfElse (If Leaf) Leaf in let near := If (IfElse Leaf Leaf) in
   let s := s_ "if c then if c then s else s" in
   stm_text mk_if mk_else mk_stmt far = s /\ stm_text mk_if mk_else mk_stmt near = s /\ ~ nearest far /\ nearest near /\
   parse 60 s (optional_rules mk_if mk_else mk_stmt) = Ok (Rule main [stm_tree mk_if mk_else mk_stmt near]) /\
   parse 60 s (long_first_rules mk_if mk_else mk_stmt) = Ok (Rule main [stm_tree mk_if mk_else mk_stmt near]) /\
   exists er, parse 60 s (short_first_rules mk_if mk_else mk_stmt) = Err er) /\
  (let s := copies 7 mk_if ++ mk_stmt in
   parse_calls 60 s (optional_rules mk_if mk_else mk_stmt) false = 54 /\ parse_calls 60 s (long_first_rules mk_if mk_else mk_stmt) false = 1785) /\
  (exists er, parse 60 (s_ "if c then s else s else s") (optional_rules mk_if mk_else mk_stmt) = Err er /\ e_priority er = Normal).
Proof.
  split; [split; [split; intros (r & E); discriminate E|discriminate]|]. split; [|split].
  - cbv zeta. split; [reflexivity|]. split; [reflexivity|]. split; [cbn; tauto|]. split; [cbn; tauto|]. split; [vm_compute; reflexivity|]. split; [vm_compute; reflexivity|].
    eexists. vm_compute. reflexivity.
  - cbv zeta. split; vm_compute; reflexivity.
  - eexists. split; [vm_compute; reflexivity|reflexivity].
Qed.
