(** Properties: formulas with operators. *)
From Verif Require Import Base ModelAst ModelParser ModelPeg SpecPeg SpecPos SpecApi SpecTable SpecOps.
From Verif Require Import ProofParser ProofEngine ProofApi ProofTable ProofOps.

(** * C69 precedence of operators *)

(** The accepted texts are exactly those of formulas, however deep the brackets and however many the levels, and the tree is that of the formula. *)
Theorem C69_formulas_are_read_exactly : forall cs rg O C ops, ~ in_class cs rg O -> ~ in_class cs rg C ->
  (forall c, In c (concat ops) -> ~ in_class cs rg c /\ c <> C) -> separate ops ->
  forall s debug, ascii s -> forall ast, (exists fuel, parse_with_debug fuel s (ops_rules cs rg O C ops) debug = Ok ast) <->
    exists f, formula_of cs rg ops ops f /\ s = formula_text O C f /\ ast = Rule main [formula_tree O C 0 f].
Proof. exact ops_accepts. Qed.

(** Every text is read as a formula, or rejected with a plain error. *)
Theorem C69_every_text_is_decided : forall cs rg O C ops, ~ in_class cs rg O -> ~ in_class cs rg C ->
  (forall c, In c (concat ops) -> ~ in_class cs rg c /\ c <> C) -> separate ops ->
  forall s debug, ascii s -> exists bound, forall fuel, bound <= fuel ->
  (exists f, formula_of cs rg ops ops f /\ s = formula_text O C f /\
     parse_with_debug fuel s (ops_rules cs rg O C ops) debug = Ok (Rule main [formula_tree O C 0 f])) \/
  ((forall f, formula_of cs rg ops ops f -> s <> formula_text O C f) /\
   exists er, parse_with_debug fuel s (ops_rules cs rg O C ops) debug = Err er /\ e_priority er = Normal).
Proof. exact ops_decides. Qed.

(** A text is the text of one formula only: where an operator binds is never in doubt. *)
Theorem C69_a_text_is_one_formula : forall cs rg O C ops, ~ in_class cs rg O -> ~ in_class cs rg C ->
  (forall c, In c (concat ops) -> ~ in_class cs rg c /\ c <> C) -> separate ops ->
  forall f f', formula_of cs rg ops ops f -> formula_of cs rg ops ops f' -> formula_text O C f = formula_text O C f' -> f = f'.
Proof.
  intros cs rg O C ops NO NC NOP SEP f f' V V' E.
  exact (formula_tree_inj O C f f' 0 (one_formula_tree cs rg O C ops NO NC NOP SEP f f' V V' E)).
Qed.

(** An operator of two levels binds as on the tighter one. *)
Theorem C69_operator_of_two_levels_refuted : exists cs rg O C ops f, ~ in_class cs rg O /\ ~ in_class cs rg C /\
  (forall c, In c (concat ops) -> ~ in_class cs rg c /\ c <> C) /\ formula_of cs rg ops ops f /\ ascii (formula_text O C f) /\
  exists fuel ast, parse fuel (formula_text O C f) (ops_rules cs rg O C ops) = Ok ast /\ ast <> Rule main [formula_tree O C 0 f].
Proof.
  exists (s_ "a"), [], 40%N, 41%N, [s_ "-"; s_ "-"], (Chain (Chain (Number (s_ "a")) []) [(45%N, Chain (Number (s_ "a")) [])]).
  assert (X : forall c, match_char (s_ "a") [] c = false -> ~ in_class (s_ "a") [] c) by (intros c H D; apply match_char_iff in D; congruence).
  split; [apply X; reflexivity|]. split; [apply X; reflexivity|].
  split. { intros c [<-|[<-|[]]]; (split; [apply X; reflexivity|discriminate]). }
  split. { repeat first [discriminate|apply match_char_iff; reflexivity|constructor]. }
  split; [repeat constructor|]. exists 40. eexists. split; [vm_compute; reflexivity|discriminate].
Qed.

(** Sums of products, read with rules written as a grammar text. *)
Definition ops_grammar : str := s_ "main = l
l = ll ([-+] ll)*
ll = lll ([*/] lll)*
lll = number / group
number = [0-9]+
group = '(' l ')'
".

Definition sums : list str := [s_ "-+"; s_ "*/"].
Definition sums_rules : rules := ops_rules [] [(48, 57)]%N 40%N 41%N sums.

Definition a_sum : formula :=     (* 12-3*(4+5)/6 *)
  let n w := Number (s_ w) in let p f := Chain f [] in
  Chain (p (n "12"%string)) [(45%N, Chain (n "3"%string) [(42%N, Group (Chain (p (n "4"%string)) [(43%N, p (n "5"%string))])); (47%N, n "6"%string)])].

Example C69_nonvacuous :
  (exists rs, rules_from_peg 400 ops_grammar = Ok rs /\
     forall n, In n [main; lev 0; lev 1; lev 2; lev 3; nm_number; nm_group; s_ "other"] -> rules_get rs n = rules_get sums_rules n) /\
  ~ in_class [] [(48, 57)]%N 40%N /\ ~ in_class [] [(48, 57)]%N 41%N /\
  (forall c, In c (concat sums) -> ~ in_class [] [(48, 57)]%N c /\ c <> 41%N) /\ separate sums /\
  formula_of [] [(48, 57)]%N sums sums a_sum /\ formula_text 40%N 41%N a_sum = s_ "12-3*(4+5)/6" /\
  parse 99 (s_ "12-3*(4+5)/6") sums_rules = Ok (Rule main [formula_tree 40%N 41%N 0 a_sum]) /\
  (exists er, parse 99 (s_ "12-*3") sums_rules = Err er).
Proof.
  assert (X : forall c, match_char [] [(48, 57)]%N c = false -> ~ in_class [] [(48, 57)]%N c) by (intros c H D; apply match_char_iff in D; congruence).
  split; [eexists; split; [vm_compute; reflexivity|]; intros n [<-|[<-|[<-|[<-|[<-|[<-|[<-|[<-|[]]]]]]]]]; vm_compute; reflexivity|].
  split; [apply X; reflexivity|]. split; [apply X; reflexivity|].
  split. { intros c IN. destruct IN as [<-|[<-|[<-|[<-|[]]]]]; (split; [apply X; reflexivity|discriminate]). }
  split. { split; [|split; [|exact Logic.I]]; intros c IN D; [|contradiction]. destruct IN as [<-|[<-|[]]]; destruct D as [D|[D|[]]]; discriminate. }
  split. { repeat first [discriminate|apply match_char_iff; reflexivity|solve [left; reflexivity]|solve [right; left; reflexivity]|constructor]. }
  split; [reflexivity|]. split; [vm_compute; reflexivity|]. eexists. vm_compute. reflexivity.
Qed.

Print Assumptions C69_formulas_are_read_exactly.
Print Assumptions C69_every_text_is_decided.
Print Assumptions C69_a_text_is_one_formula.
Print Assumptions C69_operator_of_two_levels_refuted.
