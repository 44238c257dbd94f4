(** Properties: what an error says is true. *)
From Verif Require Import Base ModelAst ModelParser SpecPeg SpecPos SpecApi SpecReport SpecStuck Examples.
From Verif Require Import ProofParser ProofEngine ProofApi ProofHang ProofStuck.

(** * C64 errors are truthful *)

(** Whatever an error says, the rules really ask for it at a place that the parse reaches, the text does not have it there, the error stands there,
    and its trace lists the rules entered on the way: those of the parts already matched, in the order of the text, and those being matched.
    Or main has matched, and text is left over. *)
Theorem C64_errors_are_truthful : forall rs fuel s debug er, sane_rules rs -> ascii s -> parse_with_debug fuel s rs debug = Err er ->
  (exists t o rest d place p, stuck (grammar_of rs) (RuleName main) s t o rest /\ refuses (grammar_of rs) o rest d place p /\
     er = error_at s debug p (Report d place t)) \/
  (exists ts c rest, peg_main rs s (PMatch ts (c :: rest)) /\
     er = error_at s debug Normal (Report (s_ "not consumed full input") (c :: rest) (flat_map names ts))).
Proof. exact errors_truthful. Qed.

(** The critical errors are exactly the obstacles of the critical kind that the parse reaches: [error(..)] and rules that are not defined. *)
Theorem C64_critical_obstacles_decide : forall rs s debug er, sane_rules rs -> ascii s -> e_priority er = Critical ->
  ((exists fuel, parse_with_debug fuel s rs debug = Err er) <->
   (exists t o rest d place, stuck (grammar_of rs) (RuleName main) s t o rest /\ refuses (grammar_of rs) o rest d place Critical /\
      er = error_at s debug Critical (Report d place t))).
Proof. exact critical_exact. Qed.

(** [main = (item ',')+ end; item = [0-9]+; end = '.' / !'x' error("dot missing")]. *)
Definition stuck_rules : rules := rules_macro
  [(main, And [Repeat (And [ref_rule (s_ "item"); lit (s_ ",")]) 1 None; ref_rule (s_ "end")]);
   (s_ "item", Repeat (Simple (Match [] [(48%N, 57%N)])) 1 None);
   (s_ "end", Or [lit (s_ "."); And [Not (lit (s_ "x")); Simple (AError (s_ "dot missing"))]])].

(** A missing dot, missing digits, and an x where the dot is expected. *)
Example C64_nonvacuous : sane_rules stuck_rules /\
  parse_debug 99 (s_ "1,?") stuck_rules =
    Err (PError (Pos 2 0 2 0) (s_ "dot missing") (s_ "1,") (s_ "?") (map (fun n => s_ "r:" ++ n) [main; s_ "item"; s_ "end"]) Critical) /\
  parse_debug 99 (s_ "?") stuck_rules =
    Err (PError (Pos 1 0 1 0) (class_msg [] [(48%N, 57%N)]) (s_ "?") [] (map (fun n => s_ "r:" ++ n) [main; s_ "item"]) Normal) /\
  parse_debug 99 (s_ "1,2,x") stuck_rules =
    Err (PError (Pos 5 0 5 0) (s_ "expected literal: <.>") (s_ "1,2,x") [] (map (fun n => s_ "r:" ++ n) [main; s_ "item"; s_ "item"; s_ "end"]) Normal).
Proof. split; [apply sane_rules_all; repeat constructor|]. repeat split; vm_compute; reflexivity. Qed.

(** The obstacle of the first of them. *)
Example C64_nonvacuous_obstacle : let G := grammar_of stuck_rules in
  stuck G (RuleName main) (s_ "1,?") [main; s_ "item"; s_ "end"] (OAtom (AError (s_ "dot missing"))) (s_ "?") /\
  refuses G (OAtom (AError (s_ "dot missing"))) (s_ "?") (s_ "dot missing") (s_ "?") Critical.
Proof.
  cbv zeta. split; [|apply rf_error]. eapply st_rule; [reflexivity|].
  apply (st_and_next _ _ _ _ [Rule (s_ "item") [Val (s_ "1")]; Val (s_ ",")] (s_ "?") [s_ "end"]).
  - apply (ev_peg _ 99). vm_compute. reflexivity.
  - apply st_and_first. eapply st_rule; [reflexivity|].
    apply (st_or _ [lit (s_ ".")] (And [Not (lit (s_ "x")); Simple (AError (s_ "dot missing"))]) []).
    + constructor; [|constructor]. apply (ev_peg _ 9). vm_compute. reflexivity.
    + apply (st_and_next _ _ _ _ [] (s_ "?") []); [|apply st_and_first, st_atom]. apply (ev_peg _ 9). vm_compute. reflexivity.
Qed.

Print Assumptions C64_errors_are_truthful.
Print Assumptions C64_critical_obstacles_decide.
