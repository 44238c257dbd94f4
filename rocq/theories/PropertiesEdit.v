(** Properties: exchanging a piece of a tree, or of a text. *)
From Verif Require Import Base ModelAst ModelParser SpecPeg SpecPos SpecApi SpecWf SpecBnf SpecPower SpecPieces SpecEdit Examples.
From Verif Require Import ProofParser ProofEngine ProofApi ProofWf WfCheck ProofBnf ProofPower ProofPieces ProofEdit.

(** * C104 texts and trees can be edited *)

(** Where the next char always tells what to do: if a node of the tree of a text is exchanged for a node of the same name from the tree of any
    text, the new tree is that of the new text, and this is the old text with the leaves of the new node in place of those of the old one. *)
Theorem C104_pieces_can_be_exchanged : forall rs, sane_rules rs -> no_eof_atom rs -> well_formed (grammar_of rs) -> predictive_grammar (grammar_of rs) ->
  forall fuel s debug ast fuel2 s2 debug2 ast2, parse_with_debug fuel s rs debug = Ok ast -> parse_with_debug fuel2 s2 rs debug2 = Ok ast2 ->
  forall n us vs k k2 ast', exchanged (Rule n us) (Rule n vs) k [ast] [ast'] -> piece k2 (Rule n vs) [ast2] ->
  forall debug', exists fuel', parse_with_debug fuel' (edit s k (length (flat_map leaves us)) (flat_map leaves vs)) rs debug' = Ok ast'.
Proof. intros rs SR NE WF PG fuel s debug ast fuel2 s2 debug2 ast2 P P2. exact (edit_pieces rs SR NE WF PG fuel s debug ast fuel2 s2 debug2 ast2 P P2). Qed.
Print Assumptions C104_pieces_can_be_exchanged.

(** To parse a text after an edit of what one node spells, it is enough to parse the new part with the rule of the node: the rest of the tree
    stays. *)
Theorem C104_edits_need_no_new_parse : forall rs, sane_rules rs -> no_eof_atom rs -> well_formed (grammar_of rs) -> predictive_grammar (grammar_of rs) ->
  main_is_start rs ->
  forall fuel s debug ast, parse_with_debug fuel s rs debug = Ok ast ->
  forall n us vs k fuel2 w debug2, n <> main -> parse_with_debug fuel2 w (with_main rs (ref_rule n)) debug2 = Ok (Rule main [Rule n vs]) ->
  forall ast', exchanged (Rule n us) (Rule n vs) k [ast] [ast'] ->
  forall debug', exists fuel', parse_with_debug fuel' (edit s k (length (flat_map leaves us)) w) rs debug' = Ok ast'.
Proof. intros rs SR NE WF PG MS fuel s debug ast P. exact (edit_text rs SR NE WF PG MS fuel s debug ast P). Qed.
Print Assumptions C104_edits_need_no_new_parse.

(** Every node can be exchanged, and the text changes only there. *)
Theorem C104_every_node_can_be_exchanged : forall u v k l, piece k u l ->
  exists l', exchanged u v k l l' /\ flat_map leaves l' = edit (flat_map leaves l) k (length (leaves u)) (leaves v) /\
    flat_map leaves l = edit (flat_map leaves l) k (length (leaves u)) (leaves u).
Proof.
  intros u v k l H. destruct (piece_exchanged u k l H v) as [l' E]. exists l'. split; [exact E|]. split; [exact (exchanged_edit u v k l l' E)|].
  destruct (exchanged_text u v k l l' E) as (a & b & E1 & _ & L). unfold edit. rewrite E1 at 1. rewrite E1, <- L.
  rewrite firstn_app, firstn_all, Nat.sub_diag, firstn_O, app_nil_r. f_equal. f_equal.
  rewrite app_assoc, <- app_length, skipn_app, skipn_all, Nat.sub_diag. reflexivity.
Qed.
Print Assumptions C104_every_node_can_be_exchanged.

(** [main = w 'bc' / '=' w],  [w = 'ab' / 'a']. *)
Definition jar_rules : rules := rules_macro
  [ (main, Or [And [ref_rule (s_ "w"); lit (s_ "bc")]; And [lit (s_ "="); ref_rule (s_ "w")]]); (s_ "w", Or [lit (s_ "ab"); lit (s_ "a")]) ].

(** In general, a text with an exchanged piece can be rejected. *)
Theorem C104_exchange_in_general_refuted : exists rs s ast s2 ast2 n us vs k k2 ast', sane_rules rs /\ no_eof_atom rs /\ well_formed (grammar_of rs) /\
  parse 100 s rs = Ok ast /\ parse 100 s2 rs = Ok ast2 /\ exchanged (Rule n us) (Rule n vs) k [ast] [ast'] /\ piece k2 (Rule n vs) [ast2] /\
  exists er, parse 100 (edit s k (length (flat_map leaves us)) (flat_map leaves vs)) rs = Err er.
Proof.
  exists jar_rules, (s_ "abbc"). eexists. exists (s_ "=a"). eexists. exists (s_ "w"), [Val (s_ "ab")], [Val (s_ "a")], 0, 1. eexists.
  split; [apply sane_rules_all; repeat constructor|]. split; [apply no_eof_all; reflexivity|]. split; [apply wf_check_sound; vm_compute; reflexivity|].
  split; [vm_compute; reflexivity|]. split; [vm_compute; reflexivity|]. split; [apply ex_inside, ex_here|]. split; [|eexists; vm_compute; reflexivity].
  apply piece_inside. apply (piece_after 0 _ (Val (s_ "="))). apply piece_here.
Qed.
Print Assumptions C104_exchange_in_general_refuted.

(** Lists of numbers and lists. *)
Definition edit_rules : rules := rules_macro
  [ (main, And [ref_rule (s_ "list")]);
    (s_ "list", And [lit (s_ "["); Repeat (And [ref_rule (s_ "item"); Repeat (And [lit (s_ ","); ref_rule (s_ "item")]) 0 None]) 0 (Some 1); lit (s_ "]")]);
    (s_ "item", Or [ref_rule (s_ "list"); Repeat (ematch [] [(48%N, 57%N)]) 1 None]) ].
Definition edit_tables : list (str * info) :=
  [ (main, Info false [(91, Some 91)]%N [] true);
    (s_ "list", Info false [(91, Some 91)]%N [(44, Some 44); (93, Some 93)]%N true);
    (s_ "item", Info false [(91, Some 91); (48, Some 57)]%N [(44, Some 44); (93, Some 93)]%N false) ].

Example C104_nonvacuous : sane_rules edit_rules /\ no_eof_atom edit_rules /\ well_formed (grammar_of edit_rules) /\ predictive_grammar (grammar_of edit_rules) /\
  main_is_start edit_rules /\
  (let item l := Rule (s_ "item") l in let list l := Rule (s_ "list") l in let v x := Val (s_ x) in
   let new := [list [v "["; item [v "7"]; v "]"]] in
   parse 90 (s_ "[1,23]") edit_rules = Ok (Rule main [list [v "["; item [v "1"]; v ","; item [v "2"; v "3"]; v "]"]]) /\
   parse 90 (s_ "[7]") (with_main edit_rules (ref_rule (s_ "item"))) = Ok (Rule main [item new]) /\
   exchanged (item [v "2"; v "3"]) (item new) 3 [Rule main [list [v "["; item [v "1"]; v ","; item [v "2"; v "3"]; v "]"]]]
     [Rule main [list [v "["; item [v "1"]; v ","; item new; v "]"]]] /\
   edit (s_ "[1,23]") 3 2 (s_ "[7]") = s_ "[1,[7]]" /\
   parse 90 (s_ "[1,[7]]") edit_rules = Ok (Rule main [list [v "["; item [v "1"]; v ","; item new; v "]"]]))%string.
Proof.
  split; [apply sane_rules_all; repeat constructor|]. split; [apply no_eof_all; reflexivity|]. split; [apply wf_check_sound; vm_compute; reflexivity|].
  split; [apply (predictive_check_ok edit_tables); vm_compute; reflexivity|]. split; [apply main_start_all; repeat constructor|].
  cbv zeta. split; [vm_compute; reflexivity|]. split; [vm_compute; reflexivity|]. split; [|split; vm_compute; reflexivity].
  apply ex_inside, ex_inside. apply (ex_after _ _ 2 (Val (s_ "["))). apply (ex_after _ _ 1 (Rule (s_ "item") [Val (s_ "1")])). apply (ex_after _ _ 0 (Val (s_ ","))). apply ex_here.
Qed.
