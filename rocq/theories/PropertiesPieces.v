(** Properties: pieces of trees. *)
From Verif Require Import Base ModelAst ModelParser SpecPeg SpecPos SpecApi SpecWf SpecBnf SpecTable SpecPower SpecPieces Examples.
From Verif Require Import ProofParser ProofEngine ProofApi ProofAst ProofWf WfCheck ProofBnf ProofPower ProofPieces.

(** * C73 pieces of trees *)

(** A rule node in the tree of a text is what its rule gives alone, on the text from there on: [k] chars of the text stand before the node. *)
Theorem C73_pieces_are_what_their_rules_give : forall rs, sane_rules rs -> no_eof_atom rs -> main_is_start rs ->
  forall fuel s ast debug, parse_with_debug fuel s rs debug = Ok ast -> forall k n kids, n <> main -> piece k (Rule n kids) [ast] ->
  exists rest, skipn k s = flat_map leaves kids ++ rest /\
    exists fuel', parse_with_debug fuel' (skipn k s) (with_main rs (start_with n)) debug = Ok (Rule main (Rule n kids :: by_chars rest)).
Proof. exact piece_alone. Qed.

(** So is it with the rules of a library that the rules contain. *)
Theorem C73_libraries_keep_their_meaning : forall rs, sane_rules rs -> no_eof_atom rs -> main_is_start rs ->
  forall lib fuel s ast debug, parse_with_debug fuel s rs debug = Ok ast ->
  forall k n kids, n <> main -> agree_below n lib rs -> piece k (Rule n kids) [ast] ->
  exists rest, skipn k s = flat_map leaves kids ++ rest /\
    exists fuel', parse_with_debug fuel' (skipn k s) (with_main lib (start_with n)) debug = Ok (Rule main (Rule n kids :: by_chars rest)).
Proof. exact piece_library. Qed.

(** And so is it with the piece of the text that the node spells, if the next char always tells what to do. *)
Theorem C73_pieces_can_be_cut_out : forall rs, sane_rules rs -> no_eof_atom rs -> main_is_start rs ->
  forall fuel s ast debug, parse_with_debug fuel s rs debug = Ok ast -> forall k n kids, n <> main -> piece k (Rule n kids) [ast] ->
  let rs' := with_main rs (ref_rule n) in well_formed (grammar_of rs') -> predictive_grammar (grammar_of rs') ->
  exists fuel', parse_with_debug fuel' (flat_map leaves kids) rs' debug = Ok (Rule main [Rule n kids]).
Proof. exact piece_cut. Qed.

(** In general a piece that is cut out can be read in another way. *)
Theorem C73_cut_out_pieces_refuted : exists rs fuel s ast k n kids, sane_rules rs /\ no_eof_atom rs /\ main_is_start rs /\
  parse fuel s rs = Ok ast /\ n <> main /\ piece k (Rule n kids) [ast] /\ well_formed (grammar_of (with_main rs (ref_rule n))) /\
  exists fuel' t, parse fuel' (flat_map leaves kids) (with_main rs (ref_rule n)) = Ok t /\ t <> Rule main [Rule n kids].
Proof.
  exists [(main, And [ref_rule (s_ "n"); lit (s_ "c")]); (s_ "n", Or [And [Or [lit (s_ "abc"); lit (s_ "a")]; lit (s_ "b")]; lit (s_ "ab")])].
  exists 30, (s_ "abc"), (Rule main [Rule (s_ "n") [Val (s_ "ab")]; Val (s_ "c")]), 0, (s_ "n"), [Val (s_ "ab")].
  split; [apply sane_rules_all; repeat constructor|].
  split; [apply no_eof_all; reflexivity|]. split; [apply main_start_all; repeat constructor|].
  split; [vm_compute; reflexivity|]. split; [discriminate|]. split; [constructor; constructor|].
  split; [apply wf_check_sound; vm_compute; reflexivity|]. exists 30. eexists. split; [vm_compute; reflexivity|discriminate].
Qed.

(** Lists of numbers and lists, and the rules of their items. *)
Definition item_rules : rules := rules_macro
  [ (s_ "list", And [lit (s_ "["); Repeat (And [ref_rule (s_ "item"); Repeat (And [lit (s_ ","); ref_rule (s_ "item")]) 0 None]) 0 (Some 1); lit (s_ "]")]);
    (s_ "item", Or [ref_rule (s_ "list"); Repeat (ematch [] [(48%N, 57%N)]) 1 None]) ].
Definition all_rules : rules := rules_merge [(main, And [ref_rule (s_ "list"); lit (s_ ";")])] item_rules.

Definition item_tables : list (str * info) :=
  [ (main, Info false [(91, Some 91); (48, Some 57)]%N [] true);
    (s_ "list", Info false [(91, Some 91)]%N [(44, Some 44); (93, Some 93)]%N true);
    (s_ "item", Info false [(91, Some 91); (48, Some 57)]%N [(44, Some 44); (93, Some 93)]%N true) ].

Example C73_nonvacuous : sane_rules all_rules /\ no_eof_atom all_rules /\ main_is_start all_rules /\ agree_below (s_ "item") item_rules all_rules /\
  (let item l := Rule (s_ "item") l in let v x := Val (s_ x) in
   parse 90 (s_ "[1,[23]];") all_rules =
     Ok (Rule main [Rule (s_ "list") [v "["; item [v "1"]; v ","; item [Rule (s_ "list") [v "["; item [v "2"; v "3"]; v "]"]]; v "]"]; v ";"]) /\
   piece 4 (item [v "2"; v "3"])
     [Rule main [Rule (s_ "list") [v "["; item [v "1"]; v ","; item [Rule (s_ "list") [v "["; item [v "2"; v "3"]; v "]"]]; v "]"]; v ";"]] /\
   parse 90 (s_ "23]];") (with_main item_rules (start_with (s_ "item"))) = Ok (Rule main (item [v "2"; v "3"] :: by_chars (s_ "]];")))
  )%string /\
  well_formed (grammar_of (with_main all_rules (ref_rule (s_ "item")))) /\ predictive_grammar (grammar_of (with_main all_rules (ref_rule (s_ "item")))).
Proof.
  split; [apply sane_rules_all; repeat constructor|].
  split; [apply no_eof_all; reflexivity|]. split; [apply main_start_all; repeat constructor|].
  split. { intros m X _. unfold all_rules.
    rewrite (proj1 (merge_laws [(main, And [ref_rule (s_ "list"); lit (s_ ";")])] item_rules ltac:(repeat constructor; intros []) ltac:(repeat constructor; cbn; intuition discriminate)) m).
    cbn [rules_get]. rewrite neq_eqb by congruence. reflexivity. }
  split. { cbv zeta. split; [vm_compute; reflexivity|]. split; [|vm_compute; reflexivity].
    apply piece_inside, piece_inside. match goal with |- piece _ ?nd (?t :: ?l) => apply (piece_after 3 nd t l) end. match goal with |- piece _ ?nd (?t :: ?l) => apply (piece_after 2 nd t l) end. match goal with |- piece _ ?nd (?t :: ?l) => apply (piece_after 1 nd t l) end. apply piece_inside, piece_inside. match goal with |- piece _ ?nd (?t :: ?l) => apply (piece_after 0 nd t l) end. apply piece_here. }
  split; [apply wf_check_sound; vm_compute; reflexivity|]. apply (predictive_check_ok item_tables); vm_compute; reflexivity.
Qed.

Print Assumptions C73_pieces_are_what_their_rules_give.
Print Assumptions C73_libraries_keep_their_meaning.
Print Assumptions C73_pieces_can_be_cut_out.
Print Assumptions C73_cut_out_pieces_refuted.
