(** How the pretty output is laid out: C119. *)
From Verif Require Import Base ModelAst ModelParser ModelPegRules ModelPeg ModelDebug ModelPretty SpecPos SpecApi SpecPegApi SpecDocs SpecLayout.
From Verif Require Import ProofParser ProofDebug ProofPretty ProofLayout PropertiesDebug.

(* ---- C119 -------------------------------------------------------------------------------- *)

(** A tree is printed with each child below the other, exactly as the child is printed alone but moved to the right by twelve spaces: four for each
    bracket around it. *)
Theorem C119_children_are_printed_as_alone : forall comma name kids, kids <> [] -> pretty comma 0 (show_node (Rule name kids)) =
  s_ "Rule(" ++ under 4 (s_ "(") ++ under 8 (debug_str name ++ s_ ",") ++ under 8 (s_ "[") ++
  listed comma 12 (map (fun t => pretty comma 0 (show_node t)) kids) ++
  under 8 (s_ "]" ++ last_comma comma) ++ under 4 (s_ ")" ++ last_comma comma) ++ under 0 (s_ ")").
Proof. exact rule_layout. Qed.
Print Assumptions C119_children_are_printed_as_alone.

Theorem C119_values : forall comma v, pretty comma 0 (show_node (Val v)) = s_ "Val(" ++ under 4 (debug_str v ++ last_comma comma) ++ under 0 (s_ ")").
Proof. exact value_layout. Qed.
Print Assumptions C119_values.

(** So for the rules of a rule set, ... *)
Theorem C119_rules_are_printed_as_alone : forall comma entries, entries <> [] -> pretty comma 0 (show_rules entries) =
  s_ "SetOfRules(" ++ under 4 (s_ "{") ++
  listed comma 8 (map (fun p => debug_str (fst p) ++ s_ ": " ++ pretty comma 0 (show_expr (snd p))) entries) ++
  under 4 (s_ "}" ++ last_comma comma) ++ under 0 (s_ ")").
Proof. exact rules_layout. Qed.
Print Assumptions C119_rules_are_printed_as_alone.

(** ... and for the parts of an expression. *)
Theorem C119_parts_are_printed_as_alone : forall comma,
  (forall es, es <> [] -> pretty comma 0 (show_expr (And es)) =
    s_ "And(" ++ under 4 (s_ "MultiExpr(") ++ under 8 (s_ "[") ++ listed comma 12 (map (fun e => pretty comma 0 (show_expr e)) es) ++
    under 8 (s_ "]" ++ last_comma comma) ++ under 4 (s_ ")" ++ last_comma comma) ++ under 0 (s_ ")")) /\
  (forall es, es <> [] -> pretty comma 0 (show_expr (Or es)) =
    s_ "Or(" ++ under 4 (s_ "MultiExpr(") ++ under 8 (s_ "[") ++ listed comma 12 (map (fun e => pretty comma 0 (show_expr e)) es) ++
    under 8 (s_ "]" ++ last_comma comma) ++ under 4 (s_ ")" ++ last_comma comma) ++ under 0 (s_ ")")) /\
  (forall e, pretty comma 0 (show_expr (Not e)) = s_ "Not(" ++ under 4 (pretty comma 0 (show_expr e) ++ last_comma comma) ++ under 0 (s_ ")")) /\
  (forall e mn mx, pretty comma 0 (show_expr (Repeat e mn mx)) =
    s_ "Repeat(" ++ under 4 (s_ "RepInfo {") ++ under 8 (s_ "expression: " ++ pretty comma 0 (show_expr e) ++ s_ ",") ++
    under 8 (s_ "min: NRep(" ++ under 4 (dec mn ++ last_comma comma) ++ under 0 (s_ "),")) ++
    under 8 (s_ "max: " ++ max_text comma mx ++ last_comma comma) ++ under 4 (s_ "}" ++ last_comma comma) ++ under 0 (s_ ")")).
Proof.
  intros comma. split; [|split; [|split]].
  - intros es NE. exact (many_layout comma (s_ "And") es NE eq_refl).
  - intros es NE. exact (many_layout comma (s_ "Or") es NE eq_refl).
  - exact (not_layout comma).
  - exact (repeat_layout comma).
Qed.
Print Assumptions C119_parts_are_printed_as_alone.

(** Strings and chars are printed without line breaks, whatever they contain, ... *)
Theorem C119_strings_stay_on_a_line : forall s, lines_of (debug_str s) = 1.
Proof. intros s. unfold lines_of. f_equal. exact (breaks_flat _ (debug_str_flat s)). Qed.
Print Assumptions C119_strings_stay_on_a_line.

(** ... so that the number of lines of a printed tree depends on its shape only, not on the text parsed. *)
Theorem C119_lines_of_a_tree : forall comma t, lines_of (pretty comma 0 (show_node t)) = tree_lines t.
Proof. exact tree_breaks. Qed.
Print Assumptions C119_lines_of_a_tree.

(** A tree of three nodes with a line break in the text parsed. *)
Example C119_nonvacuous : exists rs t, rules_from_peg 400 (s_ "main = word sep word" ++ nl ++ s_ "word = [a-z]+" ++ nl ++ s_ "sep = ""\n""" ++ nl) = Ok rs /\
  parse 100 (s_ "ab" ++ nl ++ s_ "c") rs = Ok t /\ tree_lines t = 40 /\
  t = Rule (s_ "main") [Rule (s_ "word") [Val (s_ "a"); Val (s_ "b")]; Rule (s_ "sep") [Val nl]; Rule (s_ "word") [Val (s_ "c")]] /\
  lines_of (pretty true 0 (show_node t)) = 40.
Proof. do 2 eexists. split; [vm_compute; reflexivity|]. split; [vm_compute; reflexivity|]. split; [vm_compute; reflexivity|]. split; vm_compute; reflexivity. Qed.
