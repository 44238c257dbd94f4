(** Where a parse gets stuck: what the rules ask for at a place that a parse can reach, and what the text has there instead. *)
From Verif Require Import Base ModelAst ModelParser SpecPeg SpecPos SpecReport.

(** What can stop a parse: an atom that does not match, a predicate, a rule that is not defined, a choice without alternatives. *)
Inductive obstacle : Type :=
| OAtom (a : atom)
| ONot (e : expr)
| OMissing (n : str)
| OChoice.

(** The names of the rules in a tree, in the order of the text; a rule comes before the rules in it. *)
Fixpoint names (x : node) : list str :=
  match x with
  | Rule n l => n :: flat_map names l
  | _ => []
  end.

Section Stuck.
Variable G : str -> option expr.

(** [stuck e s t o rest]: [e], begun on the text [s], comes to the obstacle [o] where [rest] remains; the elements before it in each sequence and
    the turns before it in each repetition have matched, the alternatives before it in each choice have failed, and the rules [t] were entered. *)
Inductive stuck : expr -> str -> list str -> obstacle -> str -> Prop :=
| st_atom a s : stuck (Simple a) s [] (OAtom a) s
| st_not e s : stuck (Not e) s [] (ONot e) s
| st_missing n s : G n = None -> stuck (RuleName n) s [n] (OMissing n) s
| st_choice s : stuck (Or []) s [] OChoice s
| st_and_first e es s t o rest : stuck e s t o rest -> stuck (And (e :: es)) s t o rest
| st_and_next e es s ts s1 t o rest : peg G e s (PMatch ts s1) -> stuck (And es) s1 t o rest ->
    stuck (And (e :: es)) s (flat_map names ts ++ t) o rest
| st_or before e after s t o rest : Forall (fun x => peg G x s PFail) before -> stuck e s t o rest -> stuck (Or (before ++ e :: after)) s t o rest
| st_rep_first e mn mx s t o rest : mx <> Some 0 -> stuck e s t o rest -> stuck (Repeat e mn mx) s t o rest
| st_rep_next e mn mx s ts s1 t o rest : mx <> Some 0 -> peg G e s (PMatch ts s1) ->
    stuck (Repeat e (pred mn) (option_map pred mx)) s1 t o rest -> stuck (Repeat e mn mx) s (flat_map names ts ++ t) o rest
| st_rule n e s t o rest : G n = Some e -> stuck e s t o rest -> stuck (RuleName n) s (n :: t) o rest.

(** [refuses o s d place p]: the obstacle [o] stops a parse where [s] remains, for the reason [d], reported where [place] remains; the priority
    says whether other alternatives are tried. *)
Inductive refuses : obstacle -> str -> str -> str -> prio -> Prop :=
| rf_lit l s place : lit_stops l s place -> refuses (OAtom (Literal l)) s (lit_msg l) place Normal
| rf_class cs rs c s : ~ in_class cs rs c -> refuses (OAtom (Match cs rs)) (c :: s) (class_msg cs rs) s Normal
| rf_class_end cs rs : refuses (OAtom (Match cs rs)) [] (class_msg cs rs) [] Normal
| rf_dot : refuses (OAtom Dot) [] (s_ "dot") [] Normal
| rf_eof c s : refuses (OAtom AEOF) (c :: s) (s_ "expected EOF") s Normal
| rf_error m s : refuses (OAtom (AError m)) s m s Critical
| rf_not e s ts rest : peg G e s (PMatch ts rest) -> refuses (ONot e) s (s_ "not") s Normal
| rf_missing n s : G n = None -> refuses (OMissing n) s (missing_rule_msg n) s Critical
| rf_choice s : refuses OChoice s empty_choice_msg s Normal.

End Stuck.
