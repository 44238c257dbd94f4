(** What the list of rules in an error says. *)
From Verif Require Import Base ModelAst ModelParser SpecPeg SpecPos SpecApi.

(** The rules of a tree, parents before children, from left to right. *)
Fixpoint rules_of (nd : node) : list str :=
  match nd with Rule n l => n :: flat_map rules_of l | _ => [] end.

Section Trail.
Variable rs : rules.

(** In the tree, the rules directly below a rule are named in its body. *)
Inductive follows : node -> Prop :=
| fo_rule n e l : rules_get rs n = Some e -> Forall (part e) l -> follows (Rule n l)
with part : expr -> node -> Prop :=
| pa_val e v : part e (Val v)
| pa_eof e : part e EOF
| pa_rule e n l : has_ref n e -> follows (Rule n l) -> part e (Rule n l).

(** The rules that are not finished, the outermost first, each with the trees of what was finished in it: each rule is named in the body of
    the one before, the trees are parts of the body, and only the last rule can be undefined. *)
Inductive unfinished : list (str * list node) -> Prop :=
| un_missing n : rules_get rs n = None -> unfinished [(n, [])]
| un_last n e ts : rules_get rs n = Some e -> Forall (part e) ts -> unfinished [(n, ts)]
| un_more n e ts m us p : rules_get rs n = Some e -> Forall (part e) ts -> has_ref m e -> unfinished ((m, us) :: p) ->
    unfinished ((n, ts) :: (m, us) :: p).

End Trail.

(** The names, in the order in which the rules were entered. *)
Definition entered (p : list (str * list node)) : list str := flat_map (fun x => fst x :: flat_map rules_of (snd x)) p.

(** How errors show the name of a rule. *)
Definition shown_rule (n : str) : str := s_ "r:" ++ n.
