(** Left-recursive definitions and the repetitions that replace them. *)
From Verif Require Import Base ModelAst ModelParser SpecPeg SpecBnf.

(** [a = a x1 / a x2 / .. / b1 / b2 / ..]: a rule in terms of itself, as in a textbook. *)
Definition left_recursive (a : str) (steps : list (list expr)) (bases : list expr) : expr :=
  Or (map (fun x => And (ref_rule a :: x)) steps ++ bases).

(** [a = (b1 / b2 / ..) (x1 / x2 / ..)*] *)
Definition repeating (steps : list (list expr)) (bases : list expr) : expr :=
  And [Or bases; rep0 (Or (map And steps)) 0].

(** The two grammars differ in rule [a] only. *)
Definition rewritten (a : str) (steps : list (list expr)) (bases : list expr) (G G' : str -> option expr) : Prop :=
  G a = Some (left_recursive a steps bases) /\ G' a = Some (repeating steps bases) /\ forall n, n <> a -> G' n = G n.

(** What a base generates does not begin with a tree of the rule itself: [bases] are all the alternatives that are not left recursive. *)
Definition proper_bases (a : str) (bases : list expr) (G : str -> option expr) : Prop :=
  forall b w l r, In b bases -> ~ derives G b w (Rule a l :: r).

(** The tree with each left edge of [a] nodes made one node: [a(a(a(b) x) y)] gives [a(b x y)]. *)
Fixpoint ungrouped (a : str) (nd : node) : node :=
  match nd with
  | Rule n l =>
      let l' := map (ungrouped a) l in
      if str_eqb n a then
        Rule n match l' with
               | Rule m k :: r => if str_eqb m a then k ++ r else l'
               | _ => l'
               end
      else Rule n l'
  | _ => nd
  end.
