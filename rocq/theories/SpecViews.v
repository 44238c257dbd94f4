(** What is left of a tree after prune, pass_through_except and compact, and rules that differ only in what these
    tools take away. *)
From Verif Require Import Base ModelAst ModelParser SpecPeg SpecPos SpecApi SpecRefactor SpecLang SpecSwap.

(** The chain of tools of the documentation: leave out the nodes of the rules [a], open all others but those of [k],
    and make one piece of text of neighbouring pieces. *)
Definition tools (a k : list str) (t : node) : node := compact (pass_through_except k (prune a t)).

(** What the tools leave of the children of a node. *)
Definition seen (a k : list str) (ts : list node) : list node :=
  match tools a k (Rule main ts) with Rule _ l => l | _ => [] end.

(** An outcome where only that is looked at. *)
Definition shown (a k : list str) (r : presult) : presult :=
  match r with PMatch ts rest => PMatch (seen a k ts) rest | _ => r end.

(** The two expressions match the same prefix of every text, with the same trees after the tools, and fail and abort
    alike. *)
Definition same_view (a k : list str) (G : str -> option expr) (e e' : expr) : Prop :=
  forall s o, (exists r, peg G e s r /\ shown a k r = o) <-> (exists r, peg G e' s r /\ shown a k r = o).

(** Every rule of [G'] is the one of [G], with parts replaced by parts that look the same under [G]; in the rules that
    are pruned the parts need only match the same prefixes. *)
Definition retooled (a k : list str) (G G' : str -> option expr) : Prop :=
  forall n, match G n, G' n with
            | Some e, Some e' => replaced (same_view a k G) e e' \/ In n a /\ n <> main /\ replaced (same_language G) e e'
            | None, None => True
            | _, _ => False
            end.

(** Whatever text is parsed with either rule set: the same tree after the tools, or an error in both, where aborts are
    the same; or both hang. *)
Definition same_views (a k : list str) (rs rs' : rules) : Prop := forall s, ascii s ->
  (forall t, (exists fuel ast, parse fuel s rs = Ok ast /\ tools a k ast = t) <->
             (exists fuel ast, parse fuel s rs' = Ok ast /\ tools a k ast = t)) /\
  ((exists fuel er, parse fuel s rs = Err er) <-> (exists fuel er, parse fuel s rs' = Err er)) /\
  (forall msg j, aborts rs s msg j <-> aborts rs' s msg j).
