(** Which children the nodes of a tree can have. *)
From Verif Require Import Base ModelAst ModelParser SpecPeg SpecPos SpecApi SpecAst SpecWf SpecBnf.

(** What a node is to its parent: a piece of text, an end, or a rule. *)
Inductive item : Type := Leaf | End | Sub (n : str).
Definition item_of (nd : node) : item := match nd with Val _ => Leaf | EOF => End | Rule n _ => Sub n end.

(** [kinds e w]: an expression can contribute the children [w].  An atom gives a piece of text, a reference a rule, a predicate nothing; the rest is put
    together as the expression says. *)
Inductive kinds : expr -> list item -> Prop :=
| k_atom a : (forall m, a <> AError m) -> kinds (Simple a) [Leaf]
| k_and_nil : kinds (And []) []
| k_and_cons e es w v : kinds e w -> kinds (And es) v -> kinds (And (e :: es)) (w ++ v)
| k_or e es w : In e es -> kinds e w -> kinds (Or es) w
| k_not e : kinds (Not e) []
| k_rep_stop e mx : kinds (Repeat e 0 mx) []
| k_rep_more e mn mx w v : mx <> Some 0 -> kinds e w -> kinds (Repeat e (pred mn) (option_map pred mx)) v -> kinds (Repeat e mn mx) (w ++ v)
| k_rule n : kinds (RuleName n) [Sub n].

(** Which children the nodes of each name can have. *)
Definition shapes : Type := str -> list item -> Prop.

(** All nodes of the tree have such children. *)
Definition fits (W : shapes) (nd : node) : Prop :=
  forall n kids, nd = Rule n kids \/ below (Rule n kids) nd -> W n (map item_of kids).

(** The children that the rules say. *)
Definition rule_shapes (rs : rules) : shapes := fun n w => exists e, rules_get rs n = Some e /\ kinds e w.

(** .. without the rules [names]. *)
Fixpoint named (names : list str) (i : item) : bool :=
  match i, names with Sub n, x :: r => str_eqb x n || named r i | _, _ => false end.
Definition without (names : list str) (W : shapes) : shapes := fun n w => exists u, W n u /\ w = filter (fun i => negb (named names i)) u.

(** .. with one piece of text for each run of them. *)
Fixpoint merge (u : list item) : list item :=
  match u with
  | [] => []
  | Leaf :: r => match r with Leaf :: _ => merge r | _ => Leaf :: merge r end
  | i :: r => i :: merge r
  end.
Definition merged (W : shapes) : shapes := fun n w => exists u, W n u /\ w = merge u.

(** .. with the children of all rules that are not listed in the place of those rules. *)
Inductive opens (names : list str) (W : shapes) : list item -> list item -> Prop :=
| op_nil : opens names W [] []
| op_leaf u w : opens names W u w -> opens names W (Leaf :: u) (Leaf :: w)
| op_end u w : opens names W u w -> opens names W (End :: u) (End :: w)
| op_keep n u w : In n names -> opens names W u w -> opens names W (Sub n :: u) (Sub n :: w)
| op_open n v v' u w : ~ In n names -> W n v -> opens names W v v' -> opens names W u w -> opens names W (Sub n :: u) (v' ++ w).
Definition opened (names : list str) (W : shapes) : shapes := fun n w => exists u, W n u /\ opens names W u w.

(** Every part of every rule generates an ASCII text. *)
Definition productive_in_ascii (G : str -> option expr) : Prop :=
  forall n e x, G n = Some e -> occurs x e -> exists w ts, ascii w /\ derives G x w ts.
