(** Reading a grammar as BNF: the texts it generates, without priorities, greediness or predicates; and the grammars for which
    the next char tells which alternative to take. *)
From Coq Require Import Permutation.
From Verif Require Import Base ModelAst ModelParser SpecPeg SpecPos SpecApi SpecWf.

Section Bnf.
Variable G : str -> option expr.

(** [derives e w ts]: the expression generates exactly the text [w], with the trees [ts].  Any alternative of a choice may be taken and a
    repetition may stop after any allowed number of turns; a predicate generates the empty text. *)
Inductive derives : expr -> str -> list node -> Prop :=
| d_lit l : derives (Simple (Literal l)) l [Val l]
| d_class cs rs c : in_class cs rs c -> derives (Simple (Match cs rs)) [c] [Val [c]]
| d_dot c : derives (Simple Dot) [c] [Val [c]]
| d_eof : derives (Simple AEOF) [] [Val (s_ "EOF")]
| d_and_nil : derives (And []) [] []
| d_and_cons e es w v ts us : derives e w ts -> derives (And es) v us -> derives (And (e :: es)) (w ++ v) (ts ++ us)
| d_or e es w ts : In e es -> derives e w ts -> derives (Or es) w ts
| d_not e : derives (Not e) [] []
| d_rep_stop e mx : derives (Repeat e 0 mx) [] []
| d_rep_more e mn mx w v ts us : mx <> Some 0 -> derives e w ts -> derives (Repeat e (pred mn) (option_map pred mx)) v us ->
    derives (Repeat e mn mx) (w ++ v) (ts ++ us)
| d_rule n e w ts : G n = Some e -> derives e w ts -> derives (RuleName n) w [Rule n ts].

(** [e] generates the empty text; a text starting with [c]. *)
Definition empty (e : expr) : Prop := exists ts, derives e [] ts.
Definition starts (e : expr) (c : char) : Prop := exists w ts, derives e (c :: w) ts.

(** What may come next in a text: a char, or ([None]) the end. *)
Definition nexts : Type := option char -> Prop.

(** What may come next before something that is followed by [F]. *)
Definition before_ (e : expr) (F : nexts) : nexts := fun o => (exists c, o = Some c /\ starts e c) \/ (empty e /\ F o).

(** A repetition can have more than one turn. *)
Definition repeats (mx : option nat) : Prop := match mx with Some m => 1 < m | None => True end.

(** [predictive follow e F]: where [F] may come after [e], the next char tells which alternative of each choice to take (those that can be
    empty come last), and whether to go on with a repetition.  [follow] says what may come after each rule. No predicates, no [error(..)]. *)
Fixpoint predictive (follow : str -> nexts) (e : expr) (F : nexts) : Prop :=
  match e with
  | Simple (AError _) => False
  | Simple AEOF => forall o, F o -> o = None
  | Simple _ => True
  | And es =>
      (fix all (l : list expr) : Prop :=
         match l with
         | [] => True
         | x :: r => predictive follow x (before_ (And r) F) /\ all r
         end) es
  | Or es =>
      (fix all (l : list expr) : Prop :=
         match l with
         | [] => True
         | x :: r => predictive follow x F /\ (r <> [] -> ~ empty x) /\ (forall c, starts x c -> ~ before_ (Or r) F (Some c)) /\ all r
         end) es
  | Not _ => False
  | Repeat x _ mx => predictive follow x (fun o => (repeats mx /\ exists c, o = Some c /\ starts x c) \/ F o) /\ ~ empty x /\ (forall c, starts x c -> ~ F (Some c))
  | RuleName n => G n <> None /\ forall o, F o -> follow n o
  end.

(** The end of the text may come after the start rule. *)
Definition predictive_grammar : Prop :=
  exists follow, follow main None /\ G main <> None /\ forall n e, G n = Some e -> predictive follow e (follow n).

(** No alternative of a choice (between two or more) can be empty. *)
Definition solid_choices : Prop :=
  forall n e es x, G n = Some e -> occurs (Or es) e -> 2 <= length es -> In x es -> ~ empty x.

End Bnf.

(** The same expression up to the order of the alternatives, at any depth. *)
Inductive reordered : expr -> expr -> Prop :=
| ro_same e : reordered e e
| ro_and es es' : Forall2 reordered es es' -> reordered (And es) (And es')
| ro_or es es1 es' : Permutation es es1 -> Forall2 reordered es1 es' -> reordered (Or es) (Or es')
| ro_not e e' : reordered e e' -> reordered (Not e) (Not e')
| ro_rep e e' mn mx : reordered e e' -> reordered (Repeat e mn mx) (Repeat e' mn mx).

Definition reordered_grammar (G G' : str -> option expr) : Prop :=
  forall n, match G n, G' n with Some e, Some e' => reordered e e' | None, None => True | _, _ => False end.

(** Every part of every rule generates some text. *)
Definition productive (G : str -> option expr) : Prop :=
  forall n e x, G n = Some e -> occurs x e -> exists w ts, derives G x w ts.
