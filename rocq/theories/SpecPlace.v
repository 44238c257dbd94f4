(** Rules for which errors stand at the first wrong char. *)
From Verif Require Import Base ModelAst ModelParser SpecPeg SpecApi SpecWf SpecBnf.

(** The text [p] is the beginning of a text that the rules generate, read as BNF. *)
Definition viable (rs : rules) (p : str) : Prop := exists u ast, derives (grammar_of rs) (RuleName main) (p ++ u) [ast].

(** Once its first char is there, [e] cannot fail any more. *)
Definition decided (G : str -> option expr) (e : expr) : Prop := forall c s, starts G e c -> ~ peg G e (c :: s) PFail.

(** The failure of a part is forgotten in two places: at the end of a repetition, and in a choice whose last alternative can be empty.  In
    steady rules the parts that are tried there fail at their first char or not at all. *)
Definition steady (rs : rules) : Prop :=
  forall n e x, grammar_of rs n = Some e -> occurs x e ->
  match x with
  | Repeat y _ _ => decided (grammar_of rs) y
  | Or es => empty (grammar_of rs) (Or es) -> forall y, In y es -> ~ empty (grammar_of rs) y -> decided (grammar_of rs) y
  | _ => True
  end.

Definition without_repetitions (rs : rules) : Prop := forall n e x mn mx, grammar_of rs n = Some e -> ~ occurs (Repeat x mn mx) e.

Definition leftover_msg : str := s_ "not consumed full input".
