(** The small types the expressions are made of: [MatchRules], [MultiExpr], [RepInfo], [NRep] and their constructors. *)
From Verif Require Import Base ModelAst ModelParser ModelGcode.

(** src/parser/atom/mod.rs:34-38 [struct MatchRules]. *)
Definition match_rules : Type := (str * list (char * char))%type.

(** src/parser/atom/mod.rs:40-50 the getters [chars] and [ranges]. *)
Definition mr_chars (m : match_rules) : str := fst m.
(** src/parser/atom/mod.rs:46-50 the getter [ranges]. *)
Definition mr_ranges (m : match_rules) : list (char * char) := snd m.

(** src/parser/atom/mod.rs:72-74 [MatchRules::init]. *)
Definition mr_init (s : str) (bounds : list (char * char)) : match_rules := (s, bounds).

(** src/parser/atom/mod.rs:76-78 [MatchRules::new]. *)
Definition mr_new : match_rules := ([], []).

(** src/parser/atom/mod.rs:80-83 [with_chars]. *)
Definition mr_with_chars (m : match_rules) (chrs : str) : match_rules := (chrs, mr_ranges m).

(** src/parser/atom/mod.rs:85-88 [with_bound_chars]. *)
Definition mr_with_bound_chars (m : match_rules) (bounds : list (char * char)) : match_rules := (mr_chars m, bounds).

(** src/parser/atom/mod.rs:21-32 [Atom::Match(MatchRules)].  Simplification: in ModelParser the two fields are the arguments
    of the constructor. *)
Definition atom_match (m : match_rules) : atom := Match (mr_chars m) (mr_ranges m).

(** src/lib.rs:287-305 the two forms of [ematch!]: the first pushes the ranges one after the other. *)
Definition ematch_from_to (chars : str) (pairs : list (char * char)) : expr :=
  Simple (atom_match (mr_init chars (fold_left (fun v p => v ++ [p]) pairs []))).
(** src/lib.rs:298-304 the second form of [ematch!]. *)
Definition ematch_from2 (chars : str) (vfrom2 : list (char * char)) : expr := Simple (atom_match (mr_init chars vfrom2)).

(** src/parser/expression/mod.rs:119-127 [MultiExpr] and [MultiExpr::new], in an [And] or [Or]. *)
Definition multi_expr_new (v : list expr) : list expr := v.

(** src/parser/expression/mod.rs:129-150 [RepInfo] and [RepInfo::new]; [NRep] (152-154) wraps the bounds. *)
Record rep_info := RepInfo { ri_expression : expr; ri_min : nat; ri_max : option nat }.
(** src/parser/expression/mod.rs:140-150 [RepInfo::new]. *)
Definition rep_info_new (e : expr) (mn : nat) (mx : option nat) : rep_info := RepInfo e mn (option_map (fun n => n) mx).

(** src/parser/expression/mod.rs:114 [Expression::Repeat(RepInfo)].  Simplification: in ModelParser the fields are the arguments of the constructor. *)
Definition expr_repeat (r : rep_info) : expr := Repeat (ri_expression r) (ri_min r) (ri_max r).

(** src/parser/expression/mod.rs:156-160 [NRep]'s [Display]. *)
Definition display_nrep (n : nat) : str := dec n.
