(** One parser that decides what another one does. *)
From Verif Require Import Base ModelAst ModelParser SpecPeg SpecPos SpecApi SpecPower SpecTiles.

(** All chars: [.*] *)
Definition any_text : expr := rep0 dot_ 0.

(** [e] where the whole text is [a], and all chars otherwise: [!(!(a !.)) e / .*] *)
Definition guarded (a e : expr) : expr := Or [both a e; any_text].

(** [""*] *)
Definition endless : expr := rep0 (lit []) 0.

(** [!(a !.) .* / .*] *)
Definition two_ways (a : expr) : expr := Or [but_not a any_text; any_text].

(** Rules that can be asked: they answer for every ASCII text with [a] as main, and nothing refers to main. *)
Definition asked (rs : rules) (a : expr) : Prop :=
  sane_rules rs /\ sane a /\ main_unused rs [a] /\ forall s, ascii s -> finishes (with_main rs a) s.

(** The main rule of [tile_rules]: [with_main (tile_rules P) tile_main] is [tile_rules P]. *)
Definition tile_main : expr := And [Not (lit (s_ "#")); Not (Not (whole (ref_rule nm_top))); ref_rule nm_bottom].
