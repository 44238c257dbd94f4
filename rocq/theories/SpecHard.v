(** Rules that go on after an accepted text. *)
From Verif Require Import Base ModelAst ModelParser SpecPeg SpecPos SpecApi SpecPower SpecTiles.

(** [main = e !. x]: where [e] takes the whole text, [x] comes next. *)
Definition sequel (rs : rules) (e x : expr) : rules := with_main rs (And [e; at_end; x]).

Definition nm_w : str := s_ "w".

(** The main expression of [tile_rules], and these rules with one more rule [w]. *)
Definition tile_main : expr := And [Not (lit (s_ "#")); Not (Not (whole (ref_rule nm_top))); ref_rule nm_bottom].
Definition tiles_and (w : expr) (P : list tile) : rules := (nm_w, w) :: tile_rules P.

(** [w = w] *)
Definition hanging_tiles (P : list tile) : rules := sequel (tiles_and (ref_rule nm_w) P) tile_main (ref_rule nm_w).
(** [error('m')] *)
Definition alarming_tiles (P : list tile) (m : str) : rules := sequel (tile_rules P) tile_main (Simple (AError m)).
(** [w = ''] *)
Definition marking_tiles (P : list tile) : rules := sequel (tiles_and (lit []) P) tile_main (ref_rule nm_w).
(** [w], which is not defined *)
Definition missing_tiles (P : list tile) : rules := sequel (tile_rules P) tile_main (ref_rule nm_w).
(** [main = !(e !.) .*] *)
Definition other_tiles (P : list tile) : rules := with_main (tile_rules P) (complement tile_main).
