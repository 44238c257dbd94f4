(** Rules made from a set of tiles, each with a word on top and a word at the bottom. *)
From Verif Require Import Base ModelAst ModelParser SpecPeg SpecPos SpecApi SpecPower.

Definition tile : Type := str * str.

(** Some row of tiles of the set, each used any number of times, reads the same on top and at the bottom. *)
Definition solvable (P : list tile) : Prop :=
  exists row, row <> [] /\ incl row P /\ concat (map fst row) = concat (map snd row).

Definition ascii_tiles (P : list tile) : Prop := Forall (fun t => ascii (fst t) /\ ascii (snd t)) P.

Definition nm_top : str := s_ "top".
Definition nm_bottom : str := s_ "bottom".

(** The codes of the tiles: y, xy, xxy, .. *)
Definition code (k : nat) : str := repeat 120%N k ++ s_ "y".

(** A code, the rest, and the word of that tile backwards. *)
Definition piece (side : tile -> str) (nm : str) (k : nat) (t : tile) : expr :=
  And [lit (code k); ref_rule nm; lit (rev (side t))].

Fixpoint pieces (side : tile -> str) (nm : str) (k : nat) (P : list tile) : list expr :=
  match P with [] => [] | t :: r => piece side nm k t :: pieces side nm (S k) r end.

(** [top = 'y' top '..' / 'xy' top '..' / .. / '#'] *)
Definition column (side : tile -> str) (nm : str) (P : list tile) : expr := Or (pieces side nm 0 P ++ [lit (s_ "#")]).

(** [main = !'#' !(!(top !.)) bottom] *)
Definition tile_rules (P : list tile) : rules :=
  [ (main, And [Not (lit (s_ "#")); Not (Not (whole (ref_rule nm_top))); ref_rule nm_bottom]);
    (nm_top, column fst nm_top P); (nm_bottom, column snd nm_bottom P) ].

(** [main = !. .]: rules that accept nothing. *)
Definition no_rules : rules := [(main, And [at_end; dot_])].
