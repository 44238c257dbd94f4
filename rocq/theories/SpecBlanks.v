(** Blanks: the chars of a class that only some rules of a grammar read. *)
From Verif Require Import Base ModelAst ModelParser SpecPeg SpecPos SpecApi.

(** The text does not start with a blank. *)
Definition no_blank_first (cs : str) (rg : list (char * char)) (s : str) : Prop :=
  match s with c :: _ => ~ in_class cs rg c | [] => True end.

(** The two texts are the same, apart from how long their runs of blanks are and which blanks they consist of. *)
Inductive same_but_blanks (cs : str) (rg : list (char * char)) : str -> str -> Prop :=
| sb_end : same_but_blanks cs rg [] []
| sb_char c s s' : ~ in_class cs rg c -> same_but_blanks cs rg s s' -> same_but_blanks cs rg (c :: s) (c :: s')
| sb_run u u' s s' : u <> [] -> u' <> [] -> Forall (in_class cs rg) u -> Forall (in_class cs rg) u' ->
    no_blank_first cs rg s -> same_but_blanks cs rg s s' -> same_but_blanks cs rg (u ++ s) (u' ++ s').

(** The atom never reads a blank. *)
Definition reads_no_blank (cs : str) (rg : list (char * char)) (a : atom) : Prop :=
  match a with
  | Literal l => Forall (fun c => ~ in_class cs rg c) l
  | Match cs' rg' => forall c, in_class cs' rg' c -> ~ in_class cs rg c
  | Dot => False
  | AEOF | AError _ => True
  end.

(** Blanks are read by the rules [B] only, which are [[blanks]*] or [[blanks]+]. *)
Definition only_read_by (B : list str) (cs : str) (rg : list (char * char)) (G : str -> option expr) : Prop :=
  (forall n, In n B -> G n = Some (rep0 (ematch cs rg) 0) \/ G n = Some (rep0 (ematch cs rg) 1)) /\
  (forall n e a, ~ In n B -> G n = Some e -> has_atom a e -> reads_no_blank cs rg a).

(** [s'] is [s] without its blanks. *)
Inductive without_blanks (cs : str) (rg : list (char * char)) : str -> str -> Prop :=
| wb_end : without_blanks cs rg [] []
| wb_char c s s' : ~ in_class cs rg c -> without_blanks cs rg s s' -> without_blanks cs rg (c :: s) (c :: s')
| wb_blank c s s' : in_class cs rg c -> without_blanks cs rg s s' -> without_blanks cs rg (c :: s) s'.

(** [e'] is [e] with a reference to the rule [b] after every char it reads (and perhaps before some parts). *)
Inductive spaced (b cs : str) (rg : list (char * char)) : expr -> expr -> Prop :=
| sp_lit c : ~ in_class cs rg c -> spaced b cs rg (lit [c]) (And [lit [c]; ref_rule b])
| sp_class cs' rg' : (forall c, in_class cs' rg' c -> ~ in_class cs rg c) ->
    spaced b cs rg (ematch cs' rg') (And [ematch cs' rg'; ref_rule b])
| sp_eof : spaced b cs rg (Simple AEOF) (Simple AEOF)
| sp_error m : spaced b cs rg (Simple (AError m)) (Simple (AError m))
| sp_and es es' : Forall2 (spaced b cs rg) es es' -> spaced b cs rg (And es) (And es')
| sp_or es es' : Forall2 (spaced b cs rg) es es' -> spaced b cs rg (Or es) (Or es')
| sp_not e e' : spaced b cs rg e e' -> spaced b cs rg (Not e) (Not e')
| sp_rep e e' mn mx : spaced b cs rg e e' -> spaced b cs rg (Repeat e mn mx) (Repeat e' mn mx)
| sp_ref n : n <> b -> spaced b cs rg (ref_rule n) (ref_rule n)
| sp_before e e' : spaced b cs rg e e' -> spaced b cs rg e (And [ref_rule b; e']).

(** Every rule of [G'] is the spaced one of [G], main starts with a reference to [b], and [b] is [[blanks]*]. *)
Definition spaced_rules (b cs : str) (rg : list (char * char)) (G G' : str -> option expr) : Prop :=
  G' b = Some (rep0 (ematch cs rg) 0) /\ b <> main /\
  (exists e e', G main = Some e /\ G' main = Some (And [ref_rule b; e']) /\ spaced b cs rg e e') /\
  forall n, n <> b -> match G n, G' n with
                      | Some e, Some e' => spaced b cs rg e e'
                      | None, None => True
                      | _, _ => False
                      end.
