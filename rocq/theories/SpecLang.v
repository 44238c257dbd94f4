(** Texts accepted, whatever the trees. *)
From Verif Require Import Base ModelAst ModelParser SpecPeg SpecApi SpecRefactor.

(** An outcome without its trees: where a match ends, or that there is none, or how the parse is aborted. *)
Definition bare (r : presult) : presult := match r with PMatch _ rest => PMatch [] rest | _ => r end.

(** The two expressions match the same prefix of every text, and fail and abort alike. *)
Definition same_language (G : str -> option expr) (e e' : expr) : Prop :=
  forall s o, (exists r, peg G e s r /\ bare r = o) <-> (exists r, peg G e' s r /\ bare r = o).

(** Every rule of [G'] is the one of [G], with parts replaced by parts with the same language under [G]. *)
Definition rewritten (G G' : str -> option expr) : Prop :=
  forall n, match G n, G' n with
            | Some e, Some e' => replaced (same_language G) e e'
            | None, None => True
            | _, _ => False
            end.

(** The tree of a right recursive rule [r = e r / e] whose turns give the trees [l]. *)
Fixpoint nest (r : str) (l : list (list node)) : list node :=
  match l with
  | [] => []
  | [ts] => [Rule r ts]
  | ts :: l' => [Rule r (ts ++ nest r l')]
  end.

(** [(!"l" .)* "l"] *)
Definition till (l : str) : expr := And [Repeat (And [Not (lit l); dot_]) 0 None; lit l].

(** [w] is what precedes the first [l] in [s], and [r] what follows it. *)
Definition first_at (l s w r : str) : Prop :=
  s = w ++ l ++ r /\ forall w' r', s = w' ++ l ++ r' -> length w <= length w'.

Fixpoint times (n : nat) (w : str) : str := match n with 0 => [] | S k => w ++ times k w end.
