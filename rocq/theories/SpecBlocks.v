(** Blocks with several kinds of marks, as [begin .. end], [<b> .. </b>] or brackets. *)
From Verif Require Import Base ModelAst ModelParser SpecPeg SpecPos SpecApi SpecComments.

(** A kind of block: the mark that opens it, the mark that closes it, and what to say when that is missing. *)
Record kind : Type := Kind { opens : str; closing : str; complaint : str }.

Definition nm_block : str := s_ "block".

Section Blocks.
Variable ks : list kind.

Definition marks : list str := map opens ks ++ map closing ks.

(** [main = block;  block = o1 inside (c1 / error("m1")) / o2 inside (c2 / error("m2")) / ..;  inside = (block / !(o1 / .. / c1 / ..) .)*] *)
Definition plain_char : expr := And [Not (Or (map lit marks)); dot_].
Definition inside : expr := rep0 (Or [ref_rule nm_block; plain_char]) 0.
Definition block_of (k : kind) : expr := And [lit (opens k); inside; Or [lit (closing k); error_ (complaint k)]].
Definition block_rules : rules := rules_macro [(main, ref_rule nm_block); (nm_block, Or (map block_of ks))].

(** No mark is the start of another one, and no mark opens a block in two ways or both opens and closes.  Kinds may share the closing mark. *)
Definition clear_marks : Prop :=
  (forall m m', In m marks -> In m' marks -> starts_with m m' -> m = m') /\
  NoDup (map opens ks) /\ (forall k k', In k ks -> In k' ks -> opens k <> closing k') /\ ~ In [] marks.

(** Reading from left to right with a stack of open blocks: the last of them is closed before [rest], or a block is not closed where
    it should be. *)
Inductive verdict : Type :=
| Closed (rest : str)
| Missing (k : kind) (rest : str).

Definition no_mark (s : str) : Prop := forall m, In m marks -> ~ starts_with m s.

Inductive runs : list kind -> str -> verdict -> Prop :=
| ru_done s : runs [] s (Closed s)
| ru_close k st s v : runs st s v -> runs (k :: st) (closing k ++ s) v
| ru_open k k' st s v : In k' ks -> runs (k' :: k :: st) s v -> runs (k :: st) (opens k' ++ s) v
| ru_char k st x s v : no_mark (x :: s) -> runs (k :: st) s v -> runs (k :: st) (x :: s) v
| ru_end k st : runs (k :: st) [] (Missing k [])
| ru_other k k' st s : In k' ks -> closing k' <> closing k -> runs (k :: st) (closing k' ++ s) (Missing k (closing k' ++ s)).

(** What is in a block. *)
Inductive content : Type :=
| Char (x : char)
| Block (k : kind) (l : list content).

Fixpoint content_text (i : content) : str := match i with Char x => [x] | Block k l => opens k ++ flat_map content_text l ++ closing k end.
Fixpoint content_tree (i : content) : node :=
  match i with Char x => Val [x] | Block k l => Rule nm_block (Val (opens k) :: map content_tree l ++ [Val (closing k)]) end.

(** A block of the kinds [ks], in which no char that could be the start of a mark is taken for a plain one: [before rest i] says so for
    the content [i] in front of [rest]. *)
Fixpoint before (rest : str) (i : content) : Prop :=
  match i with
  | Char x => no_mark (x :: rest)
  | Block k l => In k ks /\ (fix all l := match l with [] => True | i :: l => before (flat_map content_text l ++ closing k ++ rest) i /\ all l end) l
  end.
End Blocks.
