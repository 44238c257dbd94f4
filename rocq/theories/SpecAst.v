(** Specifications of the AST tools, written on lists of sibling nodes and on token streams, without the
    functions of the model. *)
From Verif Require Import Base ModelAst ModelParser.

(** Does a list of siblings start with a [Val]? *)
Definition starts_with_val (l : list node) : Prop := exists v r, l = Val v :: r.

(** [compacted l l']: [l'] is [l] where, at every level, each maximal run of adjacent [Val]s is replaced by one
    [Val] with the concatenated text; everything else stays in place. *)
Inductive compacted : list node -> list node -> Prop :=
| co_nil : compacted [] []
| co_eof l l' : compacted l l' -> compacted (EOF :: l) (EOF :: l')
| co_rule n k k' l l' : compacted k k' -> compacted l l' -> compacted (Rule n k :: l) (Rule n k' :: l')
| co_run vs l l' : vs <> [] -> ~ starts_with_val l -> compacted l l' ->
    compacted (map Val vs ++ l) (Val (concat vs) :: l').

(** Two adjacent [Val]s among siblings, somewhere in the tree. *)
Inductive adjacent_vals : node -> Prop :=
| av_here n pre v w post : adjacent_vals (Rule n (pre ++ Val v :: Val w :: post))
| av_below n pre x post : adjacent_vals x -> adjacent_vals (Rule n (pre ++ x :: post)).

(** [pruned names l l']: [l'] is [l] without the subtrees whose name is in [names]. *)
Inductive pruned (names : list str) : list node -> list node -> Prop :=
| pr_nil : pruned names [] []
| pr_val v l l' : pruned names l l' -> pruned names (Val v :: l) (Val v :: l')
| pr_eof l l' : pruned names l l' -> pruned names (EOF :: l) (EOF :: l')
| pr_drop n k l l' : In n names -> pruned names l l' -> pruned names (Rule n k :: l) l'
| pr_keep n k k' l l' : ~ In n names -> pruned names k k' -> pruned names l l' ->
    pruned names (Rule n k :: l) (Rule n k' :: l').

(** [spliced names l l']: [l'] is [l] where every rule whose name is not in [names] is replaced by its
    (spliced) children. *)
Inductive spliced (names : list str) : list node -> list node -> Prop :=
| sp_nil : spliced names [] []
| sp_val v l l' : spliced names l l' -> spliced names (Val v :: l) (Val v :: l')
| sp_eof l l' : spliced names l l' -> spliced names (EOF :: l) (EOF :: l')
| sp_keep n k k' l l' : In n names -> spliced names k k' -> spliced names l l' ->
    spliced names (Rule n k :: l) (Rule n k' :: l')
| sp_open n k k' l l' : ~ In n names -> spliced names k k' -> spliced names l l' ->
    spliced names (Rule n k :: l) (k' ++ l').

(** [x] is a proper descendant of a node. *)
Inductive below (x : node) : node -> Prop :=
| below_child n l : In x l -> below x (Rule n l)
| below_deep n y l : In y l -> below x y -> below x (Rule n l).

Definition has_name (names : list str) (nd : node) : Prop := exists n k, nd = Rule n k /\ In n names.

(** The leaves ([Val] and [EOF]) of a tree in order. *)
Fixpoint frontier (nd : node) : list node :=
  match nd with
  | Rule _ l => flat_map frontier l
  | leaf => [leaf]
  end.

(** Well-bracketed token lists. *)
Inductive balanced : list fnode -> Prop :=
| ba_nil : balanced []
| ba_val v l : balanced l -> balanced (FVal v :: l)
| ba_rule n l1 l2 : balanced l1 -> balanced l2 -> balanced (FBegin n :: l1 ++ FEnd n :: l2).

(** The forest a token list is the bracketing of: [reads toks forest]. *)
Inductive reads : list fnode -> list node -> Prop :=
| rd_nil : reads [] []
| rd_val v t f : reads t f -> reads (FVal v :: t) (Val v :: f)
| rd_rule n t1 f1 t2 f2 : reads t1 f1 -> reads t2 f2 ->
    reads (FBegin n :: t1 ++ FEnd n :: t2) (Rule n f1 :: f2).

(** A tree without its [EOF] nodes. *)
Fixpoint drop_eof (nd : node) : list node :=
  match nd with
  | EOF => []
  | Val v => [Val v]
  | Rule n l => [Rule n (flat_map drop_eof l)]
  end.

(** Text of a token. *)
Definition ftext (t : fnode) : str := match t with FVal v => v | _ => [] end.

(** Keep a token: leaves, and the brackets of the listed rules. *)
Definition listed (names : list str) (t : fnode) : bool :=
  match t with
  | FBegin n | FEnd n => existsb (str_eqb n) names
  | _ => true
  end.

(** Skip, in one pass, everything between the brackets of the listed rules: [depth] counts the brackets opened
    inside the part being skipped. *)
Fixpoint skip (names : list str) (depth : nat) (t : list fnode) : list fnode :=
  match t with
  | [] => []
  | x :: r =>
      match depth, x with
      | 0, FBegin n => if existsb (str_eqb n) names then skip names 1 r else x :: skip names 0 r
      | 0, _ => x :: skip names 0 r
      | S d, FBegin _ => skip names (S (S d)) r
      | S d, FEnd _ => skip names d r
      | S _, _ => skip names depth r
      end
  end.

(** A finite map has at most one binding per name. *)
Definition unique_names (m : rules) : Prop := NoDup (map fst m).

(** The expression bound last to [n] in a list of definitions. *)
Definition last_binding (l : list (str * expr)) (n : str) (r : option expr) : Prop :=
  match r with
  | Some e => exists before after, l = before ++ (n, e) :: after /\ ~ In n (map fst after)
  | None => ~ In n (map fst l)
  end.

(** A helper returns [Ok r] exactly for the [r] the property [P] admits, and otherwise an error; it never
    panics and needs no fuel. *)
Definition decides {E A} (m : outcome E A) (P : A -> Prop) : Prop :=
  (forall r, m = Ok r <-> P r) /\ m <> Panic /\ m <> Fuel.
