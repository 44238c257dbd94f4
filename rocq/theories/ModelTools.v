(** Cost of the tools for trees, src/ast/mod.rs:72-208 and src/ast/flat.rs:81-95.  Every function below is that of the same name
    in ModelAst, without the prefix [t_], and returns what that one returns together with its cost: the work, which is the
    number of calls, of nodes moved to the end of a [Vec] and of chars copied, and how deeply the calls nest.  Not counted: the
    comparisons with the names given, and what [Vec] does to grow. *)
From Verif Require Import Base ModelAst.

(** Work and nesting of the tools of src/ast/mod.rs:72-208 and src/ast/flat.rs:81-95. *)
Definition cost : Type := (nat * nat)%type.
(** The work, src/ast/mod.rs:72-208. *)
Definition work (c : cost) : nat := fst c.
(** How deeply calls nest, src/ast/mod.rs:72-208. *)
Definition nest (c : cost) : nat := snd c.

(** Nothing; [k] nodes or chars moved or copied; one thing after the other; a call, e.g. src/ast/mod.rs:81. *)
Definition c_none : cost := (0, 0).
(** [k] nodes or chars moved or copied, e.g. src/ast/mod.rs:81. *)
Definition c_pay (k : nat) : cost := (k, 0).
(** One thing after the other, e.g. src/ast/mod.rs:79-81. *)
Definition c_seq (a b : cost) : cost := (work a + work b, Nat.max (nest a) (nest b)).
(** A call, e.g. src/ast/mod.rs:81. *)
Definition c_call (a : cost) : cost := (S (work a), S (nest a)).

(** [vnodes.iter().fold(acc, step)], src/ast/mod.rs:79, 129 and 201, src/ast/flat.rs:88. *)
Section Fold.
Context {A : Type}.
Variable step : A -> node -> A * cost.
Fixpoint t_fold (acc : A) (c : cost) (l : list node) : A * cost :=
  match l with
  | [] => (acc, c)
  | x :: r => let y := step acc x in t_fold (fst y) (c_seq c (snd y)) r
  end.
End Fold.

(** src/ast/mod.rs:72-92 [Node::prune]: a call for each node that is kept. *)
Fixpoint t_prune (names : list str) (nd : node) : node * cost :=
  match nd with
  | EOF => (EOF, c_call c_none)
  | Val v => (Val v, c_call (c_pay (length v)))
  | Rule n vn =>
      let r := t_fold (fun acc x =>
                 if negb (node2prune names x) then let y := t_prune names x in (acc ++ [fst y], c_seq (snd y) (c_pay 1))
                 else (acc, c_none)) [] c_none vn in
      (Rule n (fst r), c_call (c_seq (c_pay (length n)) (snd r)))
  end.

(** src/ast/mod.rs:122-145 [Node::pass_through_except]: as in ModelAst, what one element contributes to the accumulator of
    [pthr_vn]; a kept node is moved by [ipush] (131), the nodes of one that is not kept by [iappend] (134). *)
Fixpoint t_pthr (names : list str) (nd : node) : list node * cost :=
  match nd with
  | EOF => ([EOF], c_call (c_pay 1))
  | Val v => ([Val v], c_call (c_pay (length v + 1)))
  | Rule n vn =>
      let r := t_fold (fun acc x => let y := t_pthr names x in (acc ++ fst y, snd y)) [] c_none vn in
      if node2keep names nd then ([Rule n (fst r)], c_call (c_seq (snd r) (c_pay (length n + 1))))
      else (fst r, c_call (c_seq (snd r) (c_pay (length (fst r)))))
  end.

(** src/ast/mod.rs:140-144. *)
Definition t_pass_through_except (names : list str) (nd : node) : node * cost :=
  match nd with
  | EOF => (EOF, c_call c_none)
  | Val v => (Val v, c_call (c_pay (length v)))
  | Rule n vn =>
      let r := t_fold (fun acc x => let y := t_pthr names x in (acc ++ fst y, snd y)) [] c_none vn in
      (Rule n (fst r), c_call (c_seq (c_pay (length n)) (snd r)))
  end.

(** src/ast/mod.rs:174-197 [concat_nodes]: [get_val] (175-178) copies the last value whatever the next node is, [concat_v] (179-182)
    copies it and the new one, and [c.clone()] (189) copies both again. *)
Definition t_concat_nodes (rec : node -> node * cost) (nodes : list node) (n : node) : list node * cost :=
  let got := match last_val nodes with Some pv => length pv | None => 0 end in
  match n, last_val nodes with
  | EOF, _ => (nodes ++ [EOF], c_pay (got + 1))
  | Val v, Some pv => (removelast nodes ++ [Val (pv ++ v)], c_pay (got + 2 * (length pv + length v) + 1))
  | Val v, None => (nodes ++ [Val v], c_pay (got + length v + 1))
  | Rule _ _, _ => let y := rec n in (nodes ++ [fst y], c_seq (snd y) (c_pay (got + 1)))
  end.

(** src/ast/mod.rs:173-208 [Node::compact]. *)
Fixpoint t_compact (nd : node) : node * cost :=
  match nd with
  | EOF => (EOF, c_call c_none)
  | Val v => (Val v, c_call (c_pay (length v)))
  | Rule n vn =>
      let r := t_fold (fun acc x => t_concat_nodes t_compact acc x) [] c_none vn in
      (Rule n (fst r), c_call (c_seq (c_pay (length n)) (snd r)))
  end.

(** src/ast/flat.rs:82-92 [flatten_acc]. *)
Fixpoint t_flatten_acc (acc : list fnode) (next : node) : list fnode * cost :=
  match next with
  | EOF => (acc, c_call c_none)
  | Val v => (acc ++ [FVal v], c_call (c_pay (length v + 1)))
  | Rule n vn =>
      let r := t_fold (fun facc x => t_flatten_acc facc x) (acc ++ [FBegin n]) c_none vn in
      (fst r ++ [FEnd n], c_call (c_seq (c_pay (2 * (length n + 1))) (snd r)))
  end.

(** src/ast/flat.rs:81-95 [flatten]. *)
Definition t_flatten (nd : node) : list fnode * cost := t_flatten_acc [] nd.
