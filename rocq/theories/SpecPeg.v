(** Independent specification: the semantics of parsing expression grammars (B. Ford, POPL 2004), extended
    with the crate's [error(..)] and with AST building.  It only mentions grammars, texts and trees: no
    parser state, positions, fuel or error records.  (Only the data types [expr] and [node] are shared.) *)
From Verif Require Import Base ModelAst ModelParser.

(** Outcome of an expression on a text: it matches a prefix (giving trees and the rest of the text), it
    fails, or it aborts the whole parse with a message, at the point where [rest] remains. *)
Inductive presult : Type :=
| PMatch (trees : list node) (rest : str)
| PFail
| PAbort (msg : str) (rest : str).

(** Membership in a character class. *)
Definition in_class (chars : str) (ranges : list (char * char)) (c : char) : Prop :=
  In c chars \/ exists lo hi, In (lo, hi) ranges /\ (lo <= c <= hi)%N.

(** The result is not a match. *)
Definition stops (r : presult) : Prop := match r with PMatch _ _ => False | _ => True end.

(** Put trees in front of those of a match. *)
Definition prepend (ts : list node) (r : presult) : presult :=
  match r with PMatch us rest => PMatch (ts ++ us) rest | _ => r end.

(** Wrap the trees of a match in a rule node. *)
Definition wrap (n : str) (r : presult) : presult :=
  match r with PMatch us rest => PMatch [Rule n us] rest | _ => r end.

Definition missing_rule_msg (n : str) : str := s_ "Missing rule: " ++ n.

Section Semantics.
Variable G : str -> option expr.    (* the grammar: what each rule name is bound to *)

Inductive peg : expr -> str -> presult -> Prop :=
(* atoms *)
| peg_lit_ok l rest : peg (Simple (Literal l)) (l ++ rest) (PMatch [Val l] rest)
| peg_lit_fail l s : (forall rest, s <> l ++ rest) -> peg (Simple (Literal l)) s PFail
| peg_class_ok cs rs c rest :
    in_class cs rs c -> peg (Simple (Match cs rs)) (c :: rest) (PMatch [Val [c]] rest)
| peg_class_fail cs rs s :
    (forall c rest, s = c :: rest -> ~ in_class cs rs c) -> peg (Simple (Match cs rs)) s PFail
| peg_dot_ok c rest : peg (Simple Dot) (c :: rest) (PMatch [Val [c]] rest)
| peg_dot_fail : peg (Simple Dot) [] PFail
| peg_eof_ok : peg (Simple AEOF) [] (PMatch [Val (s_ "EOF")] [])
| peg_eof_fail c rest : peg (Simple AEOF) (c :: rest) PFail
| peg_error m s : peg (Simple (AError m)) s (PAbort m s)
(* sequence *)
| peg_and_nil s : peg (And []) s (PMatch [] s)
| peg_and_cons e es s ts s1 r :
    peg e s (PMatch ts s1) -> peg (And es) s1 r -> peg (And (e :: es)) s (prepend ts r)
| peg_and_stop e es s r : peg e s r -> stops r -> peg (And (e :: es)) s r
(* prioritized choice *)
| peg_or_nil s : peg (Or []) s PFail
| peg_or_first e es s r : peg e s r -> r <> PFail -> peg (Or (e :: es)) s r
| peg_or_next e es s r : peg e s PFail -> peg (Or es) s r -> peg (Or (e :: es)) s r
(* not-predicate *)
| peg_not_fail e s ts rest : peg e s (PMatch ts rest) -> peg (Not e) s PFail
| peg_not_ok e s r : peg e s r -> stops r -> peg (Not e) s (PMatch [] s)
(* greedy repetition: at least [mn], at most [mx] times *)
| peg_rep_full e s : peg (Repeat e 0 (Some 0)) s (PMatch [] s)
| peg_rep_more e mn mx s ts s1 r :
    mx <> Some 0 ->
    peg e s (PMatch ts s1) -> peg (Repeat e (pred mn) (option_map pred mx)) s1 r ->
    peg (Repeat e mn mx) s (prepend ts r)
| peg_rep_done e mx s : mx <> Some 0 -> peg e s PFail -> peg (Repeat e 0 mx) s (PMatch [] s)
| peg_rep_short e mn mx s : mx <> Some 0 -> 0 < mn -> peg e s PFail -> peg (Repeat e mn mx) s PFail
| peg_rep_abort e mn mx s m rest :
    mx <> Some 0 -> peg e s (PAbort m rest) -> peg (Repeat e mn mx) s (PAbort m rest)
(* rule reference *)
| peg_rule n e s r : G n = Some e -> peg e s r -> peg (RuleName n) s (wrap n r)
| peg_rule_missing n s : G n = None -> peg (RuleName n) s (PAbort (missing_rule_msg n) s).

End Semantics.

(** The grammar given by a rule set. *)
Definition grammar_of (rs : rules) : str -> option expr := rules_get rs.

(** Repetition bounds for which "at least min, at most max" makes sense: no max, or [max >= 1] and
    [min <= max]. *)
Fixpoint sane (e : expr) : Prop :=
  match e with
  | Simple _ | RuleName _ => True
  | And es | Or es => fold_right (fun x P => sane x /\ P) True es
  | Not e1 => sane e1
  | Repeat e1 mn mx => sane e1 /\ match mx with None => True | Some m => 1 <= m /\ mn <= m end
  end.

Definition sane_rules (rs : rules) : Prop := forall n e, rules_get rs n = Some e -> sane e.

(** What the crate makes of other bounds: [max = 0] counts as "no max", and [min > max] as [min = max]. *)
Definition norm_min (mn : nat) (mx : option nat) : nat :=
  match mx with None | Some 0 => mn | Some m => Nat.min mn m end.
Definition norm_max (mx : option nat) : option nat := match mx with Some 0 => None | _ => mx end.

Fixpoint norm (e : expr) : expr :=
  match e with
  | Simple a => Simple a
  | And es => And (map norm es)
  | Or es => Or (map norm es)
  | Not e1 => Not (norm e1)
  | Repeat e1 mn mx => Repeat (norm e1) (norm_min mn mx) (norm_max mx)
  | RuleName n => RuleName n
  end.

Definition norm_rules (rs : rules) : rules := map (fun p => (fst p, norm (snd p))) rs.
