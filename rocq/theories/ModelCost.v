(** Cost of parsing: how often [parse_expr] (src/parser/expression/mod.rs:219-228) is called, and how deeply its calls nest.
    The functions below follow the control flow of the functions of the same name in ModelParser: they use the result
    of each call to know which calls come next, and combine the tallies of consecutive calls with [op].  With [op := Nat.add]
    the tally is the number of calls, with [op := Nat.max] the depth of nesting (the loops of [tail_call] do not nest). *)
From Verif Require Import Base ModelAst ModelParser.

Section Tally.
Variable op : nat -> nat -> nat.

(** src/parser/expression/mod.rs:231-247 [parse_and]. *)
Fixpoint tally_and (pe : status -> expr -> result_expr) (t : status -> expr -> nat) (st : status) (es : list expr) : nat :=
  match es with
  | [] => 0
  | e :: r => op (t st e) (match pe st e with Ok (st', _) => tally_and pe t st' r | _ => 0 end)
  end.

(** src/parser/expression/mod.rs:250-285 [parse_or]. *)
Fixpoint tally_or (pe : status -> expr -> result_expr) (t : status -> expr -> nat) (st : status) (es : list expr) : nat :=
  match es with
  | [] => 0
  | e :: r =>
      op (t st e) (match pe st e with Err er => if is_critical (e_priority er) then 0 else tally_or pe t st r | _ => 0 end)
  end.

(** src/parser/expression/mod.rs:296-327 [parse_repeat]. *)
Fixpoint tally_repeat (fuel : nat) (pe : status -> expr -> result_expr) (t : status -> expr -> nat) (st : status) (e : expr)
  (mx : option nat) (counter : nat) : nat :=
  match fuel with
  | 0 => 0
  | S f =>
      op (t st e)
         (match pe st e with
          | Ok (st', _) => if touch_max_bound mx counter then 0 else tally_repeat f pe t st' e mx (counter + 1)
          | _ => 0
          end)
  end.

(** src/parser/expression/mod.rs:179-207 [parse_rule_name]. *)
Definition tally_rule_name (t : status -> expr -> nat) (rs : rules) (st : status) (rule_name : str) : nat :=
  let st1 := if trace_rules st then push_rule st (s_ "r:" ++ rule_name) else st in
  match rules_get rs rule_name with
  | None => 0
  | Some e => t st1 e
  end.

(** src/parser/expression/mod.rs:219-228 [parse_expr]: this call, and the calls it makes. *)
Fixpoint tally (rs : rules) (fuel : nat) (st : status) (e : expr) : nat :=
  match fuel with
  | 0 => 0
  | S f =>
      S (match e with
         | Simple _ => 0
         | And es => tally_and (parse_expr rs f) (tally rs f) st es
         | Or es => tally_or (parse_expr rs f) (tally rs f) st es
         | Not e1 => tally rs f st e1
         | Repeat e1 _ mx => tally_repeat f (parse_expr rs f) (tally rs f) st e1 mx 0
         | RuleName n => tally_rule_name (tally rs f) rs st n
         end)
  end.

(** src/parser/expression/mod.rs:171-173 [expression::parse], called by src/lib.rs:503-521 [parse_with_debug]. *)
Definition parse_tally (fuel : nat) (s : str) (rs : rules) (debug : bool) : nat :=
  tally_rule_name (tally rs fuel) rs (status_init_debug s debug) (s_ "main").

End Tally.

(** Calls of [parse_expr] (src/parser/expression/mod.rs:219-232) during [parse_with_debug] (src/lib.rs:503-521), and how deeply they nest. *)
Definition parse_calls : nat -> str -> rules -> bool -> nat := parse_tally Nat.add.
(** How deeply the calls of [parse_expr] (src/parser/expression/mod.rs:219-232) nest during [parse_with_debug] (src/lib.rs:503-521). *)
Definition parse_nesting : nat -> str -> rules -> bool -> nat := parse_tally Nat.max.
