(** Specifications for single combinators, at the level of the engine. *)
From Verif Require Import Base ModelAst ModelParser SpecPeg SpecPos.

(** Running [e] from [st] ends with [r], with any sufficient fuel. *)
Definition run (rs : rules) (st : status) (e : expr) (r : result_expr) : Prop :=
  r <> Fuel /\ exists fuel, parse_expr rs fuel st e = r.

(** [e] succeeds [k] times in a row, each time from where the previous one stopped; [ts] are all the nodes. *)
Inductive reps (rs : rules) (e : expr) : status -> nat -> list node -> status -> Prop :=
| reps_0 st : reps rs e st 0 [] st
| reps_S st st1 st2 k ts us :
    run rs st e (Ok (st1, ts)) -> reps rs e st1 k us st2 -> reps rs e st (S k) (ts ++ us) st2.

(** [er] is the last among the errors of [ers] that are furthest in the text. *)
Definition last_furthest (ers : list perror) (er : perror) : Prop :=
  exists before after, ers = before ++ er :: after /\
    Forall (fun x => pn (e_pos x) <= pn (e_pos er)) before /\
    Forall (fun x => pn (e_pos x) < pn (e_pos er)) after.

(** Evaluating [e] begins by evaluating rule [n] at the same point. *)
Inductive starts_with (n : str) : expr -> Prop :=
| sw_ref : starts_with n (RuleName n)
| sw_and e es : starts_with n e -> starts_with n (And (e :: es))
| sw_or e es : starts_with n e -> starts_with n (Or (e :: es))
| sw_not e : starts_with n e -> starts_with n (Not e)
| sw_rep e mn mx : starts_with n e -> starts_with n (Repeat e mn mx).

(** The error is a plain failure. *)
Definition fails_normally (r : result_expr) : Prop := exists er, r = Err er /\ e_priority er = Normal.

(** A result without the pending error. *)
Definition forget (r : result_expr) : outcome perror (str * str * position * list str * list node) :=
  match r with
  | Ok (st, ts) => Ok (text2parse st, it_parsing st, st_pos st, walking_rules st, ts)
  | Err er => Err er
  | Panic => Panic
  | Fuel => Fuel
  end.
