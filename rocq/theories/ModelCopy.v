(** What parsing copies, in chars: the texts of the errors it builds (src/parser/mod.rs:162-176), the pending error and
    the trace of every [status.clone()], and the texts of the nodes.  The functions below follow the control flow of the
    functions of the same name in ModelParser and add up what each step copies.  Simplifications: a clone of a status also
    copies a fixed number of words (the reference to the text, the iterator, the position, the reference to the rules), which
    are not chars and not counted; nor is moving nodes from one vector to another (src/parser/expression/mod.rs:241, 320).  A text made
    with [format!] or [to_string] and then copied into its place is counted once. *)
From Verif Require Import Base ModelAst ModelParser.

(** The chars of a vector of strings, as copied by [walking_rules.clone()] (src/parser/mod.rs:173). *)
Definition strs_chars (l : list str) : nat := fold_right (fun s n => length s + n) 0 l.

(** The texts of an [Error], src/parser/mod.rs:66-82. *)
Definition err_chars (er : perror) : nat :=
  length (e_descr er) + length (e_line_before er) + length (e_line_after er) + strs_chars (e_parsing_rules er).

(** [Option<Error>::clone()]: src/lib.rs:513, and within the derived [Clone] of [Status] (src/parser/mod.rs:85-102). *)
Definition opt_err_chars (oe : option perror) : nat := match oe with Some er => err_chars er | None => 0 end.

(** The derived [Clone] of [Status], src/parser/mod.rs:85-102: the fields that hold chars. *)
Definition status_chars (st : status) : nat := opt_err_chars (potential_error st) + strs_chars (walking_rules st).

(** An error that was just built with [Error::from_status], src/parser/mod.rs:162-176. *)
Definition made {A} (r : outcome perror A) : nat := match r with Err er => err_chars er | _ => 0 end.

(** src/parser/atom/mod.rs:60-68 [atom::parse]: the text of the node (100-122, 138-159) or the error. *)
Definition copied_atom (st : status) (a : atom) : nat :=
  match parse_atom st a with
  | Ok (_, Val v) => length v
  | Ok _ => 0
  | r => made r
  end.

(** src/parser/expression/mod.rs:231-247 [parse_and]: no clone. *)
Fixpoint copied_and (pe : status -> expr -> result_expr) (t : status -> expr -> nat) (st : status) (es : list expr) : nat :=
  match es with
  | [] => 0
  | e :: r => t st e + (match pe st e with Ok (st', _) => copied_and pe t st' r | _ => 0 end)
  end.

(** src/parser/expression/mod.rs:262-284 the loop of [parse_or]: one clone for each alternative tried (272), and the error of
    an empty choice (265-269). *)
Fixpoint copied_or (pe : status -> expr -> result_expr) (t : status -> expr -> nat) (st : status) (es : list expr)
  (oerr : option perror) : nat :=
  match es with
  | [] => match oerr with
          | Some _ => 0
          | None => made (err_normal (A := unit) st msg_logic_error)
          end
  | e :: r =>
      status_chars st + t st e +
      (match pe st e with
       | Err er => if is_critical (e_priority er) then 0 else copied_or pe t st r (deep_err oerr er)
       | _ => 0
       end)
  end.

(** src/parser/expression/mod.rs:288-293 [parse_not]: one clone, and the error when the expression matches. *)
Definition copied_not (pe : status -> expr -> result_expr) (t : status -> expr -> nat) (st : status) (e : expr) : nat :=
  status_chars st + t st e + (match pe st e with Ok _ => made (err_normal (A := unit) st (s_ "not")) | _ => 0 end).

(** src/parser/expression/mod.rs:296-327 [parse_repeat]: one clone for each turn (305). *)
Fixpoint copied_repeat (fuel : nat) (pe : status -> expr -> result_expr) (t : status -> expr -> nat) (st : status) (e : expr)
  (mx : option nat) (counter : nat) : nat :=
  match fuel with
  | 0 => 0
  | S f =>
      status_chars st + t st e +
      (match pe st e with
       | Ok (st', _) => if touch_max_bound mx counter then 0 else copied_repeat f pe t st' e mx (counter + 1)
       | _ => 0
       end)
  end.

(** src/parser/expression/mod.rs:179-207 [parse_rule_name]: the entry of the trace (184), the error of a missing rule
    (190-196), the name in the node (203). *)
Definition copied_rule_name (pe : status -> expr -> result_expr) (t : status -> expr -> nat) (rs : rules) (st : status)
  (rule_name : str) : nat :=
  let st1 := if trace_rules st then push_rule st (s_ "r:" ++ rule_name) else st in
  (if trace_rules st then length (s_ "r:" ++ rule_name) else 0) +
  match rules_get rs rule_name with
  | None => made (err_status (A := unit) st1 (s_ "Missing rule: " ++ rule_name) Critical)
  | Some e => t st1 e + (match pe st1 e with Ok _ => length rule_name | _ => 0 end)
  end.

(** src/parser/expression/mod.rs:219-228 [parse_expr]; [parse_or] clones its status before its loop (260). *)
Fixpoint copied (rs : rules) (fuel : nat) (st : status) (e : expr) : nat :=
  match fuel with
  | 0 => 0
  | S f =>
      match e with
      | Simple a => copied_atom st a
      | And es => copied_and (parse_expr rs f) (copied rs f) st es
      | Or es => status_chars st + copied_or (parse_expr rs f) (copied rs f) st es None
      | Not e1 => copied_not (parse_expr rs f) (copied rs f) st e1
      | Repeat e1 _ mx => copied_repeat f (parse_expr rs f) (copied rs f) st e1 mx 0
      | RuleName n => copied_rule_name (parse_expr rs f) (copied rs f) rs st n
      end
  end.

(** src/lib.rs:503-521 [parse_with_debug]: a clone of the pending error (513), and the error when there is none (517-519). *)
Definition parse_copied (fuel : nat) (s : str) (rs : rules) (debug : bool) : nat :=
  let st0 := status_init_debug s debug in
  copied_rule_name (parse_expr rs fuel) (copied rs fuel) rs st0 (s_ "main") +
  match expression_parse rs fuel st0 with
  | Ok (st, _) =>
      opt_err_chars (potential_error st) +
      match pn (st_pos st) =? byte_len s, potential_error st with
      | false, None => made (err_normal (A := unit) st (s_ "not consumed full input"))
      | _, _ => 0
      end
  | _ => 0
  end.
