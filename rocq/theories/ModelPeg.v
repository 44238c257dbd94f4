(** Model of src/peg/mod.rs: from the flattened AST of a PEG text to a rule set. *)
From Verif Require Import Base ModelAst ModelParser ModelPegRules.

(** src/peg/mod.rs:58-68 [enum Error]. *)
Inductive peg_error : Type :=
| EPeg (s : str) (inner : option peg_error)
| EParser (e : perror)
| EAst (e : ast_error).

(** src/peg/mod.rs:70-72 [error_peg_s]. *)
Definition error_peg_s (s : str) : peg_error := EPeg s None.

(** src/peg/mod.rs:76-78 [Error::ipush]. *)
Definition err_ipush (e : peg_error) (desc : str) : peg_error := EPeg desc (Some e).

(** src/peg/mod.rs:93-101 [Display for Error]; the [Debug] rendering of the two leaf kinds is abstracted
    by the functions [dp] (parser::Error) and [da] (ast::Error). *)
Fixpoint display_peg_error (dp : perror -> str) (da : ast_error -> str) (e : peg_error) : str :=
  match e with
  | EPeg s None => s
  | EPeg s (Some b) => s ++ s_ " > " ++ display_peg_error dp da b
  | EParser p => s_ "Parser(" ++ dp p ++ s_ ")"
  | EAst a => s_ "AST(" ++ da a ++ s_ ")"
  end.

(** src/peg/mod.rs:21-25 [struct Context]: the stack [inside_mods], last element = innermost. *)
Definition context := list str.

(** src/peg/mod.rs:28-32 [Context::new]. *)
Definition context_new : context := [].

(** src/peg/mod.rs:33-39 [Context::add_module]. *)
Definition add_module (c : context) (mod_name : str) : context :=
  match rev c with
  | mod_path :: _ => c ++ [mod_path ++ mod_name]
  | [] => c ++ [mod_name]
  end.

(** [result::Result<_, Error>], src/peg/mod.rs:106 and 222. *)
Definition pres (A : Type) := outcome peg_error A.

(** src/peg/mod.rs:40-52 [Context::remove_module]. *)
Definition remove_module (c : context) (mod_name : str) : pres context :=
  match c with
  | [] => Err (error_peg_s (s_ "remove module on empty path statck: <" ++ mod_name ++ s_ ">"))
  | _ => Ok (removelast c)
  end.

(** [?] on a helper of [ast::flat]: conversion [From<ast::Error>], src/peg/mod.rs:87-91. *)
Definition ast_ {A} (m : outcome ast_error A) : pres A := map_err EAst m.

(** The macro [push_err!], src/peg/mod.rs:210-215. *)
Definition push_err {A} (descr : str) (m : pres A) : pres A := map_err (fun e => err_ipush e descr) m.

(** Result of a consumer, src/peg/mod.rs:222: value, remaining tokens, context. *)
Definition cres (A : Type) := pres (A * list fnode * context).
(** A consumer, src/peg/mod.rs:224. *)
Definition consumer (A : Type) := list fnode -> context -> cres A.

(** src/peg/mod.rs:217-233 [consuming_rule]. *)
Definition consuming_rule {A} (rule_name : str) (nodes : list fnode) (ctx : context) (f : consumer A) : cres A :=
  push_err (s_ "consuming " ++ rule_name)
    (let? nodes := ast_ (fconsume_node_start_rule_name rule_name nodes) in
     let? (result, nodes, ctx) := f nodes ctx in
     let? nodes := ast_ (fconsume_node_end_rule_name rule_name nodes) in
     Ok (result, nodes, ctx)).

(** src/peg/mod.rs:392-402 [consume_symbol]. *)
Definition consume_symbol : consumer str := fun nodes ctx =>
  consuming_rule (s_ "symbol") nodes ctx (fun nodes ctx =>
    let? (val, nodes) := ast_ (fconsume_val nodes) in Ok (val, nodes, ctx)).

(** src/peg/mod.rs:313-323 [consume_mod_name]. *)
Definition consume_mod_name : consumer str := fun nodes ctx =>
  consuming_rule (s_ "mod_name") nodes ctx consume_symbol.

(** src/peg/mod.rs:347-365 [rec_consume_dot_symbol]. *)
Fixpoint rec_consume_dot_symbol (fuel : nat) (acc_name : str) (nodes : list fnode) (ctx : context) : cres str :=
  match fuel with
  | 0 => Fuel
  | S f =>
      let? nd := ast_ (fpeek_first_node nodes) in
      match nd with
      | FVal ch =>
          if str_eqb ch (s_ ".") then
            let? (_, nodes) := ast_ (fconsume_val nodes) in
            let? (symbol, nodes, ctx) := consume_symbol nodes ctx in
            rec_consume_dot_symbol f (acc_name ++ s_ "." ++ symbol) nodes ctx
          else Ok (acc_name, nodes, ctx)
      | _ => Ok (acc_name, nodes, ctx)
      end
  end.

(** src/peg/mod.rs:367-379 [get_dot_or_empty]. *)
Definition get_dot_or_empty : consumer str := fun nodes ctx =>
  let? nd := ast_ (fpeek_first_node nodes) in
  match nd with
  | FVal ch =>
      if str_eqb ch (s_ ".") then
        let? nodes := ast_ (fconsume_this_value (s_ ".") nodes) in Ok (s_ ".", nodes, ctx)
      else Ok ([], nodes, ctx)
  | _ => Ok ([], nodes, ctx)
  end.

(** src/peg/mod.rs:341-390 [consume_rule_name]. *)
Definition consume_rule_name (fuel : nat) : consumer str := fun nodes ctx =>
  consuming_rule (s_ "rule_name") nodes ctx (fun nodes ctx =>
    let? (start_dot, nodes, ctx) := get_dot_or_empty nodes ctx in
    let? (symbol, nodes, ctx) := consume_symbol nodes ctx in
    let? (dot_symbol, nodes, ctx) := rec_consume_dot_symbol fuel [] nodes ctx in
    Ok (start_dot ++ symbol ++ dot_symbol, nodes, ctx)).

(** src/peg/mod.rs:417-430 [enum ExprOrVecExpr] and [ipush]. *)
Inductive eov : Type := EovExpr (e : expr) | EovVExpr (v : list expr) | EovNone.
(** src/peg/mod.rs:422-430 [ExprOrVecExpr::ipush]. *)
Definition eov_ipush (x : eov) (e : expr) : eov :=
  match x with
  | EovExpr e0 => EovVExpr [e0; e]
  | EovVExpr v => EovVExpr (v ++ [e])
  | EovNone => EovExpr e
  end.

(** src/peg/mod.rs:802-812 [consume_quote]. *)
Definition consume_quote : consumer unit := fun nodes ctx =>
  consuming_rule (s_ "_""") nodes ctx (fun nodes ctx =>
    let? nodes := ast_ (fconsume_this_value (s_ """") nodes) in Ok (tt, nodes, ctx)).

(** src/peg/mod.rs:814-824 [consume_single_quote]. *)
Definition consume_single_quote : consumer unit := fun nodes ctx =>
  consuming_rule (s_ "_'") nodes ctx (fun nodes ctx =>
    let? nodes := ast_ (fconsume_this_value (s_ "'") nodes) in Ok (tt, nodes, ctx)).

(** src/peg/mod.rs:738-760 [consume_esc_char]. *)
Definition consume_esc_char : consumer str := fun nodes ctx =>
  consuming_rule (s_ "esc_char") nodes ctx (fun nodes ctx =>
    let? (val, nodes) := ast_ (fconsume_val nodes) in
    let? v :=
      (if str_eqb val (s_ "\r") then Ok [ch_cr]
       else if str_eqb val (s_ "\n") then Ok [ch_nl]
       else if str_eqb val (s_ "\t") then Ok [ch_tab]
       else if str_eqb val (s_ "\\") then Ok [ch_bslash]
       else if str_eqb val [ch_bslash; ch_dquote] then Ok [ch_dquote]
       else Err (error_peg_s (s_ "unknow esc char: " ++ val))) in
    Ok (v, nodes, ctx)).

(** [char::to_digit(16)], in [u8::from_str_radix], src/peg/mod.rs:774. *)
Definition hex_digit (c : char) : option N :=
  if (48 <=? c)%N && (c <=? 57)%N then Some (c - 48)%N
  else if (65 <=? c)%N && (c <=? 70)%N then Some (c - 55)%N
  else if (97 <=? c)%N && (c <=? 102)%N then Some (c - 87)%N
  else None.

(** The digit loop of [u8::from_str_radix(s, 16)], src/peg/mod.rs:774; [None] on a bad digit or overflow. *)
Fixpoint hex_digits (acc : N) (s : str) : option N :=
  match s with
  | [] => Some acc
  | c :: r =>
      match hex_digit c with
      | Some d => let v := (acc * 16 + d)%N in if (v <? 256)%N then hex_digits v r else None
      | None => None
      end
  end.

(** [u8::from_str_radix(s, 16)], src/peg/mod.rs:774: an optional leading '+', at least one digit. *)
Definition u8_from_str_radix_16 (s : str) : option N :=
  match s with
  | [] => None
  | c :: r =>
      if N.eqb c 43 then (match r with [] => None | _ => hex_digits 0 r end) else hex_digits 0 s
  end.

(** [&s[i..]], src/peg/mod.rs:772 and 776; [None] is a panic. *)
Definition slice_from (s : str) (i : nat) : option str := drop_bytes i s.

(** src/peg/mod.rs:762-780 [consume_hex_char].  [v as char] for [u8] is the scalar with the same value. *)
Definition consume_hex_char : consumer str := fun nodes ctx =>
  consuming_rule (s_ "hex_char") nodes ctx (fun nodes ctx =>
    let? (val, nodes) := ast_ (fconsume_val nodes) in
    match slice_from val 3 with
    | None => Panic
    | Some val =>
        let? ch :=
          match u8_from_str_radix_16 val with
          | Some v => Ok v
          | None => match slice_from val 2 with
                    | None => Panic
                    | Some t => Err (error_peg_s (s_ "error parsing hex " ++ t))
                    end
          end in
        Ok ([ch], nodes, ctx)
    end).

(** [{:#?}] of a [flat::Node] in the message of src/peg/mod.rs:703. *)
Definition debug_fnode (nd : fnode) : str :=
  let one k v := s_ k ++ s_ "(" ++ [ch_nl] ++ s_ "    " ++ debug_str v ++ s_ "," ++ [ch_nl] ++ s_ ")" in
  match nd with
  | FVal v => one "Val"%string v
  | FBegin v => one "BeginRule"%string v
  | FEnd v => one "EndRule"%string v
  | FEOF => s_ "EOF"
  end.

(** src/peg/mod.rs:685-707 [consume_element]. *)
Definition consume_element : consumer str := fun nodes ctx =>
  let? next_n := ast_ (fpeek_first_node nodes) in
  match next_n with
  | FBegin r_name =>
      if str_eqb r_name (s_ "esc_char") then consume_esc_char nodes ctx
      else if str_eqb r_name (s_ "hex_char") then consume_hex_char nodes ctx
      else Err (error_peg_s (s_ "unknown rule_name: " ++ r_name))
  | FVal _ => let? (val, nodes) := ast_ (fconsume_val nodes) in Ok (val, nodes, ctx)
  | _ => Err (error_peg_s (s_ "looking for element " ++ debug_fnode next_n))
  end.

(** src/peg/mod.rs:709-723 [rec_consume_lit_esc_ch]. *)
Fixpoint rec_consume_lit_esc_ch (fuel : nat) (s : str) (nodes : list fnode) (ctx : context) : cres str :=
  match fuel with
  | 0 => Fuel
  | S f =>
      let? nd := ast_ (fpeek_first_node nodes) in
      match fget_nodename nd with
      | Ok nm =>
          if str_eqb nm (s_ "_""") then Ok (s, nodes, ctx)
          else let? (v, nodes, ctx) := consume_element nodes ctx in rec_consume_lit_esc_ch f (s ++ v) nodes ctx
      | _ => let? (v, nodes, ctx) := consume_element nodes ctx in rec_consume_lit_esc_ch f (s ++ v) nodes ctx
      end
  end.

(** src/peg/mod.rs:675-736 [consume_literal_esc]. *)
Definition consume_literal_esc (fuel : nat) : consumer str := fun nodes ctx =>
  consuming_rule (s_ "lit_esc") nodes ctx (fun nodes ctx =>
    let? (_, nodes, ctx) := consume_quote nodes ctx in
    let? (val, nodes, ctx) := rec_consume_lit_esc_ch fuel [] nodes ctx in
    push_err (s_ "lesc:(" ++ val ++ s_ ")")
      (let? (_, nodes, ctx) := consume_quote nodes ctx in Ok (val, nodes, ctx))).

(** src/peg/mod.rs:782-800 [consume_literal_no_esc]. *)
Definition consume_literal_no_esc : consumer str := fun nodes ctx =>
  consuming_rule (s_ "lit_noesc") nodes ctx (fun nodes ctx =>
    let? (_, nodes, ctx) := consume_single_quote nodes ctx in
    let? (val, nodes) := ast_ (fconsume_val nodes) in
    let val := replace_char ch_bslash [ch_bslash; ch_bslash] val in
    push_err (s_ "l:(" ++ val ++ s_ ")")
      (let? (_, nodes, ctx) := consume_single_quote nodes ctx in Ok (val, nodes, ctx))).

(** src/peg/mod.rs:651-665 [consume_literal_string]. *)
Definition consume_literal_string (fuel : nat) : consumer str := fun nodes ctx =>
  consuming_rule (s_ "literal") nodes ctx (fun nodes ctx =>
    let? nd := ast_ (fpeek_first_node nodes) in
    let? next_node_name := ast_ (fget_nodename nd) in
    if str_eqb next_node_name (s_ "lit_noesc") then consume_literal_no_esc nodes ctx
    else if str_eqb next_node_name (s_ "lit_esc") then consume_literal_esc fuel nodes ctx
    else Err (error_peg_s (s_ "unexpected node " ++ next_node_name))).

(** src/peg/mod.rs:667-673 [consume_literal_expr]. *)
Definition consume_literal_expr (fuel : nat) : consumer expr := fun nodes ctx =>
  let? (val, nodes, ctx) := consume_literal_string fuel nodes ctx in Ok (lit val, nodes, ctx).

(** src/peg/mod.rs:826-836 [consume_dot]. *)
Definition consume_dot : consumer expr := fun nodes ctx =>
  consuming_rule (s_ "dot") nodes ctx (fun nodes ctx =>
    let? (_, nodes) := ast_ (fconsume_val nodes) in Ok (dot_, nodes, ctx)).

(** src/peg/mod.rs:838-847 [consume_rule_ref]. *)
Definition consume_rule_ref (fuel : nat) : consumer expr := fun nodes ctx =>
  push_err (s_ "consuming symbol rule_ref")
    (let? (symbol_name, nodes, ctx) := consume_rule_name fuel nodes ctx in
     Ok (ref_rule symbol_name, nodes, ctx)).

(** src/peg/mod.rs:904-914 [consume_mchars]. *)
Definition consume_mchars : consumer str := fun nodes ctx =>
  consuming_rule (s_ "mchars") nodes ctx (fun nodes ctx =>
    let? (val, nodes) := ast_ (fconsume_val nodes) in Ok (val, nodes, ctx)).

(** src/peg/mod.rs:926-930 [idata::consume_char(chars)] followed by [ok_or_else(..)?]: first char and the rest. *)
Definition consume_char_or (msg : str) (s : str) : pres (char * str) :=
  match s with c :: r => Ok (c, r) | [] => Err (error_peg_s msg) end.

(** src/peg/mod.rs:917-933 [consume_mbetween]. *)
Definition consume_mbetween : consumer (char * char) := fun nodes ctx =>
  consuming_rule (s_ "mbetween") nodes ctx (fun nodes ctx =>
    let? (from_to, nodes) := ast_ (fconsume_val nodes) in
    let? (from, chars) := consume_char_or (s_ "expected from char") from_to in
    let? (_, chars) := consume_char_or (s_ "expected '-' char") chars in
    let? (to, _) := consume_char_or (s_ "expected to char") chars in
    Ok ((from, to), nodes, ctx)).

(** src/peg/mod.rs:862-876 [rec_consume_mbetween]. *)
Fixpoint rec_consume_mbetween (fuel : nat) (acc : list (char * char)) (nodes : list fnode) (ctx : context)
  : cres (list (char * char)) :=
  match fuel with
  | 0 => Fuel
  | S f =>
      let? nd := ast_ (fpeek_first_node nodes) in
      match fget_nodename nd with
      | Ok nm =>
          if str_eqb nm (s_ "mbetween") then
            let? (ft, nodes, ctx) := consume_mbetween nodes ctx in
            rec_consume_mbetween f (acc ++ [ft]) nodes ctx
          else Ok (acc, nodes, ctx)
      | _ => Ok (acc, nodes, ctx)
      end
  end.

(** src/peg/mod.rs:849-902 [consume_match]. *)
Definition consume_match (fuel : nat) : consumer expr := fun nodes ctx =>
  consuming_rule (s_ "match") nodes ctx (fun nodes ctx =>
    let? nodes := ast_ (fconsume_this_value (s_ "[") nodes) in
    let? nd := ast_ (fpeek_first_node nodes) in
    let? nm := ast_ (fget_nodename nd) in
    let? (omchars, nodes, ctx) :=
      (if str_eqb nm (s_ "mchars") then
         let? (mchars, nodes, ctx) := consume_mchars nodes ctx in Ok (Some mchars, nodes, ctx)
       else Ok (None, nodes, ctx)) in
    let? (vchars, nodes, ctx) := rec_consume_mbetween fuel [] nodes ctx in
    let? e :=
      match omchars, vchars with
      | Some chars, [] => Ok (ematch chars [])
      | Some chars, _ => Ok (ematch chars vchars)
      | None, _ :: _ => Ok (ematch [] vchars)
      | None, [] => Err (error_peg_s (s_ "Invalid match combination"))
      end in
    let? nodes := ast_ (fconsume_this_value (s_ "]") nodes) in
    Ok (e, nodes, ctx)).

(** src/peg/mod.rs:637-649 [consume_parenth]; [cpe] is [consume_peg_expr]. *)
Definition consume_parenth (cpe : consumer expr) : consumer expr := fun nodes ctx =>
  consuming_rule (s_ "parenth") nodes ctx (fun nodes ctx =>
    let? nodes := ast_ (fconsume_this_value (s_ "(") nodes) in
    let? (e, nodes, ctx) := cpe nodes ctx in
    let? nodes := ast_ (fconsume_this_value (s_ ")") nodes) in
    Ok (e, nodes, ctx)).

(** src/peg/mod.rs:610-635 [consume_atom]. *)
Definition consume_atom (fuel : nat) : consumer expr := fun nodes ctx =>
  consuming_rule (s_ "atom") nodes ctx (fun nodes ctx =>
    let? nd := ast_ (fpeek_first_node nodes) in
    let? node_name := ast_ (fget_nodename nd) in
    push_err (s_ "n:" ++ node_name)
      (if str_eqb node_name (s_ "literal") then consume_literal_expr fuel nodes ctx
       else if str_eqb node_name (s_ "rule_name") then consume_rule_ref fuel nodes ctx
       else if str_eqb node_name (s_ "dot") then consume_dot nodes ctx
       else if str_eqb node_name (s_ "match") then consume_match fuel nodes ctx
       else Err (error_peg_s (s_ "unknown " ++ node_name)))).

(** src/peg/mod.rs:588-608 [consume_atom_or_par]. *)
Definition consume_atom_or_par (fuel : nat) (cpe : consumer expr) : consumer expr := fun nodes ctx =>
  consuming_rule (s_ "atom_or_par") nodes ctx (fun nodes ctx =>
    let? nd := ast_ (fpeek_first_node nodes) in
    let? node_name := ast_ (fget_nodename nd) in
    push_err (s_ "n:" ++ node_name)
      (if str_eqb node_name (s_ "atom") then consume_atom fuel nodes ctx
       else if str_eqb node_name (s_ "parenth") then consume_parenth cpe nodes ctx
       else Err (error_peg_s (s_ "unknown " ++ node_name)))).

(** src/peg/mod.rs:536-549 [process_repetition_indicator]. *)
Definition process_repetition_indicator (e : expr) (rsymbol : str) : pres expr :=
  if str_eqb rsymbol (s_ "+") then Ok (rep0 e 1)
  else if str_eqb rsymbol (s_ "*") then Ok (rep0 e 0)
  else if str_eqb rsymbol (s_ "?") then Ok (rep2 e 0 1)
  else Err (error_peg_s (s_ "repetition symbol unknown " ++ rsymbol)).

(** src/peg/mod.rs:551-562 [atom_and_rep]. *)
Definition atom_and_rep (cap : consumer expr) : consumer expr := fun nodes ctx =>
  let? (e, nodes, ctx) := cap nodes ctx in
  let? next_node := ast_ (fpeek_first_node nodes) in
  match next_node with
  | FVal _ =>
      let? (sep, nodes) := ast_ (fconsume_val nodes) in
      let? e' := process_repetition_indicator e sep in
      Ok (e', nodes, ctx)
  | _ => Ok (e, nodes, ctx)
  end.

(** src/peg/mod.rs:563-568 [neg_and_atom]. *)
Definition neg_and_atom (cap : consumer expr) : consumer expr := fun nodes ctx =>
  let? nodes := ast_ (fconsume_this_value (s_ "!") nodes) in
  let? (e, nodes, ctx) := cap nodes ctx in
  Ok (Not e, nodes, ctx).

(** src/peg/mod.rs:529-586 [consume_rep_or_neg]; [cap] is [consume_atom_or_par]. *)
Definition consume_rep_or_neg (cap : consumer expr) : consumer expr := fun nodes ctx =>
  consuming_rule (s_ "rep_or_neg") nodes ctx (fun nodes ctx =>
    let? nd := ast_ (fpeek_first_node nodes) in
    match nd with
    | FVal v =>
        if str_eqb v (s_ "!") then neg_and_atom cap nodes ctx
        else Err (error_peg_s (s_ "expected '!', received " ++ v))
    | _ => atom_and_rep cap nodes ctx
    end).

(** src/peg/mod.rs:472-486 [consume_error]. *)
Definition consume_error (fuel : nat) : consumer expr := fun nodes ctx =>
  let? (val, nodes, ctx) :=
    consuming_rule (s_ "error") nodes ctx (fun nodes ctx =>
      let? nodes := ast_ (fconsume_this_value (s_ "error") nodes) in
      let? nodes := ast_ (fconsume_this_value (s_ "(") nodes) in
      let? (text, nodes, ctx) := consume_literal_string fuel nodes ctx in
      let? nodes := ast_ (fconsume_this_value (s_ ")") nodes) in
      Ok (text, nodes, ctx)) in
  Ok (error_ val, nodes, ctx).

(** src/peg/mod.rs:495-516 [rec_consume_and]; [cron] is [consume_rep_or_neg], [cerr] is [consume_error]. *)
Fixpoint rec_consume_and (fuel : nat) (cron cerr : consumer expr) (acc : eov) (nodes : list fnode)
  (ctx : context) : cres eov :=
  match fuel with
  | 0 => Fuel
  | S f =>
      consuming_rule (s_ "and") nodes ctx (fun nodes ctx =>
        let? nd := ast_ (fpeek_first_node nodes) in
        let? nm := ast_ (fget_nodename nd) in
        if str_eqb (s_ "error") nm then
          let? (e, nodes, ctx) := cerr nodes ctx in
          Ok (eov_ipush acc e, nodes, ctx)
        else
          let? (e, nodes, ctx) := cron nodes ctx in
          let acc := eov_ipush acc e in
          let? next_node := ast_ (fpeek_first_node nodes) in
          match next_node with
          | FBegin n => if str_eqb n (s_ "and") then rec_consume_and f cron cerr acc nodes ctx
                        else Ok (acc, nodes, ctx)
          | _ => Ok (acc, nodes, ctx)
          end)
  end.

(** src/peg/mod.rs:488-527 [consume_and]. *)
Definition consume_and (fuel : nat) (cron cerr : consumer expr) : consumer expr := fun nodes ctx =>
  let? (x, nodes, ctx) := rec_consume_and fuel cron cerr EovNone nodes ctx in
  match x with
  | EovNone => Err (error_peg_s (s_ "logic error, empty or parsing???"))
  | EovExpr e => Ok (e, nodes, ctx)
  | EovVExpr v => Ok (And v, nodes, ctx)
  end.

(** src/peg/mod.rs:438-456 [rec_consume_or]; [cand] is [consume_and]. *)
Fixpoint rec_consume_or (fuel : nat) (cand : consumer expr) (acc : eov) (nodes : list fnode) (ctx : context)
  : cres eov :=
  match fuel with
  | 0 => Fuel
  | S f =>
      consuming_rule (s_ "or") nodes ctx (fun nodes ctx =>
        let? (e, nodes, ctx) := cand nodes ctx in
        let acc := eov_ipush acc e in
        let? next_node := ast_ (fpeek_first_node nodes) in
        match next_node with
        | FVal _ =>
            let? nodes := ast_ (fconsume_this_value (s_ "/") nodes) in
            rec_consume_or f cand acc nodes ctx
        | _ => Ok (acc, nodes, ctx)
        end)
  end.

(** src/peg/mod.rs:432-470 [consume_or]. *)
Definition consume_or (fuel : nat) (cand : consumer expr) : consumer expr := fun nodes ctx =>
  push_err (s_ "or:")
    (let? (x, nodes, ctx) := rec_consume_or fuel cand EovNone nodes ctx in
     match x with
     | EovNone => Err (error_peg_s (s_ "logic error, empty or parsing???"))
     | EovExpr e => Ok (e, nodes, ctx)
     | EovVExpr v => Ok (Or v, nodes, ctx)
     end).

(** src/peg/mod.rs:404-413 [consume_peg_expr]; the recursion through [consume_parenth] uses fuel. *)
Fixpoint consume_peg_expr (fuel : nat) (nodes : list fnode) (ctx : context) : cres expr :=
  match fuel with
  | 0 => Fuel
  | S f =>
      consuming_rule (s_ "expr") nodes ctx (fun nodes ctx =>
        consume_or f
          (consume_and f
             (consume_rep_or_neg (consume_atom_or_par f (consume_peg_expr f)))
             (consume_error f)) nodes ctx)
  end.

(** src/peg/mod.rs:326-339 [consume_rule]. *)
Definition consume_rule (fuel : nat) : consumer (str * expr) := fun nodes ctx =>
  consuming_rule (s_ "rule") nodes ctx (fun nodes ctx =>
    let? (rule_name, nodes, ctx) := consume_rule_name fuel nodes ctx in
    let? nodes := ast_ (fconsume_this_value (s_ "=") nodes) in
    let? (e, nodes, ctx) := consume_peg_expr fuel nodes ctx in
    Ok ((rule_name, e), nodes, ctx)).

(** src/peg/mod.rs:297-311 [consume_module]; [cg] is [consume_grammar]. *)
Definition consume_module (cg : consumer rules) : consumer rules := fun nodes ctx =>
  consuming_rule (s_ "module") nodes ctx (fun nodes ctx =>
    let? (mod_name, nodes, ctx) := consume_mod_name nodes ctx in
    let? nodes := ast_ (fconsume_this_value (s_ "{") nodes) in
    let? (rs, nodes, ctx) := cg nodes (add_module ctx mod_name) in
    let? nodes := ast_ (fconsume_this_value (s_ "}") nodes) in
    let? ctx := remove_module ctx mod_name in
    Ok (rs, nodes, ctx)).

(** src/peg/mod.rs:270-289 [rec_consume_rules_or_modules], with
    [consume_rule_and_add_set_of_rules] (252-260) and [consume_module_and_add_set_of_rules] (261-269). *)
Fixpoint rec_consume_rules_or_modules (fuel : nat) (cr : consumer (str * expr)) (cm : consumer rules)
  (rs : rules) (nodes : list fnode) (ctx : context) : cres rules :=
  match fuel with
  | 0 => Fuel
  | S f =>
      let? nd := ast_ (fpeek_first_node nodes) in
      match nd with
      | FBegin rule_or_module =>
          let? (rs, nodes, ctx) :=
            (if str_eqb rule_or_module (s_ "rule") then
               let? (ne, nodes, ctx) := cr nodes ctx in
               Ok (rules_add rs (fst ne) (snd ne), nodes, ctx)
             else if str_eqb rule_or_module (s_ "module") then
               let? (mod_rules, nodes, ctx) := cm nodes ctx in
               Ok (rules_merge rs mod_rules, nodes, ctx)
             else Err (error_peg_s (s_ "expected rule or module, received: " ++ rule_or_module))) in
          rec_consume_rules_or_modules f cr cm rs nodes ctx
      | _ => Ok (rs, nodes, ctx)
      end
  end.

(** src/peg/mod.rs:246-295 [consume_grammar]; the recursion through [consume_module] uses fuel. *)
Fixpoint consume_grammar (fuel : nat) (nodes : list fnode) (ctx : context) : cres rules :=
  match fuel with
  | 0 => Fuel
  | S f =>
      consuming_rule (s_ "grammar") nodes ctx (fun nodes ctx =>
        rec_consume_rules_or_modules f (consume_rule f) (consume_module (consume_grammar f))
          rules_new nodes ctx)
  end.

(** src/peg/mod.rs:235-244 [consume_main]. *)
Definition consume_main (fuel : nat) : consumer rules := fun nodes ctx =>
  consuming_rule (s_ "main") nodes ctx (fun nodes ctx => consume_grammar fuel nodes ctx).

(** src/peg/mod.rs:201-208 [rules_from_flat_ast]. *)
Definition rules_from_flat_ast (fuel : nat) (nodes : list fnode) : pres rules :=
  let? (rs, nodes, _) := consume_main fuel nodes context_new in
  match nodes with
  | [] => Ok rs
  | _ => Err (error_peg_s (s_ "expected empty nodes after processing main"))
  end.

(** The three names pruned by [rules_from_peg], src/peg/mod.rs:193. *)
Definition peg_blanks : list str := [s_ "_"; s_ "_1"; s_ "_eol"].

(** src/peg/mod.rs:191-196 [rules_from_peg]; one fuel for the parser, one for the token consumer. *)
Definition rules_from_peg (fuel : nat) (peg : str) : pres rules :=
  let? ast := map_err EParser (parse fuel peg parse_peg) in
  rules_from_flat_ast fuel (flatten (prune peg_blanks (compact ast))).
