(** Cost of reading a grammar: how many calls the walk over the tokens of a grammar text makes (src/peg/mod.rs:201-933), and how
    deeply they nest.  Every function below is that of the same name in ModelPeg, without the prefix [w_], and returns what
    that one returns together with a tally of calls: those of [consuming_rule] and of the recursive functions [rec_consume_*].
    Consecutive tallies are combined with [op]: with [Nat.add] the tally is the number of calls, with [Nat.max] how deeply
    they nest (the [rec_consume_*] functions call themselves last, but Rust does not promise to reuse the stack frame). *)
From Verif Require Import Base ModelAst ModelParser ModelPegRules ModelPeg.

Section Walk.
Variable op : nat -> nat -> nat.

(** Result of a step, src/peg/mod.rs:106, and the tally of its calls. *)
Definition walk (A : Type) : Type := pres A * nat.
(** Result of a consumer with the tally, src/peg/mod.rs:222. *)
Definition wres (A : Type) := walk (A * list fnode * context).
(** A consumer, src/peg/mod.rs:224. *)
Definition walker (A : Type) := list fnode -> context -> wres A.

(** Steps of src/peg/mod.rs without counted calls. *)
Definition free {A} (m : pres A) : walk A := (m, 0).
(** [Ok(..)] in src/peg/mod.rs:201-933. *)
Definition ret {A} (a : A) : walk A := free (Ok a).
(** [Err(..)] in src/peg/mod.rs:201-933. *)
Definition fail {A} (e : peg_error) : walk A := free (Err e).
(** [?] on a helper of [ast::flat], src/peg/mod.rs:87-91. *)
Definition free_ast {A} (m : outcome ast_error A) : walk A := free (ast_ m).
(** A counted call in src/peg/mod.rs. *)
Definition called {A} (m : walk A) : walk A := (fst m, S (snd m)).

(** The [?] operator, e.g. src/peg/mod.rs:228-230. *)
Definition w_bind {A B} (m : walk A) (k : A -> walk B) : walk B :=
  match fst m with
  | Ok a => let r := k a in (fst r, op (snd m) (snd r))
  | Err e => (Err e, snd m)
  | Panic => (Panic, snd m)
  | Fuel => (Fuel, snd m)
  end.
(** The [?] operator, e.g. src/peg/mod.rs:228-230. *)
Notation "'let!' p := m 'in' k" := (w_bind m (fun p => k))
  (at level 200, p pattern, m at level 100, k at level 200, right associativity).

(** The macro [push_err!], src/peg/mod.rs:210-215. *)
Definition w_push_err {A} (descr : str) (m : walk A) : walk A := (push_err descr (fst m), snd m).

(** src/peg/mod.rs:217-233 [consuming_rule]. *)
Definition w_consuming_rule {A} (rule_name : str) (nodes : list fnode) (ctx : context) (f : walker A) : wres A :=
  called (w_push_err (s_ "consuming " ++ rule_name)
    (let! nodes := free_ast (fconsume_node_start_rule_name rule_name nodes) in
     let! (result, nodes, ctx) := f nodes ctx in
     let! nodes := free_ast (fconsume_node_end_rule_name rule_name nodes) in
     ret (result, nodes, ctx))).

(** src/peg/mod.rs:392-402 [consume_symbol]. *)
Definition w_consume_symbol : walker str := fun nodes ctx =>
  w_consuming_rule (s_ "symbol") nodes ctx (fun nodes ctx =>
    let! (val, nodes) := free_ast (fconsume_val nodes) in ret (val, nodes, ctx)).

(** src/peg/mod.rs:313-323 [consume_mod_name]. *)
Definition w_consume_mod_name : walker str := fun nodes ctx =>
  w_consuming_rule (s_ "mod_name") nodes ctx w_consume_symbol.

(** src/peg/mod.rs:347-365 [rec_consume_dot_symbol]. *)
Fixpoint w_rec_consume_dot_symbol (fuel : nat) (acc_name : str) (nodes : list fnode) (ctx : context) : wres str :=
  match fuel with
  | 0 => free Fuel
  | S f =>
      called (let! nd := free_ast (fpeek_first_node nodes) in
      match nd with
      | FVal ch =>
          if str_eqb ch (s_ ".") then
            let! (_, nodes) := free_ast (fconsume_val nodes) in
            let! (symbol, nodes, ctx) := w_consume_symbol nodes ctx in
            w_rec_consume_dot_symbol f (acc_name ++ s_ "." ++ symbol) nodes ctx
          else ret (acc_name, nodes, ctx)
      | _ => ret (acc_name, nodes, ctx)
      end)
  end.

(** src/peg/mod.rs:367-379 [get_dot_or_empty]. *)
Definition w_get_dot_or_empty : walker str := fun nodes ctx =>
  let! nd := free_ast (fpeek_first_node nodes) in
  match nd with
  | FVal ch =>
      if str_eqb ch (s_ ".") then
        let! nodes := free_ast (fconsume_this_value (s_ ".") nodes) in ret (s_ ".", nodes, ctx)
      else ret ([], nodes, ctx)
  | _ => ret ([], nodes, ctx)
  end.

(** src/peg/mod.rs:341-390 [consume_rule_name]. *)
Definition w_consume_rule_name (fuel : nat) : walker str := fun nodes ctx =>
  w_consuming_rule (s_ "rule_name") nodes ctx (fun nodes ctx =>
    let! (start_dot, nodes, ctx) := w_get_dot_or_empty nodes ctx in
    let! (symbol, nodes, ctx) := w_consume_symbol nodes ctx in
    let! (dot_symbol, nodes, ctx) := w_rec_consume_dot_symbol fuel [] nodes ctx in
    ret (start_dot ++ symbol ++ dot_symbol, nodes, ctx)).

(** src/peg/mod.rs:802-812 [consume_quote]. *)
Definition w_consume_quote : walker unit := fun nodes ctx =>
  w_consuming_rule (s_ "_""") nodes ctx (fun nodes ctx =>
    let! nodes := free_ast (fconsume_this_value (s_ """") nodes) in ret (tt, nodes, ctx)).

(** src/peg/mod.rs:814-824 [consume_single_quote]. *)
Definition w_consume_single_quote : walker unit := fun nodes ctx =>
  w_consuming_rule (s_ "_'") nodes ctx (fun nodes ctx =>
    let! nodes := free_ast (fconsume_this_value (s_ "'") nodes) in ret (tt, nodes, ctx)).

(** src/peg/mod.rs:738-760 [consume_esc_char]. *)
Definition w_consume_esc_char : walker str := fun nodes ctx =>
  w_consuming_rule (s_ "esc_char") nodes ctx (fun nodes ctx =>
    let! (val, nodes) := free_ast (fconsume_val nodes) in
    let! v :=
      (if str_eqb val (s_ "\r") then ret [ch_cr]
       else if str_eqb val (s_ "\n") then ret [ch_nl]
       else if str_eqb val (s_ "\t") then ret [ch_tab]
       else if str_eqb val (s_ "\\") then ret [ch_bslash]
       else if str_eqb val [ch_bslash; ch_dquote] then ret [ch_dquote]
       else fail (error_peg_s (s_ "unknow esc char: " ++ val))) in
    ret (v, nodes, ctx)).

(** src/peg/mod.rs:762-780 [consume_hex_char].  [v as char] for [u8] is the scalar with the same value. *)
Definition w_consume_hex_char : walker str := fun nodes ctx =>
  w_consuming_rule (s_ "hex_char") nodes ctx (fun nodes ctx =>
    let! (val, nodes) := free_ast (fconsume_val nodes) in
    match slice_from val 3 with
    | None => free Panic
    | Some val =>
        let! ch :=
          match u8_from_str_radix_16 val with
          | Some v => ret v
          | None => match slice_from val 2 with
                    | None => free Panic
                    | Some t => fail (error_peg_s (s_ "error parsing hex " ++ t))
                    end
          end in
        ret ([ch], nodes, ctx)
    end).

(** src/peg/mod.rs:685-707 [consume_element]. *)
Definition w_consume_element : walker str := fun nodes ctx =>
  let! next_n := free_ast (fpeek_first_node nodes) in
  match next_n with
  | FBegin r_name =>
      if str_eqb r_name (s_ "esc_char") then w_consume_esc_char nodes ctx
      else if str_eqb r_name (s_ "hex_char") then w_consume_hex_char nodes ctx
      else fail (error_peg_s (s_ "unknown rule_name: " ++ r_name))
  | FVal _ => let! (val, nodes) := free_ast (fconsume_val nodes) in ret (val, nodes, ctx)
  | _ => fail (error_peg_s (s_ "looking for element " ++ debug_fnode next_n))
  end.

(** src/peg/mod.rs:709-723 [rec_consume_lit_esc_ch]. *)
Fixpoint w_rec_consume_lit_esc_ch (fuel : nat) (s : str) (nodes : list fnode) (ctx : context) : wres str :=
  match fuel with
  | 0 => free Fuel
  | S f =>
      called (let! nd := free_ast (fpeek_first_node nodes) in
      match fget_nodename nd with
      | Ok nm =>
          if str_eqb nm (s_ "_""") then ret (s, nodes, ctx)
          else let! (v, nodes, ctx) := w_consume_element nodes ctx in w_rec_consume_lit_esc_ch f (s ++ v) nodes ctx
      | _ => let! (v, nodes, ctx) := w_consume_element nodes ctx in w_rec_consume_lit_esc_ch f (s ++ v) nodes ctx
      end)
  end.

(** src/peg/mod.rs:675-736 [consume_literal_esc]. *)
Definition w_consume_literal_esc (fuel : nat) : walker str := fun nodes ctx =>
  w_consuming_rule (s_ "lit_esc") nodes ctx (fun nodes ctx =>
    let! (_, nodes, ctx) := w_consume_quote nodes ctx in
    let! (val, nodes, ctx) := w_rec_consume_lit_esc_ch fuel [] nodes ctx in
    w_push_err (s_ "lesc:(" ++ val ++ s_ ")")
      (let! (_, nodes, ctx) := w_consume_quote nodes ctx in ret (val, nodes, ctx))).

(** src/peg/mod.rs:782-800 [consume_literal_no_esc]. *)
Definition w_consume_literal_no_esc : walker str := fun nodes ctx =>
  w_consuming_rule (s_ "lit_noesc") nodes ctx (fun nodes ctx =>
    let! (_, nodes, ctx) := w_consume_single_quote nodes ctx in
    let! (val, nodes) := free_ast (fconsume_val nodes) in
    let val := replace_char ch_bslash [ch_bslash; ch_bslash] val in
    w_push_err (s_ "l:(" ++ val ++ s_ ")")
      (let! (_, nodes, ctx) := w_consume_single_quote nodes ctx in ret (val, nodes, ctx))).

(** src/peg/mod.rs:651-665 [consume_literal_string]. *)
Definition w_consume_literal_string (fuel : nat) : walker str := fun nodes ctx =>
  w_consuming_rule (s_ "literal") nodes ctx (fun nodes ctx =>
    let! nd := free_ast (fpeek_first_node nodes) in
    let! next_node_name := free_ast (fget_nodename nd) in
    if str_eqb next_node_name (s_ "lit_noesc") then w_consume_literal_no_esc nodes ctx
    else if str_eqb next_node_name (s_ "lit_esc") then w_consume_literal_esc fuel nodes ctx
    else fail (error_peg_s (s_ "unexpected node " ++ next_node_name))).

(** src/peg/mod.rs:667-673 [consume_literal_expr]. *)
Definition w_consume_literal_expr (fuel : nat) : walker expr := fun nodes ctx =>
  let! (val, nodes, ctx) := w_consume_literal_string fuel nodes ctx in ret (lit val, nodes, ctx).

(** src/peg/mod.rs:826-836 [consume_dot]. *)
Definition w_consume_dot : walker expr := fun nodes ctx =>
  w_consuming_rule (s_ "dot") nodes ctx (fun nodes ctx =>
    let! (_, nodes) := free_ast (fconsume_val nodes) in ret (dot_, nodes, ctx)).

(** src/peg/mod.rs:838-847 [consume_rule_ref]. *)
Definition w_consume_rule_ref (fuel : nat) : walker expr := fun nodes ctx =>
  w_push_err (s_ "consuming symbol rule_ref")
    (let! (symbol_name, nodes, ctx) := w_consume_rule_name fuel nodes ctx in
     ret (ref_rule symbol_name, nodes, ctx)).

(** src/peg/mod.rs:904-914 [consume_mchars]. *)
Definition w_consume_mchars : walker str := fun nodes ctx =>
  w_consuming_rule (s_ "mchars") nodes ctx (fun nodes ctx =>
    let! (val, nodes) := free_ast (fconsume_val nodes) in ret (val, nodes, ctx)).

(** src/peg/mod.rs:917-933 [consume_mbetween]. *)
Definition w_consume_mbetween : walker (char * char) := fun nodes ctx =>
  w_consuming_rule (s_ "mbetween") nodes ctx (fun nodes ctx =>
    let! (from_to, nodes) := free_ast (fconsume_val nodes) in
    let! (from, chars) := free (consume_char_or (s_ "expected from char") from_to) in
    let! (_, chars) := free (consume_char_or (s_ "expected '-' char") chars) in
    let! (to, _) := free (consume_char_or (s_ "expected to char") chars) in
    ret ((from, to), nodes, ctx)).

(** src/peg/mod.rs:862-876 [rec_consume_mbetween]. *)
Fixpoint w_rec_consume_mbetween (fuel : nat) (acc : list (char * char)) (nodes : list fnode) (ctx : context)
  : wres (list (char * char)) :=
  match fuel with
  | 0 => free Fuel
  | S f =>
      called (let! nd := free_ast (fpeek_first_node nodes) in
      match fget_nodename nd with
      | Ok nm =>
          if str_eqb nm (s_ "mbetween") then
            let! (ft, nodes, ctx) := w_consume_mbetween nodes ctx in
            w_rec_consume_mbetween f (acc ++ [ft]) nodes ctx
          else ret (acc, nodes, ctx)
      | _ => ret (acc, nodes, ctx)
      end)
  end.

(** src/peg/mod.rs:849-902 [consume_match]. *)
Definition w_consume_match (fuel : nat) : walker expr := fun nodes ctx =>
  w_consuming_rule (s_ "match") nodes ctx (fun nodes ctx =>
    let! nodes := free_ast (fconsume_this_value (s_ "[") nodes) in
    let! nd := free_ast (fpeek_first_node nodes) in
    let! nm := free_ast (fget_nodename nd) in
    let! (omchars, nodes, ctx) :=
      (if str_eqb nm (s_ "mchars") then
         let! (mchars, nodes, ctx) := w_consume_mchars nodes ctx in ret (Some mchars, nodes, ctx)
       else ret (None, nodes, ctx)) in
    let! (vchars, nodes, ctx) := w_rec_consume_mbetween fuel [] nodes ctx in
    let! e :=
      match omchars, vchars with
      | Some chars, [] => ret (ematch chars [])
      | Some chars, _ => ret (ematch chars vchars)
      | None, _ :: _ => ret (ematch [] vchars)
      | None, [] => fail (error_peg_s (s_ "Invalid match combination"))
      end in
    let! nodes := free_ast (fconsume_this_value (s_ "]") nodes) in
    ret (e, nodes, ctx)).

(** src/peg/mod.rs:637-649 [consume_parenth]; [cpe] is [consume_peg_expr]. *)
Definition w_consume_parenth (cpe : walker expr) : walker expr := fun nodes ctx =>
  w_consuming_rule (s_ "parenth") nodes ctx (fun nodes ctx =>
    let! nodes := free_ast (fconsume_this_value (s_ "(") nodes) in
    let! (e, nodes, ctx) := cpe nodes ctx in
    let! nodes := free_ast (fconsume_this_value (s_ ")") nodes) in
    ret (e, nodes, ctx)).

(** src/peg/mod.rs:610-635 [consume_atom]. *)
Definition w_consume_atom (fuel : nat) : walker expr := fun nodes ctx =>
  w_consuming_rule (s_ "atom") nodes ctx (fun nodes ctx =>
    let! nd := free_ast (fpeek_first_node nodes) in
    let! node_name := free_ast (fget_nodename nd) in
    w_push_err (s_ "n:" ++ node_name)
      (if str_eqb node_name (s_ "literal") then w_consume_literal_expr fuel nodes ctx
       else if str_eqb node_name (s_ "rule_name") then w_consume_rule_ref fuel nodes ctx
       else if str_eqb node_name (s_ "dot") then w_consume_dot nodes ctx
       else if str_eqb node_name (s_ "match") then w_consume_match fuel nodes ctx
       else fail (error_peg_s (s_ "unknown " ++ node_name)))).

(** src/peg/mod.rs:588-608 [consume_atom_or_par]. *)
Definition w_consume_atom_or_par (fuel : nat) (cpe : walker expr) : walker expr := fun nodes ctx =>
  w_consuming_rule (s_ "atom_or_par") nodes ctx (fun nodes ctx =>
    let! nd := free_ast (fpeek_first_node nodes) in
    let! node_name := free_ast (fget_nodename nd) in
    w_push_err (s_ "n:" ++ node_name)
      (if str_eqb node_name (s_ "atom") then w_consume_atom fuel nodes ctx
       else if str_eqb node_name (s_ "parenth") then w_consume_parenth cpe nodes ctx
       else fail (error_peg_s (s_ "unknown " ++ node_name)))).

(** src/peg/mod.rs:551-562 [atom_and_rep]. *)
Definition w_atom_and_rep (cap : walker expr) : walker expr := fun nodes ctx =>
  let! (e, nodes, ctx) := cap nodes ctx in
  let! next_node := free_ast (fpeek_first_node nodes) in
  match next_node with
  | FVal _ =>
      let! (sep, nodes) := free_ast (fconsume_val nodes) in
      let! e' := free (process_repetition_indicator e sep) in
      ret (e', nodes, ctx)
  | _ => ret (e, nodes, ctx)
  end.

(** src/peg/mod.rs:563-568 [neg_and_atom]. *)
Definition w_neg_and_atom (cap : walker expr) : walker expr := fun nodes ctx =>
  let! nodes := free_ast (fconsume_this_value (s_ "!") nodes) in
  let! (e, nodes, ctx) := cap nodes ctx in
  ret (Not e, nodes, ctx).

(** src/peg/mod.rs:529-586 [consume_rep_or_neg]; [cap] is [consume_atom_or_par]. *)
Definition w_consume_rep_or_neg (cap : walker expr) : walker expr := fun nodes ctx =>
  w_consuming_rule (s_ "rep_or_neg") nodes ctx (fun nodes ctx =>
    let! nd := free_ast (fpeek_first_node nodes) in
    match nd with
    | FVal v =>
        if str_eqb v (s_ "!") then w_neg_and_atom cap nodes ctx
        else fail (error_peg_s (s_ "expected '!', received " ++ v))
    | _ => w_atom_and_rep cap nodes ctx
    end).

(** src/peg/mod.rs:472-486 [consume_error]. *)
Definition w_consume_error (fuel : nat) : walker expr := fun nodes ctx =>
  let! (val, nodes, ctx) :=
    w_consuming_rule (s_ "error") nodes ctx (fun nodes ctx =>
      let! nodes := free_ast (fconsume_this_value (s_ "error") nodes) in
      let! nodes := free_ast (fconsume_this_value (s_ "(") nodes) in
      let! (text, nodes, ctx) := w_consume_literal_string fuel nodes ctx in
      let! nodes := free_ast (fconsume_this_value (s_ ")") nodes) in
      ret (text, nodes, ctx)) in
  ret (error_ val, nodes, ctx).

(** src/peg/mod.rs:495-516 [rec_consume_and]; [cron] is [consume_rep_or_neg], [cerr] is [consume_error]. *)
Fixpoint w_rec_consume_and (fuel : nat) (cron cerr : walker expr) (acc : eov) (nodes : list fnode)
  (ctx : context) : wres eov :=
  match fuel with
  | 0 => free Fuel
  | S f =>
      called (w_consuming_rule (s_ "and") nodes ctx (fun nodes ctx =>
        let! nd := free_ast (fpeek_first_node nodes) in
        let! nm := free_ast (fget_nodename nd) in
        if str_eqb (s_ "error") nm then
          let! (e, nodes, ctx) := cerr nodes ctx in
          ret (eov_ipush acc e, nodes, ctx)
        else
          let! (e, nodes, ctx) := cron nodes ctx in
          let acc := eov_ipush acc e in
          let! next_node := free_ast (fpeek_first_node nodes) in
          match next_node with
          | FBegin n => if str_eqb n (s_ "and") then w_rec_consume_and f cron cerr acc nodes ctx
                        else ret (acc, nodes, ctx)
          | _ => ret (acc, nodes, ctx)
          end))
  end.

(** src/peg/mod.rs:488-527 [consume_and]. *)
Definition w_consume_and (fuel : nat) (cron cerr : walker expr) : walker expr := fun nodes ctx =>
  let! (x, nodes, ctx) := w_rec_consume_and fuel cron cerr EovNone nodes ctx in
  match x with
  | EovNone => fail (error_peg_s (s_ "logic error, empty or parsing???"))
  | EovExpr e => ret (e, nodes, ctx)
  | EovVExpr v => ret (And v, nodes, ctx)
  end.

(** src/peg/mod.rs:438-456 [rec_consume_or]; [cand] is [consume_and]. *)
Fixpoint w_rec_consume_or (fuel : nat) (cand : walker expr) (acc : eov) (nodes : list fnode) (ctx : context)
  : wres eov :=
  match fuel with
  | 0 => free Fuel
  | S f =>
      called (w_consuming_rule (s_ "or") nodes ctx (fun nodes ctx =>
        let! (e, nodes, ctx) := cand nodes ctx in
        let acc := eov_ipush acc e in
        let! next_node := free_ast (fpeek_first_node nodes) in
        match next_node with
        | FVal _ =>
            let! nodes := free_ast (fconsume_this_value (s_ "/") nodes) in
            w_rec_consume_or f cand acc nodes ctx
        | _ => ret (acc, nodes, ctx)
        end))
  end.

(** src/peg/mod.rs:432-470 [consume_or]. *)
Definition w_consume_or (fuel : nat) (cand : walker expr) : walker expr := fun nodes ctx =>
  w_push_err (s_ "or:")
    (let! (x, nodes, ctx) := w_rec_consume_or fuel cand EovNone nodes ctx in
     match x with
     | EovNone => fail (error_peg_s (s_ "logic error, empty or parsing???"))
     | EovExpr e => ret (e, nodes, ctx)
     | EovVExpr v => ret (Or v, nodes, ctx)
     end).

(** src/peg/mod.rs:404-413 [consume_peg_expr]; the recursion through [consume_parenth] uses fuel. *)
Fixpoint w_consume_peg_expr (fuel : nat) (nodes : list fnode) (ctx : context) : wres expr :=
  match fuel with
  | 0 => free Fuel
  | S f =>
      w_consuming_rule (s_ "expr") nodes ctx (fun nodes ctx =>
        w_consume_or f
          (w_consume_and f
             (w_consume_rep_or_neg (w_consume_atom_or_par f (w_consume_peg_expr f)))
             (w_consume_error f)) nodes ctx)
  end.

(** src/peg/mod.rs:326-339 [consume_rule]. *)
Definition w_consume_rule (fuel : nat) : walker (str * expr) := fun nodes ctx =>
  w_consuming_rule (s_ "rule") nodes ctx (fun nodes ctx =>
    let! (rule_name, nodes, ctx) := w_consume_rule_name fuel nodes ctx in
    let! nodes := free_ast (fconsume_this_value (s_ "=") nodes) in
    let! (e, nodes, ctx) := w_consume_peg_expr fuel nodes ctx in
    ret ((rule_name, e), nodes, ctx)).

(** src/peg/mod.rs:297-311 [consume_module]; [cg] is [consume_grammar]. *)
Definition w_consume_module (cg : walker rules) : walker rules := fun nodes ctx =>
  w_consuming_rule (s_ "module") nodes ctx (fun nodes ctx =>
    let! (mod_name, nodes, ctx) := w_consume_mod_name nodes ctx in
    let! nodes := free_ast (fconsume_this_value (s_ "{") nodes) in
    let! (rs, nodes, ctx) := cg nodes (add_module ctx mod_name) in
    let! nodes := free_ast (fconsume_this_value (s_ "}") nodes) in
    let! ctx := free (remove_module ctx mod_name) in
    ret (rs, nodes, ctx)).

(** src/peg/mod.rs:270-289 [rec_consume_rules_or_modules], with
    [consume_rule_and_add_set_of_rules] (252-260) and [consume_module_and_add_set_of_rules] (261-269). *)
Fixpoint w_rec_consume_rules_or_modules (fuel : nat) (cr : walker (str * expr)) (cm : walker rules)
  (rs : rules) (nodes : list fnode) (ctx : context) : wres rules :=
  match fuel with
  | 0 => free Fuel
  | S f =>
      called (let! nd := free_ast (fpeek_first_node nodes) in
      match nd with
      | FBegin rule_or_module =>
          let! (rs, nodes, ctx) :=
            (if str_eqb rule_or_module (s_ "rule") then
               let! (ne, nodes, ctx) := cr nodes ctx in
               ret (rules_add rs (fst ne) (snd ne), nodes, ctx)
             else if str_eqb rule_or_module (s_ "module") then
               let! (mod_rules, nodes, ctx) := cm nodes ctx in
               ret (rules_merge rs mod_rules, nodes, ctx)
             else fail (error_peg_s (s_ "expected rule or module, received: " ++ rule_or_module))) in
          w_rec_consume_rules_or_modules f cr cm rs nodes ctx
      | _ => ret (rs, nodes, ctx)
      end)
  end.

(** src/peg/mod.rs:246-295 [consume_grammar]; the recursion through [consume_module] uses fuel. *)
Fixpoint w_consume_grammar (fuel : nat) (nodes : list fnode) (ctx : context) : wres rules :=
  match fuel with
  | 0 => free Fuel
  | S f =>
      w_consuming_rule (s_ "grammar") nodes ctx (fun nodes ctx =>
        w_rec_consume_rules_or_modules f (w_consume_rule f) (w_consume_module (w_consume_grammar f))
          rules_new nodes ctx)
  end.

(** src/peg/mod.rs:235-244 [consume_main]. *)
Definition w_consume_main (fuel : nat) : walker rules := fun nodes ctx =>
  w_consuming_rule (s_ "main") nodes ctx (fun nodes ctx => w_consume_grammar fuel nodes ctx).

(** src/peg/mod.rs:201-208 [rules_from_flat_ast]. *)
Definition w_rules_from_flat_ast (fuel : nat) (nodes : list fnode) : walk rules :=
  let! (rs, nodes, _) := w_consume_main fuel nodes context_new in
  match nodes with
  | [] => ret rs
  | _ => fail (error_peg_s (s_ "expected empty nodes after processing main"))
  end.

(** src/peg/mod.rs:191-196 [rules_from_peg]: the calls made after the text is parsed. *)
Definition read_tally (fuel : nat) (peg : str) : nat :=
  match parse fuel peg parse_peg with
  | Ok ast => snd (w_rules_from_flat_ast fuel (flatten (prune peg_blanks (compact ast))))
  | _ => 0
  end.

End Walk.

(** Calls made by [rules_from_peg] (src/peg/mod.rs:191-196) after the text is parsed, and how deeply they nest. *)
Definition read_calls : nat -> str -> nat := read_tally Nat.add.
(** How deeply the calls made by [rules_from_peg] (src/peg/mod.rs:191-196) nest after the text is parsed. *)
Definition read_nesting : nat -> str -> nat := read_tally Nat.max.
