(** Model of src/parser/mod.rs, src/parser/atom/mod.rs, src/parser/expression/mod.rs and of the API and
    macros of src/lib.rs. *)
From Verif Require Import Base ModelAst.

(* ------------------------------------------------------------------------------------------- *)
(** * Grammar data: src/parser/atom/mod.rs, src/parser/expression/mod.rs *)

(** src/parser/atom/mod.rs:20-38 [enum Atom], [struct MatchRules(String, Vec<(char, char)>)]. *)
Inductive atom : Type :=
| Literal (s : str)
| Match (chars : str) (ranges : list (char * char))
| AError (s : str)
| Dot
| AEOF.

(** src/parser/expression/mod.rs:109-138 [enum Expression], [MultiExpr], [RepInfo], [NRep].
    [Repeat e min max]; the counters are [usize] in Rust. *)
Inductive expr : Type :=
| Simple (a : atom)
| And (es : list expr)
| Or (es : list expr)
| Not (e : expr)
| Repeat (e : expr) (min : nat) (max : option nat)
| RuleName (n : str).

(** src/parser/expression/mod.rs:34 [SetOfRules(pub HashMap<String, Expression>)]: association list whose
    keys are unique in every map built with [rules_new], [rules_add], [rules_merge]. *)
Definition rules := list (str * expr).

(** [HashMap::get], src/parser/expression/mod.rs:190. *)
Fixpoint rules_get (m : rules) (k : str) : option expr :=
  match m with
  | [] => None
  | (k', e) :: r => if str_eqb k' k then Some e else rules_get r k
  end.

(** [HashMap::insert], src/parser/expression/mod.rs:71: replaces the value of an existing key. *)
Definition hm_insert (m : rules) (k : str) (e : expr) : rules :=
  (k, e) :: filter (fun p => negb (str_eqb (fst p) k)) m.

(** src/parser/expression/mod.rs:39-41 applied to an empty map, as in [rules!()] (src/lib.rs:143). *)
Definition rules_new : rules := [].

(** src/parser/expression/mod.rs:70-73 [SetOfRules::add]. *)
Definition rules_add (m : rules) (name : str) (e : expr) : rules := hm_insert m name e.

(** src/parser/expression/mod.rs:102-104 [SetOfRules::merge]:
    [rules2merge.0.into_iter().chain(self.0).collect()], collecting inserts one pair after the other. *)
Definition rules_merge (self rules2merge : rules) : rules :=
  fold_left (fun m p => hm_insert m (fst p) (snd p)) (rules2merge ++ self) [].

(** src/lib.rs:138-147 the macro [rules!]. *)
Definition rules_macro (l : list (str * expr)) : rules :=
  fold_left (fun m p => rules_add m (fst p) (snd p)) l rules_new.

(** src/lib.rs:165-444 the expression macros.  The two forms of [ematch!] (src/lib.rs:287-305) give the same value for the same
    chars and ranges, through [MatchRules::init] (src/parser/atom/mod.rs:72-74); [and!], [or!], [not!] are the
    constructors; [rep!] has two forms. *)
Definition lit (s : str) : expr := Simple (Literal s).
(** src/lib.rs:210-216 the macro [error!]. *)
Definition error_ (s : str) : expr := Simple (AError s).
(** src/lib.rs:234-238 the macro [dot!]. *)
Definition dot_ : expr := Simple Dot.
(** src/lib.rs:287-305 the macro [ematch!]. *)
Definition ematch (chars : str) (ranges : list (char * char)) : expr := Simple (Match chars ranges).
(** src/lib.rs:411-423 the macro [rep!] without a maximum. *)
Definition rep0 (e : expr) (mn : nat) : expr := Repeat e mn None.
(** src/lib.rs:411-423 the macro [rep!] with a maximum. *)
Definition rep2 (e : expr) (mn mx : nat) : expr := Repeat e mn (Some mx).
(** src/lib.rs:440-444 the macro [ref_rule!]. *)
Definition ref_rule (n : str) : expr := RuleName n.

(* ------------------------------------------------------------------------------------------- *)
(** * Status and errors: src/parser/mod.rs *)

(** src/parser/mod.rs:33-53 [struct Possition] and [init]. *)
Record position := Pos { pn : nat; prow : nat; pcol : nat; pstart_line : nat }.
(** src/parser/mod.rs:44-53 [Possition::init]. *)
Definition pos_init : position := Pos 0 0 0 0.

(** src/parser/mod.rs:57-62 [enum ErrPriority] (derived order: [Normal < Critical]). *)
Inductive prio := Normal | Critical.
(** src/parser/expression/mod.rs:252 [e1.priority > e2.priority], the derived order of src/parser/mod.rs:57-62. *)
Definition prio_gt (a b : prio) : bool :=
  match a, b with Critical, Normal => true | _, _ => false end.
(** src/parser/expression/mod.rs:276 and 308 [e.priority == ErrPriority::Critical]. *)
Definition is_critical (a : prio) : bool := match a with Critical => true | Normal => false end.

(** src/parser/mod.rs:66-82 [struct Error]. *)
Record perror := PError {
  e_pos : position;
  e_descr : str;
  e_line_before : str;
  e_line_after : str;
  e_parsing_rules : list str;
  e_priority : prio }.

(** src/parser/mod.rs:86-102 [struct Status].  [it_parsing] (a [Chars] iterator) is the list of remaining
    chars.  Simplification: the field [rules], never changed, is a parameter of the functions below. *)
Record status := Status {
  text2parse : str;
  it_parsing : str;
  st_pos : position;
  potential_error : option perror;
  trace_rules : bool;
  walking_rules : list str }.

(** src/parser/mod.rs:105-115 [Status::init]. *)
Definition status_init (t2p : str) : status := Status t2p t2p pos_init None false [].

(** src/parser/mod.rs:117-131 [Status::init_debug]. *)
Definition status_init_debug (t2p : str) (trace : bool) : status := Status t2p t2p pos_init None trace [].

(** src/parser/mod.rs:132-135 [Status::push_rule]. *)
Definition push_rule (st : status) (on_node : str) : status :=
  Status (text2parse st) (it_parsing st) (st_pos st) (potential_error st) (trace_rules st)
         (walking_rules st ++ [on_node]).

(** src/parser/mod.rs:136-139 [Status::set_potential_error]. *)
Definition set_potential_error (st : status) (e : perror) : status :=
  Status (text2parse st) (it_parsing st) (st_pos st) (Some e) (trace_rules st) (walking_rules st).

(** src/parser/mod.rs:162-176 [Error::from_status]; [None] when slicing [text2parse] panics. *)
Definition from_status (st : status) (descr : str) (p : prio) : option perror :=
  match slice (text2parse st) (pstart_line (st_pos st)) (pn (st_pos st)) with
  | None => None
  | Some lb =>
      Some (PError (st_pos st) descr lb
              (take_while (fun ch => negb (N.eqb ch ch_nl) && negb (N.eqb ch ch_cr)) (it_parsing st))
              (walking_rules st) p)
  end.

(** Returning [Err(Error::from_status(..))], src/parser/atom/mod.rs:113 and src/parser/expression/mod.rs:190-196. *)
Definition err_status {A} (st : status) (descr : str) (p : prio) : outcome perror A :=
  match from_status st descr p with Some e => Err e | None => Panic end.

(** Returning [Err(Error::from_status_normal(..))], src/parser/mod.rs:178-180. *)
Definition err_normal {A} (st : status) (descr : str) : outcome perror A := err_status st descr Normal.

(* ------------------------------------------------------------------------------------------- *)
(** * Atoms: src/parser/atom/mod.rs *)

(** src/parser/atom/mod.rs:172-193 [Status::get_char]: [inl (status, ch)] is [Ok], [inr status] is [Err]. *)
Definition get_char (st : status) : (status * char) + status :=
  match it_parsing st with
  | [] => inr st
  | ch :: rest =>
      let p := st_pos st in
      let n := pn p + 1 in
      let p' :=
        if N.eqb ch ch_nl then Pos n (prow p + 1) 0 n
        else if N.eqb ch ch_cr then Pos n (prow p) 0 (pstart_line p)
        else Pos n (prow p) (pcol p + 1) (pstart_line p) in
      inl (Status (text2parse st) rest p' (potential_error st) (trace_rules st) (walking_rules st), ch)
  end.

(** src/parser/atom/mod.rs:162-169 [parse_char]: [inl] is [Ok], [inr] is [Err]. *)
Definition parse_char (st : status) (ch : char) : status + status :=
  match get_char st with
  | inr st' => inr st'
  | inl (st', got_ch) => if N.eqb ch got_ch then inl st' else inr st'
  end.

(** src/parser/atom/mod.rs:104-108 the loop of [parse_literal] over the chars still to match. *)
Fixpoint parse_literal_loop (literal : str) (st : status) (chs : str) : outcome perror status :=
  match chs with
  | [] => Ok st
  | ch :: r =>
      match parse_char st ch with
      | inl st' => parse_literal_loop literal st' r
      | inr st' => err_normal st' (s_ "expected literal: <" ++ literal ++ s_ ">")
      end
  end.

(** src/parser/atom/mod.rs:103-110 [parse_literal]. *)
Definition parse_literal (st : status) (literal : str) : outcome perror (status * node) :=
  let? st' := parse_literal_loop literal st literal in Ok (st', Val literal).

(** src/parser/atom/mod.rs:112-114 [parse_error]. *)
Definition parse_error (st : status) (error : str) : outcome perror (status * node) :=
  err_status st error Critical.

(** src/parser/atom/mod.rs:116-122 [parse_dot]. *)
Definition parse_dot (st : status) : outcome perror (status * node) :=
  match get_char st with
  | inl (st', ch) => Ok (st', Val [ch])
  | inr st' => err_normal st' (s_ "dot")
  end.

(** src/parser/atom/mod.rs:125-136 the closure [match_char]. *)
Definition match_char (chars : str) (ranges : list (char * char)) (ch : char) : bool :=
  if existsb (fun c => N.eqb c ch) chars then true
  else existsb (fun bt => N.leb (fst bt) ch && N.leb ch (snd bt)) ranges.

(** [{:?}] of a [char], in src/parser/atom/mod.rs:150; double quotes are not escaped. *)
Definition debug_char (c : char) : str :=
  [ch_quote] ++
  (if N.eqb c ch_quote then [ch_bslash; ch_quote]
   else if N.eqb c ch_bslash then [ch_bslash; ch_bslash] else escape_plain c)
  ++ [ch_quote].

(** [{:?}] of [Vec<(char, char)>], src/parser/atom/mod.rs:150. *)
Fixpoint debug_ranges_aux (l : list (char * char)) : str :=
  match l with
  | [] => []
  | [(a, b)] => s_ "(" ++ debug_char a ++ s_ ", " ++ debug_char b ++ s_ ")"
  | (a, b) :: r => s_ "(" ++ debug_char a ++ s_ ", " ++ debug_char b ++ s_ "), " ++ debug_ranges_aux r
  end.
(** [{:?}] of [Vec<(char, char)>] with its brackets, src/parser/atom/mod.rs:150. *)
Definition debug_ranges (l : list (char * char)) : str := s_ "[" ++ debug_ranges_aux l ++ s_ "]".

(** src/parser/atom/mod.rs:124-153 [parse_match]; the error carries the status after reading the
    rejected char, as in the code. *)
Definition parse_match (st : status) (chars : str) (ranges : list (char * char))
  : outcome perror (status * node) :=
  let fail st' := err_normal st' (s_ "match. expected " ++ chars ++ s_ " " ++ debug_ranges ranges) in
  match get_char st with
  | inl (st', ch) => if match_char chars ranges ch then Ok (st', Val [ch]) else fail st'
  | inr st' => fail st'
  end.

(** src/parser/atom/mod.rs:155-160 [parse_eof]. *)
Definition parse_eof (st : status) : outcome perror (status * node) :=
  match get_char st with
  | inl (st', _) => err_normal st' (s_ "expected EOF")
  | inr st' => Ok (st', Val (s_ "EOF"))
  end.

(** src/parser/atom/mod.rs:60-68 [atom::parse]. *)
Definition parse_atom (st : status) (a : atom) : outcome perror (status * node) :=
  match a with
  | Literal l => parse_literal st l
  | AError e => parse_error st e
  | Match cs rs => parse_match st cs rs
  | Dot => parse_dot st
  | AEOF => parse_eof st
  end.

(* ------------------------------------------------------------------------------------------- *)
(** * Expressions: src/parser/expression/mod.rs *)

(** [ResultExpr], src/parser/expression/mod.rs:27. *)
Definition result_expr := outcome perror (status * list node).

(** src/parser/expression/mod.rs:231-247 [parse_and]: one iteration of [tail_call] per element; [pe] is the
    recursive call [parse_expr]. *)
Fixpoint parse_and (pe : status -> expr -> result_expr) (st : status) (es : list expr) (acc : list node)
  : result_expr :=
  match es with
  | [] => Ok (st, acc)
  | e :: r =>
      match pe st e with
      | Ok (st', vnodes) => parse_and pe st' r (acc ++ vnodes)
      | Err err => Err err
      | Panic => Panic
      | Fuel => Fuel
      end
  end.

(** src/parser/expression/mod.rs:251-258 the closure [deep_err]. *)
Definition deep_err (oe1 : option perror) (e2 : perror) : option perror :=
  match oe1 with
  | Some e1 =>
      match prio_gt (e_priority e1) (e_priority e2), pn (e_pos e2) <? pn (e_pos e1) with
      | true, _ => Some e1
      | false, true => Some e1
      | false, false => Some e2
      end
  | None => Some e2
  end.

(** Message of src/parser/expression/mod.rs:268 (191 is the inverted question mark). *)
Definition msg_logic_error : str :=
  s_ "LOGIC ERROR!!! checked all options in or with " ++ [191%N] ++ s_ "NO? errors".

(** src/parser/expression/mod.rs:250-285 [parse_or]. *)
Fixpoint parse_or (pe : status -> expr -> result_expr) (st : status) (es : list expr) (oerr : option perror)
  : result_expr :=
  match es with
  | [] => match oerr with
          | Some err => Err err
          | None => err_normal st msg_logic_error
          end
  | e :: r =>
      match pe st e with
      | Ok result => Ok result
      | Err er => if is_critical (e_priority er) then Err er else parse_or pe st r (deep_err oerr er)
      | Panic => Panic
      | Fuel => Fuel
      end
  end.

(** src/parser/expression/mod.rs:288-293 [parse_not]. *)
Definition parse_not (pe : status -> expr -> result_expr) (st : status) (e : expr) : result_expr :=
  match pe st e with
  | Ok _ => err_normal st (s_ "not")
  | Err _ => Ok (st, [])
  | Panic => Panic
  | Fuel => Fuel
  end.

(** src/parser/expression/mod.rs:297 [big_min_bound]. *)
Definition big_min_bound (mn counter : nat) : bool := mn <=? counter.

(** src/parser/expression/mod.rs:298-301 [touch_max_bound]. *)
Definition touch_max_bound (mx : option nat) (counter : nat) : bool :=
  match mx with Some m => counter + 1 =? m | None => false end.

(** src/parser/expression/mod.rs:296-327 [parse_repeat]; [fuel] bounds the number of iterations of
    [tail_call], which is unbounded in the code. *)
Fixpoint parse_repeat (fuel : nat) (pe : status -> expr -> result_expr) (st : status) (e : expr)
  (mn : nat) (mx : option nat) (counter : nat) (acc : list node) : result_expr :=
  match fuel with
  | 0 => Fuel
  | S f =>
      match pe st e with
      | Err er =>
          if big_min_bound mn counter then
            if is_critical (e_priority er) then Err er else Ok (set_potential_error st er, acc)
          else Err er
      | Ok (st', vnodes) =>
          if touch_max_bound mx counter then Ok (st', acc ++ vnodes)
          else parse_repeat f pe st' e mn mx (counter + 1) (acc ++ vnodes)
      | Panic => Panic
      | Fuel => Fuel
      end
  end.

(** src/parser/expression/mod.rs:179-207 [parse_rule_name]. *)
Definition parse_rule_name (pe : status -> expr -> result_expr) (rs : rules) (st : status) (rule_name : str)
  : outcome perror (status * node) :=
  let st1 := if trace_rules st then push_rule st (s_ "r:" ++ rule_name) else st in
  match rules_get rs rule_name with
  | None => err_status st1 (s_ "Missing rule: " ++ rule_name) Critical
  | Some e =>
      let? (st', nodes) := pe st1 e in
      Ok (st', Rule rule_name nodes)
  end.

(** src/parser/expression/mod.rs:219-228 [parse_expr], with [parse_atom_as_expr] (209-212) and
    [parse_rule_name_as_expr] (214-217) inlined.  Every nested call uses one unit of fuel less. *)
Fixpoint parse_expr (rs : rules) (fuel : nat) (st : status) (e : expr) : result_expr :=
  match fuel with
  | 0 => Fuel
  | S f =>
      match e with
      | Simple a => let? (st', nd) := parse_atom st a in Ok (st', [nd])
      | And es => parse_and (parse_expr rs f) st es []
      | Or es => parse_or (parse_expr rs f) st es None
      | Not e1 => parse_not (parse_expr rs f) st e1
      | Repeat e1 mn mx => parse_repeat f (parse_expr rs f) st e1 mn mx 0 []
      | RuleName n => let? (st', nd) := parse_rule_name (parse_expr rs f) rs st n in Ok (st', [nd])
      end
  end.

(** src/parser/expression/mod.rs:171-173 [expression::parse]. *)
Definition expression_parse (rs : rules) (fuel : nat) (st : status) : outcome perror (status * node) :=
  parse_rule_name (parse_expr rs fuel) rs st (s_ "main").

(* ------------------------------------------------------------------------------------------- *)
(** * API: src/lib.rs *)

(** src/lib.rs:503-521 [parse_with_debug]. *)
Definition parse_with_debug (fuel : nat) (s : str) (rs : rules) (debug : bool) : outcome perror node :=
  let? (st, ast) :=
    (if debug then expression_parse rs fuel (status_init_debug s debug)
     else expression_parse rs fuel (status_init s)) in
  match pn (st_pos st) =? byte_len s, potential_error st with
  | true, _ => Ok ast
  | false, Some e => Err e
  | false, None => err_normal st (s_ "not consumed full input")
  end.

(** src/lib.rs:486-488 [parse]. *)
Definition parse (fuel : nat) (s : str) (rs : rules) : outcome perror node := parse_with_debug fuel s rs false.

(** src/lib.rs:496-501 [parse_debug]. *)
Definition parse_debug (fuel : nat) (s : str) (rs : rules) : outcome perror node :=
  parse_with_debug fuel s rs true.
