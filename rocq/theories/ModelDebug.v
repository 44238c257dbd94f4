(** Model of the derived [Debug] output ([{:?}]) of the public types, and of the [Display] output of [peg::Error] built on
    it.  Strings are escaped as in [debug_str] (ModelAst), chars as in [debug_char] (ModelParser). *)
From Verif Require Import Base ModelAst ModelParser ModelPeg.

(** [{:?}] of a [Vec], such as [parsing_rules] in src/parser/mod.rs:64-80. *)
Definition debug_items {A} (f : A -> str) : list A -> str :=
  fix go (l : list A) : str :=
    match l with
    | [] => []
    | [x] => f x
    | x :: r => f x ++ s_ ", " ++ go r
    end.
(** [{:?}] of a [Vec] with its brackets, such as [parsing_rules] in src/parser/mod.rs:64-80. *)
Definition debug_vec {A} (f : A -> str) (l : list A) : str := s_ "[" ++ debug_items f l ++ s_ "]".

(** [{:?}] of an [Option], such as that in src/ast/mod.rs:18-19. *)
Definition debug_option {A} (f : A -> str) (o : option A) : str :=
  match o with None => s_ "None" | Some x => s_ "Some(" ++ f x ++ s_ ")" end.

(** src/parser/mod.rs:32-42 [Debug] of [Possition]. *)
Definition debug_position (p : position) : str :=
  s_ "Possition { n: " ++ dec (pn p) ++ s_ ", row: " ++ dec (prow p) ++ s_ ", col: " ++ dec (pcol p) ++
  s_ ", start_line: " ++ dec (pstart_line p) ++ s_ " }".

(** src/parser/mod.rs:56-62 [Debug] of [ErrPriority]. *)
Definition debug_prio (p : prio) : str := match p with Normal => s_ "Normal" | Critical => s_ "Critical" end.

(** src/parser/mod.rs:65-82 [Debug] of [parser::Error]. *)
Definition debug_perror (e : perror) : str :=
  s_ "Error { pos: " ++ debug_position (e_pos e) ++ s_ ", descr: " ++ debug_str (e_descr e) ++
  s_ ", line_before: " ++ debug_str (e_line_before e) ++ s_ ", line_after: " ++ debug_str (e_line_after e) ++
  s_ ", parsing_rules: " ++ debug_vec debug_str (e_parsing_rules e) ++ s_ ", priority: " ++ debug_prio (e_priority e) ++ s_ " }".

(** src/ast/mod.rs:18-19 [Debug] of [ast::Error]. *)
Definition debug_ast_error (e : ast_error) : str :=
  s_ "Error(" ++ debug_str (ast_descr e) ++ s_ ", " ++ debug_option debug_str (ast_context e) ++ s_ ")".

(** src/peg/mod.rs:93-101 [Display] of [peg::Error]. *)
Definition display_error (e : peg_error) : str := display_peg_error debug_perror debug_ast_error e.

(** src/ast/flat.rs:25-34 [Debug] of [flat::Node]. *)
Definition debug_token (nd : fnode) : str :=
  match nd with
  | FVal v => s_ "Val(" ++ debug_str v ++ s_ ")"
  | FBegin v => s_ "BeginRule(" ++ debug_str v ++ s_ ")"
  | FEnd v => s_ "EndRule(" ++ debug_str v ++ s_ ")"
  | FEOF => s_ "EOF"
  end.

(** src/parser/atom/mod.rs:19-38 [Debug] of [Atom] and [MatchRules]. *)
Definition debug_range (p : char * char) : str := s_ "(" ++ debug_char (fst p) ++ s_ ", " ++ debug_char (snd p) ++ s_ ")".
(** src/parser/atom/mod.rs:19-38 [Debug] of [Atom]. *)
Definition debug_atom (a : atom) : str :=
  match a with
  | Literal s => s_ "Literal(" ++ debug_str s ++ s_ ")"
  | Match cs rg => s_ "Match(MatchRules(" ++ debug_str cs ++ s_ ", " ++ debug_vec debug_range rg ++ s_ "))"
  | AError s => s_ "Error(" ++ debug_str s ++ s_ ")"
  | Dot => s_ "Dot"
  | AEOF => s_ "EOF"
  end.

(** src/parser/expression/mod.rs:108-154 [Debug] of [Expression], [MultiExpr], [RepInfo] and [NRep]. *)
Definition debug_nrep (n : nat) : str := s_ "NRep(" ++ dec n ++ s_ ")".
(** src/parser/expression/mod.rs:108-150 [Debug] of [Expression], [MultiExpr] and [RepInfo]. *)
Fixpoint debug_expr (e : expr) : str :=
  match e with
  | Simple a => s_ "Simple(" ++ debug_atom a ++ s_ ")"
  | And es => s_ "And(MultiExpr(" ++ debug_vec debug_expr es ++ s_ "))"
  | Or es => s_ "Or(MultiExpr(" ++ debug_vec debug_expr es ++ s_ "))"
  | Not e1 => s_ "Not(" ++ debug_expr e1 ++ s_ ")"
  | Repeat e1 mn mx =>
      s_ "Repeat(RepInfo { expression: " ++ debug_expr e1 ++ s_ ", min: " ++ debug_nrep mn ++ s_ ", max: " ++
      debug_option debug_nrep mx ++ s_ " })"
  | RuleName n => s_ "RuleName(" ++ debug_str n ++ s_ ")"
  end.

(** src/parser/expression/mod.rs:33-34 [Debug] of [SetOfRules]; [entries] is the hash map in the order it is iterated. *)
Definition debug_rule (p : str * expr) : str := debug_str (fst p) ++ s_ ": " ++ debug_expr (snd p).
(** src/parser/expression/mod.rs:33-34 [Debug] of [SetOfRules], the whole map. *)
Definition debug_rules (entries : list (str * expr)) : str := s_ "SetOfRules({" ++ debug_items debug_rule entries ++ s_ "})".
