(** Model of src/peg/gcode.rs: generation of Rust source code from a rule set. *)
From Verif Require Import Base ModelAst ModelParser.

(** src/peg/gcode.rs:86-91 the closure [replace_esc]: four successive [replace]. *)
Definition replace_esc (s : str) : str :=
  replace_char ch_dquote [ch_bslash; ch_dquote]
    (replace_char ch_tab (s_ "\t")
       (replace_char ch_cr (s_ "\r")
          (replace_char ch_nl (s_ "\n") s))).

(** src/peg/gcode.rs:103-110 [bounds2code] with its accumulator. *)
Fixpoint bounds2code (acc : str) (bounds : list (char * char)) : str :=
  match bounds with
  | (f, t) :: rest => s_ ", from '" ++ [f] ++ s_ "', to '" ++ [t] ++ s_ "' " ++ bounds2code acc rest
  | [] => acc
  end.

(** src/peg/gcode.rs:102-117 [match_rules2code]. *)
Definition match_rules2code (chars : str) (ranges : list (char * char)) : str :=
  s_ "ematch!(chlist r#""" ++ chars ++ s_ """#  " ++ bounds2code [] ranges ++ s_ ")".

(** src/peg/gcode.rs:85-100 [atom2code]. *)
Definition atom2code (a : atom) : str :=
  match a with
  | Literal s => s_ "lit!(""" ++ replace_esc s ++ s_ """)"
  | AError s => s_ "error!(""" ++ replace_esc s ++ s_ """)"
  | Match cs rs => match_rules2code cs rs
  | Dot => s_ "dot!()"
  | AEOF => s_ "eof!()"
  end.

(** src/peg/gcode.rs:64-73 [expr2code], 75-83 [mexpr2code] (inner loop), 119-129 [repeat2code].
    [match acc.len() { 0 => .. }] tests whether the accumulator is empty. *)
Fixpoint expr2code (e : expr) : str :=
  let mexpr2code :=
    fix go (acc : str) (l : list expr) : str :=
      match l with
      | [] => acc
      | x :: r => go (match acc with [] => expr2code x | _ => acc ++ s_ ", " ++ expr2code x end) r
      end in
  match e with
  | Simple a => atom2code a
  | And es => s_ "and!(" ++ mexpr2code [] es ++ s_ ")"
  | Or es => s_ "or!(" ++ mexpr2code [] es ++ s_ ")"
  | Not e1 => s_ "not!(" ++ expr2code e1 ++ s_ ")"
  | Repeat e1 mn mx =>
      s_ "rep!(" ++ expr2code e1 ++ s_ ", " ++ dec mn ++
      match mx with Some m => s_ ", " ++ dec m | None => [] end ++ s_ ")"
  | RuleName n => s_ "ref_rule!(r#""" ++ n ++ s_ """#)"
  end.

(** src/peg/gcode.rs:60-62 [rule2code]. *)
Definition rule2code (name : str) (e : expr) : str := s_ "r#""" ++ name ++ s_ """# => " ++ expr2code e.

(** src/peg/gcode.rs:50-53 the closure [add_rule]. *)
Definition add_rule (crules rule : str) : str :=
  let begin := match crules with [] => s_ "  " | _ => s_ ", " end in
  crules ++ [ch_nl] ++ s_ "       " ++ begin ++ rule.

(** src/peg/gcode.rs:49-58 [rust_from_rules].  [entries] is the content of the hash map in the order in
    which [iter] yields it, which Rust leaves unspecified. *)
Definition rust_from_rules (entries : list (str * expr)) : str :=
  fold_left (fun acc p => add_rule acc (rule2code (fst p) (snd p))) entries [].
