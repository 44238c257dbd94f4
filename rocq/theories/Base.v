(** Base data of the model: characters, strings, UTF-8 byte offsets, outcomes.
    Models the parts of Rust's core library the crate relies on. *)
From Coq Require Export Ascii String.
From Coq Require Export List NArith Arith Bool Lia.
Export ListNotations.
Open Scope list_scope.

(** Rust [char], as in src/parser/mod.rs:88: a Unicode scalar value.  Simplification: any [N] is allowed, also values that are
    not scalar values (surrogates, > 0x10FFFF); theorems hold for this larger set. *)
Definition char := N.

(** Rust [String] / [&str]: the sequence of its chars (what [str::chars] yields, src/parser/mod.rs:108). *)
Definition str := list char.

(** String constants of the source, e.g. ["main"] in src/parser/expression/mod.rs:172.  The model files only contain ASCII constants. *)
Definition s_ (s : string) : str := map N_of_ascii (list_ascii_of_string s).
Arguments s_ s%string.

(** The chars named in src/parser/mod.rs:170, src/peg/mod.rs:738-760 and src/peg/gcode.rs:86-91. *)
(** src/parser/mod.rs:170 and src/peg/gcode.rs:87. *)
Definition ch_nl : char := 10%N.    (* '\n' *)
(** src/peg/mod.rs:738-760 and src/peg/gcode.rs:88. *)
Definition ch_cr : char := 13%N.    (* '\r' *)
(** src/peg/mod.rs:738-760 and src/peg/gcode.rs:89. *)
Definition ch_tab : char := 9%N.    (* '\t' *)
(** src/peg/mod.rs:814-824. *)
Definition ch_quote : char := 39%N.   (* single quote *)
(** src/peg/mod.rs:802-812 and src/peg/gcode.rs:90. *)
Definition ch_dquote : char := 34%N.  (* double quote *)
(** src/peg/mod.rs:738-760 and 793. *)
Definition ch_bslash : char := 92%N.  (* backslash *)
(** the blank in the texts of src/peg/mod.rs. *)
Definition ch_space : char := 32%N.   (* space *)

(** Equality of strings ([==] on [str]), e.g. src/ast/mod.rs:356 and the keys of the map in src/parser/expression/mod.rs:34. *)
Fixpoint str_eqb (a b : str) : bool :=
  match a, b with
  | [], [] => true
  | x :: a', y :: b' => N.eqb x y && str_eqb a' b'
  | _, _ => false
  end.

(** [char::len_utf8], by which [str::len] (src/lib.rs:513) and slices (src/parser/mod.rs:166) count. *)
Definition utf8_len (c : char) : nat :=
  if (c <? 128)%N then 1 else if (c <? 2048)%N then 2 else if (c <? 65536)%N then 3 else 4.

(** [str::len], src/lib.rs:513: number of bytes. *)
Fixpoint byte_len (s : str) : nat :=
  match s with [] => 0 | c :: r => utf8_len c + byte_len r end.

(** The first half of the slice of src/parser/mod.rs:166.  Skip [n] bytes; [None] when [n] is out of range or not a char boundary. *)
Fixpoint drop_bytes (n : nat) (s : str) : option str :=
  match n, s with
  | 0, _ => Some s
  | S _, [] => None
  | S _, c :: r => if utf8_len c <=? n then drop_bytes (n - utf8_len c) r else None
  end.

(** The second half of the slice of src/parser/mod.rs:166.  Take [n] bytes; [None] when [n] is out of range or not a char boundary. *)
Fixpoint take_bytes (n : nat) (s : str) : option str :=
  match n, s with
  | 0, _ => Some []
  | S _, [] => None
  | S _, c :: r =>
      if utf8_len c <=? n
      then match take_bytes (n - utf8_len c) r with Some t => Some (c :: t) | None => None end
      else None
  end.

(** Rust [&s[i..j]], src/parser/mod.rs:166; [None] models the panic (i > j, out of range, or not on char boundaries). *)
Definition slice (s : str) (i j : nat) : option str :=
  if i <=? j then
    match drop_bytes i s with Some r => take_bytes (j - i) r | None => None end
  else None.

(** [s.chars().take_while(f).collect()], src/parser/mod.rs:167-171. *)
Fixpoint take_while (f : char -> bool) (s : str) : str :=
  match s with [] => [] | c :: r => if f c then c :: take_while f r else [] end.

(** [s.replace(c, t)] for a one-char pattern, src/peg/gcode.rs:87-90 and src/peg/mod.rs:793. *)
Definition replace_char (c : char) (t : str) (s : str) : str :=
  flat_map (fun x => if N.eqb x c then t else [x]) s.

(** [usize::to_string], src/peg/gcode.rs:123. *)
Definition dec_digit (d : nat) : char := (48 + N.of_nat d)%N.
(** The digits of [usize::to_string], src/peg/gcode.rs:123, last one first; [fuel] bounds their number. *)
Fixpoint dec_aux (fuel n : nat) (acc : str) : str :=
  match fuel with
  | 0 => acc
  | S f =>
      let acc' := dec_digit (n mod 10) :: acc in
      if n / 10 =? 0 then acc' else dec_aux f (n / 10) acc'
  end.
(** [usize::to_string], src/peg/gcode.rs:123. *)
Definition dec (n : nat) : str := dec_aux (S n) n [].

(** Outcome of a Rust computation: [Ok]/[Err] are the two cases of [Result]; [Panic] models a panic;
    [Fuel] means that the execution needs more steps than the fuel allows. *)
Inductive outcome (E A : Type) : Type :=
| Ok (a : A)
| Err (e : E)
| Panic
| Fuel.
Arguments Ok {E A} a.
Arguments Err {E A} e.
Arguments Panic {E A}.
Arguments Fuel {E A}.

(** The [?] operator, e.g. src/peg/mod.rs:228-230. *)
Definition bind {E A B} (m : outcome E A) (k : A -> outcome E B) : outcome E B :=
  match m with Ok a => k a | Err e => Err e | Panic => Panic | Fuel => Fuel end.

(** [Result::map_err], e.g. src/peg/mod.rs:700 (also used for the [From] conversion of [?]). *)
Definition map_err {E F A} (f : E -> F) (m : outcome E A) : outcome F A :=
  match m with Ok a => Ok a | Err e => Err (f e) | Panic => Panic | Fuel => Fuel end.

(** [let p = m?; k], e.g. src/peg/mod.rs:229. *)
Notation "'let?' p := m 'in' k" := (bind m (fun p => k))
  (at level 200, p pattern, m at level 100, k at level 200, right associativity).
