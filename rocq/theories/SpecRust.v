(** How Rust reads the text between the braces of [rules!{ .. }], as far as generated code needs it: the lexical
    structure (The Rust Reference, "Tokens") and the meaning of the crate's macros (src/lib.rs:137-444).
    Used by C33 and C34.  Nothing here refers to the code generator. *)
From Verif Require Import Base ModelParser.

(* ---- tokens ------------------------------------------------------------------------------ *)

Inductive tok : Type :=
| TId (s : str) | TInt (n : nat) | TStr (s : str) | TChar (c : char) | TBang | TOpen | TClose | TComma | TArrow.

Definition is_digit (c : char) : bool := (48 <=? c)%N && (c <=? 57)%N.
Definition is_id_start (c : char) : bool := ((97 <=? c)%N && (c <=? 122)%N) || ((65 <=? c)%N && (c <=? 90)%N) || (c =? 95)%N.
Definition is_white (c : char) : bool := (c =? ch_space)%N || (c =? ch_nl)%N || (c =? ch_tab)%N || (c =? ch_cr)%N.

Definition hex_val (c : char) : option N :=
  if is_digit c then Some (c - 48)%N
  else if (97 <=? c)%N && (c <=? 102)%N then Some (c - 87)%N
  else if (65 <=? c)%N && (c <=? 70)%N then Some (c - 55)%N else None.

(** Where the lexer is: between tokens, inside an identifier, a number, after [=], in a raw string before its
    opening quote, in it, in it after a quote, in a string, after its backslash, in a [\x] or a [\u] escape, in a
    char literal. *)
Inductive lstate : Type :=
| L0
| LId (acc : str)
| LInt (acc : nat)
| LEq
| LHash | LRaw (acc : str) | LRawQ (acc : str)
| LStr (acc : str) | LEsc (acc : str) | LHex (acc : str) (digits : list N)
| LUni (acc : str) (digits : option (list N))
| LCh | LChEnd (c : char) | LChEsc.

(** The escapes shared by string and char literals. *)
Definition simple_escape (c : char) : option char :=
  if (c =? 110)%N then Some ch_nl            (* \n *)
  else if (c =? 114)%N then Some ch_cr       (* \r *)
  else if (c =? 116)%N then Some ch_tab      (* \t *)
  else if (c =? 48)%N then Some 0%N          (* \0 *)
  else if (c =? ch_bslash)%N then Some ch_bslash
  else if (c =? ch_quote)%N then Some ch_quote
  else if (c =? ch_dquote)%N then Some ch_dquote
  else None.

(** A char between two tokens. *)
Definition start (c : char) : option (list tok * lstate) :=
  if is_white c then Some ([], L0)
  else if (c =? 33)%N then Some ([TBang], L0)
  else if (c =? 40)%N then Some ([TOpen], L0)
  else if (c =? 41)%N then Some ([TClose], L0)
  else if (c =? 44)%N then Some ([TComma], L0)
  else if (c =? 61)%N then Some ([], LEq)
  else if (c =? ch_dquote)%N then Some ([], LStr [])
  else if (c =? ch_quote)%N then Some ([], LCh)
  else if is_digit c then Some ([], LInt (N.to_nat (c - 48)))
  else if is_id_start c then Some ([], LId [c])
  else None.

(** First the tokens [ts], then what [x] says. *)
Definition emit {A} (ts : list tok) (x : option (list tok * A)) : option (list tok * A) :=
  match x with Some (ts', a) => Some (ts ++ ts', a) | None => None end.

(** One char: the tokens it completes and the next state; [None] is a lexical error.  Carriage returns are
    errors in string and raw string literals; line breaks, tabs and quotes are errors in char literals.
    Simplifications: raw strings have exactly one [#]; no comments, no other punctuation, no number other than
    plain decimal ones, no line continuation in strings (all of them are errors here; none is in generated code,
    except after a backslash that comes from a rule set). *)
Definition step (st : lstate) (c : char) : option (list tok * lstate) :=
  match st with
  | L0 => start c
  | LId acc =>
      if is_id_start c || is_digit c then Some ([], LId (acc ++ [c]))
      else if (c =? 35)%N && str_eqb acc (s_ "r") then Some ([], LHash)
      else emit [TId acc] (start c)
  | LInt n =>
      if is_digit c then Some ([], LInt (10 * n + N.to_nat (c - 48)))
      else if is_id_start c then None
      else emit [TInt n] (start c)
  | LEq => if (c =? 62)%N then Some ([TArrow], L0) else None
  | LHash => if (c =? ch_dquote)%N then Some ([], LRaw []) else None
  | LRaw acc =>
      if (c =? ch_cr)%N then None
      else if (c =? ch_dquote)%N then Some ([], LRawQ acc) else Some ([], LRaw (acc ++ [c]))
  | LRawQ acc =>
      if (c =? ch_cr)%N then None
      else if (c =? 35)%N then Some ([TStr acc], L0)
      else if (c =? ch_dquote)%N then Some ([], LRawQ (acc ++ [ch_dquote])) else Some ([], LRaw (acc ++ [ch_dquote; c]))
  | LStr acc =>
      if (c =? ch_cr)%N then None
      else if (c =? ch_dquote)%N then Some ([TStr acc], L0)
      else if (c =? ch_bslash)%N then Some ([], LEsc acc) else Some ([], LStr (acc ++ [c]))
  | LEsc acc =>
      match simple_escape c with
      | Some v => Some ([], LStr (acc ++ [v]))
      | None => if (c =? 120)%N then Some ([], LHex acc [])
                else if (c =? 117)%N then Some ([], LUni acc None) else None
      end
  | LHex acc ds =>
      match hex_val c, ds with
      | Some v, [] => if (v <? 8)%N then Some ([], LHex acc [v]) else None
      | Some v, [d] => Some ([], LStr (acc ++ [(d * 16 + v)%N]))
      | _, _ => None
      end
  | LUni acc None => if (c =? 123)%N then Some ([], LUni acc (Some [])) else None
  | LUni acc (Some ds) =>
      match hex_val c, ds with
      | Some v, _ => if (length ds <? 6) then Some ([], LUni acc (Some (ds ++ [v]))) else None
      | None, _ :: _ =>
          let v := fold_left (fun a d => (a * 16 + d)%N) ds 0%N in
          if (c =? 125)%N && (v <? 1114112)%N && negb ((55296 <=? v)%N && (v <? 57344)%N)
          then Some ([], LStr (acc ++ [v])) else None
      | None, [] => None
      end
  | LCh =>
      if (c =? ch_quote)%N || (c =? ch_nl)%N || (c =? ch_cr)%N || (c =? ch_tab)%N then None
      else if (c =? ch_bslash)%N then Some ([], LChEsc) else Some ([], LChEnd c)
  | LChEsc => match simple_escape c with Some v => Some ([], LChEnd v) | None => None end
  | LChEnd v => if (c =? ch_quote)%N then Some ([TChar v], L0) else None
  end.

Fixpoint run (st : lstate) (s : str) : option (list tok * lstate) :=
  match s with
  | [] => Some ([], st)
  | c :: r => match step st c with Some (ts, st') => emit ts (run st' r) | None => None end
  end.

(** The tokens of a text; a text that ends inside a literal is an error. *)
Definition tokens (s : str) : option (list tok) :=
  match run L0 s with
  | Some (ts, L0) => Some ts
  | Some (ts, LId acc) => Some (ts ++ [TId acc])
  | Some (ts, LInt n) => Some (ts ++ [TInt n])
  | _ => None
  end.

(* ---- macros ------------------------------------------------------------------------------ *)

(** [name!(args)] *)
Definition call (name : string) (args : list tok) : list tok := [TId (s_ name); TBang; TOpen] ++ args ++ [TClose].

(** Arguments separated by commas. *)
Fixpoint commas (l : list (list tok)) : list tok :=
  match l with [] => [] | [x] => x | x :: r => x ++ [TComma] ++ commas r end.

(** [from 'f', to 't'] *)
Definition range_arg (r : char * char) : list tok := [TId (s_ "from"); TChar (fst r); TComma; TId (s_ "to"); TChar (snd r)].

(** The expression a macro invocation evaluates to (src/lib.rs).  There is no [eof!] macro, and [ematch!] with
    char literals needs at least one range. *)
Inductive evaluates : list tok -> expr -> Prop :=
| ev_lit s : evaluates (call "lit" [TStr s]) (Simple (Literal s))
| ev_error s : evaluates (call "error" [TStr s]) (Simple (AError s))
| ev_dot : evaluates (call "dot" []) (Simple Dot)
| ev_ematch cs r rs : evaluates (call "ematch" ([TId (s_ "chlist"); TStr cs; TComma] ++ commas (map range_arg (r :: rs)))) (Simple (Match cs (r :: rs)))
| ev_and tss es : Forall2 evaluates tss es -> evaluates (call "and" (commas tss)) (And es)
| ev_or tss es : Forall2 evaluates tss es -> evaluates (call "or" (commas tss)) (Or es)
| ev_not ts e : evaluates ts e -> evaluates (call "not" ts) (Not e)
| ev_rep ts e mn : evaluates ts e -> evaluates (call "rep" (ts ++ [TComma; TInt mn])) (Repeat e mn None)
| ev_rep_max ts e mn mx : evaluates ts e -> evaluates (call "rep" (ts ++ [TComma; TInt mn; TComma; TInt mx])) (Repeat e mn (Some mx))
| ev_ref_rule n : evaluates (call "ref_rule" [TStr n]) (RuleName n).

(** [name => expression] *)
Inductive entry : list tok -> str * expr -> Prop :=
| entry_intro n ts e : evaluates ts e -> entry ([TStr n; TArrow] ++ ts) (n, e).

(** The text [s] as the content of [rules!{ .. }] lists the definitions [l] (of which, for each name, the last one
    counts: [rules_macro], C19). *)
Definition rust_rules (s : str) (l : list (str * expr)) : Prop :=
  exists ts tss, tokens s = Some ts /\ ts = commas tss /\ Forall2 entry tss l.

(* ---- what can be generated --------------------------------------------------------------- *)

(** Content of a raw string [r#".."#]. *)
Definition raw_ok (s : str) : Prop := ~ In ch_cr s /\ forall pre post, s <> pre ++ [ch_dquote; 35%N] ++ post.
(** Content of a char literal, unescaped. *)
Definition char_ok (c : char) : Prop := ~ In c [ch_quote; ch_bslash; ch_nl; ch_cr; ch_tab].

(** No backslash in literals, at least one range in every class and only plain chars in it, no EOF atom. *)
Fixpoint codable (e : expr) : Prop :=
  match e with
  | Simple (Literal s) | Simple (AError s) => ~ In ch_bslash s
  | Simple (Match cs rs) => raw_ok cs /\ rs <> [] /\ Forall (fun r => char_ok (fst r) /\ char_ok (snd r)) rs
  | Simple Dot => True
  | Simple AEOF => False
  | And es | Or es => (fix all l := match l with [] => True | x :: r => codable x /\ all r end) es
  | Not e1 => codable e1
  | Repeat e1 _ _ => codable e1
  | RuleName n => raw_ok n
  end.

(** What a string literal with the content [s] denotes. *)
Definition string_value (s : str) : option str :=
  match run (LStr []) s with Some ([], LStr v) => Some v | _ => None end.
