(** PEG semantics with error reports: what [SpecPeg] says about matching, plus which description is reported,
    where, and which rules were entered on the way.  It only mentions grammars, texts, trees and reports: no
    parser state, positions or fuel. *)
From Verif Require Import Base ModelAst ModelParser SpecPeg SpecPos.

(** A report: description, the text that remains where it stands, and the names of the rules entered on the
    path that led there. *)
Record report := Report { r_descr : str; r_rest : str; r_trail : list str }.

(** [EMatch trees rest pending trail]: a match, with the report of the last repetition that was ended by a
    failed attempt (if any); [EFail]: a plain failure; [EAbort]: the whole parse is aborted. *)
Inductive eresult : Type :=
| EMatch (trees : list node) (rest : str) (pending : option report) (trail : list str)
| EFail (r : report)
| EAbort (r : report).

(** The report as seen by someone who entered the rules [t] before. *)
Definition shift (t : list str) (r : report) : report := Report (r_descr r) (r_rest r) (t ++ r_trail r).

(** What follows a match with trees [ts], pending report [p] and trail [t]. *)
Definition after (ts : list node) (p : option report) (t : list str) (r : eresult) : eresult :=
  match r with
  | EMatch us rest p' t' =>
      EMatch (ts ++ us) rest (match p' with Some q => Some (shift t q) | None => p end) (t ++ t')
  | EFail q => EFail (shift t q)
  | EAbort q => EAbort (shift t q)
  end.

(** Inside rule [n]. *)
Definition within (n : str) (r : eresult) : eresult :=
  match r with
  | EMatch us rest p t => EMatch [Rule n us] rest (option_map (shift [n]) p) (n :: t)
  | EFail q => EFail (shift [n] q)
  | EAbort q => EAbort (shift [n] q)
  end.

Definition estops (r : eresult) : Prop := match r with EMatch _ _ _ _ => False | _ => True end.
Definition is_fail (r : eresult) : Prop := match r with EFail _ => True | _ => False end.

(** Where a literal stops matching: just after the first char that differs, or at the end of the text. *)
Inductive lit_stops : str -> str -> str -> Prop :=
| ls_end c l : lit_stops (c :: l) [] []
| ls_differ c l d s : c <> d -> lit_stops (c :: l) (d :: s) s
| ls_same c l s rest : lit_stops l s rest -> lit_stops (c :: l) (c :: s) rest.

(** Of two failures keep the one further in the text; the later one if they are at the same place. *)
Definition further (o : option report) (q : report) : report :=
  match o with
  | Some p => if length (r_rest p) <? length (r_rest q) then p else q
  | None => q
  end.

Definition lit_msg (l : str) : str := s_ "expected literal: <" ++ l ++ s_ ">".
(** A char as Rust shows it: in single quotes, six chars, the control chars, the no-break space and the soft hyphen escaped. *)
Definition hex (n : N) : char := nth (N.to_nat n) (s_ "0123456789abcdef") 0%N.
Definition short_escapes : list (char * str) :=
  [(0, s_ "\0"); (9, s_ "\t"); (10, s_ "\n"); (13, s_ "\r"); (39, s_ "\'"); (92, s_ "\\")]%N.
Definition shown_char (c : char) : str :=
  s_ "'" ++
  match find (fun p => N.eqb (fst p) c) short_escapes with
  | Some p => snd p
  | None =>
      if (c <? 16)%N then s_ "\u{" ++ [hex c] ++ s_ "}"
      else if ((c <? 32) || (127 <=? c) && (c <? 161) || (c =? 173))%N then s_ "\u{" ++ [hex (c / 16); hex (c mod 16)] ++ s_ "}"
      else [c]
  end ++ s_ "'".

(** Character classes are shown as their chars followed by the list of their ranges. *)
Fixpoint comma_separated (l : list str) : str :=
  match l with
  | [] => []
  | [x] => x
  | x :: r => x ++ s_ ", " ++ comma_separated r
  end.
Definition show_range (p : char * char) : str :=
  s_ "(" ++ shown_char (fst p) ++ s_ ", " ++ shown_char (snd p) ++ s_ ")".
Definition class_msg (cs : str) (rs : list (char * char)) : str :=
  s_ "match. expected " ++ cs ++ s_ " [" ++ comma_separated (map show_range rs) ++ s_ "]".
(** What a choice without alternatives reports (191 is the inverted question mark). *)
Definition empty_choice_msg : str :=
  s_ "LOGIC ERROR!!! checked all options in or with " ++ [191%N] ++ s_ "NO? errors".

Section Reporting.
Variable G : str -> option expr.

Inductive pege : expr -> str -> eresult -> Prop :=
(* atoms *)
| ee_lit_ok l rest : pege (Simple (Literal l)) (l ++ rest) (EMatch [Val l] rest None [])
| ee_lit_fail l s rest : lit_stops l s rest -> pege (Simple (Literal l)) s (EFail (Report (lit_msg l) rest []))
| ee_class_ok cs rs c rest :
    in_class cs rs c -> pege (Simple (Match cs rs)) (c :: rest) (EMatch [Val [c]] rest None [])
| ee_class_fail cs rs c rest :
    ~ in_class cs rs c -> pege (Simple (Match cs rs)) (c :: rest) (EFail (Report (class_msg cs rs) rest []))
| ee_class_end cs rs : pege (Simple (Match cs rs)) [] (EFail (Report (class_msg cs rs) [] []))
| ee_dot_ok c rest : pege (Simple Dot) (c :: rest) (EMatch [Val [c]] rest None [])
| ee_dot_fail : pege (Simple Dot) [] (EFail (Report (s_ "dot") [] []))
| ee_eof_ok : pege (Simple AEOF) [] (EMatch [Val (s_ "EOF")] [] None [])
| ee_eof_fail c rest : pege (Simple AEOF) (c :: rest) (EFail (Report (s_ "expected EOF") rest []))
| ee_error m s : pege (Simple (AError m)) s (EAbort (Report m s []))
(* sequence *)
| ee_and_nil s : pege (And []) s (EMatch [] s None [])
| ee_and_cons e es s ts s1 p t r :
    pege e s (EMatch ts s1 p t) -> pege (And es) s1 r -> pege (And (e :: es)) s (after ts p t r)
| ee_and_stop e es s r : pege e s r -> estops r -> pege (And (e :: es)) s r
(* prioritized choice *)
| ee_or es s r : choice es s None r -> pege (Or es) s r
(* not-predicate *)
| ee_not_fail e s ts rest p t : pege e s (EMatch ts rest p t) -> pege (Not e) s (EFail (Report (s_ "not") s []))
| ee_not_ok e s r : pege e s r -> estops r -> pege (Not e) s (EMatch [] s None [])
(* repetition *)
| ee_rep_full e s : pege (Repeat e 0 (Some 0)) s (EMatch [] s None [])
| ee_rep_more e mn mx s ts s1 p t r :
    mx <> Some 0 ->
    pege e s (EMatch ts s1 p t) -> pege (Repeat e (pred mn) (option_map pred mx)) s1 r ->
    pege (Repeat e mn mx) s (after ts p t r)
| ee_rep_done e mx s q : mx <> Some 0 -> pege e s (EFail q) -> pege (Repeat e 0 mx) s (EMatch [] s (Some q) [])
| ee_rep_short e mn mx s q : mx <> Some 0 -> 0 < mn -> pege e s (EFail q) -> pege (Repeat e mn mx) s (EFail q)
| ee_rep_abort e mn mx s q : mx <> Some 0 -> pege e s (EAbort q) -> pege (Repeat e mn mx) s (EAbort q)
(* rule reference *)
| ee_rule n e s r : G n = Some e -> pege e s r -> pege (RuleName n) s (within n r)
| ee_rule_missing n s : G n = None -> pege (RuleName n) s (EAbort (Report (missing_rule_msg n) s [n]))
(** The alternatives still to try, and the furthest failure so far. *)
with choice : list expr -> str -> option report -> eresult -> Prop :=
| ch_none s : choice [] s None (EFail (Report empty_choice_msg s []))
| ch_end s q : choice [] s (Some q) (EFail q)
| ch_first e es s o r : pege e s r -> ~ is_fail r -> choice (e :: es) s o r
| ch_next e es s o q r : pege e s (EFail q) -> choice es s (Some (further o q)) r -> choice (e :: es) s o r.

End Reporting.

(** The part of [text] before the last [length rest] chars. *)
Definition before (text rest : str) : str := firstn (length text - length rest) text.

(** The error record for a report on [text]; [debug] says whether the rules entered are shown. *)
Definition error_at (text : str) (debug : bool) (p : prio) (r : report) : perror :=
  PError (pos_of (before text (r_rest r))) (r_descr r) (tail_after is_nl (before text (r_rest r)))
         (until_eol (r_rest r)) (if debug then map (fun n => s_ "r:" ++ n) (r_trail r) else []) p.

(** What parse returns, given what the semantics says about [main]. *)
Inductive answers (text : str) (debug : bool) : eresult -> outcome perror node -> Prop :=
| an_ok ast p t : answers text debug (EMatch [ast] [] p t) (Ok ast)
| an_pending ts c rest q t :
    answers text debug (EMatch ts (c :: rest) (Some q) t) (Err (error_at text debug Normal q))
| an_leftover ts c rest t :
    answers text debug (EMatch ts (c :: rest) None t)
      (Err (error_at text debug Normal (Report (s_ "not consumed full input") (c :: rest) t)))
| an_fail q : answers text debug (EFail q) (Err (error_at text debug Normal q))
| an_abort q : answers text debug (EAbort q) (Err (error_at text debug Critical q)).

(** Forgetting the reports gives the plain semantics. *)
Definition plain (r : eresult) : presult :=
  match r with
  | EMatch ts rest _ _ => PMatch ts rest
  | EFail _ => PFail
  | EAbort q => PAbort (r_descr q) (r_rest q)
  end.
