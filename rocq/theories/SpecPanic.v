(** The reporting semantics (SpecReport) for texts that are not ASCII.  Building an error record cuts the start of the
    current line out of the text with two char counts used as byte offsets.  Where that is not possible the crate
    panics, even when the error would have been dropped later. *)
From Verif Require Import Base ModelAst ModelParser SpecPeg SpecPos SpecReport.

(** The bytes of a char in UTF-8, and those of a text. *)
Definition utf8 (c : char) : list N :=
  (if c <? 128 then [c]
   else if c <? 2048 then [192 + c / 64; 128 + c mod 64]
   else if c <? 65536 then [224 + c / 4096; 128 + c / 64 mod 64; 128 + c mod 64]
   else [240 + c / 262144; 128 + c / 4096 mod 64; 128 + c / 64 mod 64; 128 + c mod 64])%N.
Definition bytes (s : str) : list N := flat_map utf8 s.

(** [t] is the part of [text] between the byte offsets [i] and [j]. *)
Definition excerpt (text : str) (i j : nat) (t : str) : Prop :=
  i <= j /\ exists a c, text = a ++ t ++ c /\ length (bytes a) = i /\ length (bytes t) = j - i.

(** The position where [rest] remains of [text], in chars. *)
Definition place (text rest : str) : position := pos_of (before text rest).

(** No line excerpt can be cut where [rest] remains: some offset is outside the text or inside a char. *)
Definition uncuttable (text rest : str) : Prop :=
  forall t, ~ excerpt text (pstart_line (place text rest)) (pn (place text rest)) t.

Section Tripping.
Variable G : str -> option expr.
Variable bad : str -> Prop.

(** Evaluating the expression on the text builds an error record at a bad place. *)
Inductive trips : expr -> str -> Prop :=
| tr_atom_fail a s q : pege G (Simple a) s (EFail q) -> bad (r_rest q) -> trips (Simple a) s
| tr_atom_abort a s q : pege G (Simple a) s (EAbort q) -> bad (r_rest q) -> trips (Simple a) s
| tr_and_head e es s : trips e s -> trips (And (e :: es)) s
| tr_and_tail e es s ts s1 p t : pege G e s (EMatch ts s1 p t) -> trips (And es) s1 -> trips (And (e :: es)) s
| tr_or_none s : bad s -> trips (Or []) s
| tr_or_head e es s : trips e s -> trips (Or (e :: es)) s
| tr_or_tail e e2 es s q : pege G e s (EFail q) -> trips (Or (e2 :: es)) s -> trips (Or (e :: e2 :: es)) s
| tr_not_inside e s : trips e s -> trips (Not e) s
| tr_not e s ts rest p t : pege G e s (EMatch ts rest p t) -> bad s -> trips (Not e) s
| tr_rep_head e mn mx s : mx <> Some 0 -> trips e s -> trips (Repeat e mn mx) s
| tr_rep_tail e mn mx s ts s1 p t :
    mx <> Some 0 -> pege G e s (EMatch ts s1 p t) -> trips (Repeat e (pred mn) (option_map pred mx)) s1 ->
    trips (Repeat e mn mx) s
| tr_rule n e s : G n = Some e -> trips e s -> trips (RuleName n) s
| tr_missing n s : G n = None -> bad s -> trips (RuleName n) s.

End Tripping.

(** The error record for a report on [text]. *)
Inductive error_on (text : str) (debug : bool) (p : prio) (r : report) : perror -> Prop :=
| eo_intro lb : excerpt text (pstart_line (place text (r_rest r))) (pn (place text (r_rest r))) lb ->
    error_on text debug p r
      (PError (place text (r_rest r)) (r_descr r) lb (until_eol (r_rest r))
              (if debug then map (fun n => s_ "r:" ++ n) (r_trail r) else []) p).

(** All of the text was read, as far as the crate can tell: it compares the number of chars read with the number of bytes. *)
Definition looks_complete (text rest : str) : Prop := rest = [] /\ ascii text.

(** What parse returns, given what the semantics says about [main] (and that evaluating it does not trip). *)
Inductive answers_on (text : str) (debug : bool) : eresult -> outcome perror node -> Prop :=
| ao_ok ast rest p t : looks_complete text rest -> answers_on text debug (EMatch [ast] rest p t) (Ok ast)
| ao_pending ts rest q t er : ~ looks_complete text rest -> error_on text debug Normal q er ->
    answers_on text debug (EMatch ts rest (Some q) t) (Err er)
| ao_leftover ts rest t er : ~ looks_complete text rest ->
    error_on text debug Normal (Report (s_ "not consumed full input") rest t) er ->
    answers_on text debug (EMatch ts rest None t) (Err er)
| ao_leftover_panic ts rest t : ~ looks_complete text rest -> uncuttable text rest ->
    answers_on text debug (EMatch ts rest None t) Panic
| ao_fail q er : error_on text debug Normal q er -> answers_on text debug (EFail q) (Err er)
| ao_abort q er : error_on text debug Critical q er -> answers_on text debug (EAbort q) (Err er).

(** What parse does with [text]. *)
Inductive parses (G : str -> option expr) (text : str) (debug : bool) : outcome perror node -> Prop :=
| pa_trip : trips G (uncuttable text) (RuleName (s_ "main")) text -> parses G text debug Panic
| pa_answer r o : ~ trips G (uncuttable text) (RuleName (s_ "main")) text ->
    pege G (RuleName (s_ "main")) text r -> answers_on text debug r o -> parses G text debug o.
