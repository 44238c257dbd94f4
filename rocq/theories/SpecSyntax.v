(** Independent specification of the concrete syntax read by [rules_from_peg]: which texts are grammars, and
    which rules each of them denotes.  It only mentions texts and expressions: no parser, no AST, no tokens,
    and no PEG; every ambiguity (greedy names, ordered choice, comments) is resolved by explicit conditions. *)
From Verif Require Import Base ModelParser.

(* ------------------------------------------------------------------------------------------- *)
(** * Layout *)

(** A line break: CR LF, LF or CR. *)
Inductive eol : str -> Prop :=
| eol_crlf : eol [ch_cr; ch_nl]
| eol_nl : eol [ch_nl]
| eol_cr : eol [ch_cr].

(** Comments: [// ... end of line], and [/* ... */] ended by the first [*/]. *)
Inductive comment : str -> Prop :=
| com_line c e : ~ In ch_cr c -> ~ In ch_nl c -> eol e -> comment (s_ "//" ++ c ++ e)
| com_block c : (forall a b, c ++ s_ "*/" = a ++ s_ "*/" ++ b -> b = []) -> comment (s_ "/*" ++ c ++ s_ "*/").

(** Blanks: any sequence of spaces, line breaks and comments. *)
Inductive blank : str -> Prop :=
| bl_nil : blank []
| bl_space b : blank b -> blank (ch_space :: b)
| bl_eol e b : eol e -> blank b -> blank (e ++ b)
| bl_comment c b : comment c -> blank b -> blank (c ++ b).

(** A separator of a sequence: a space or a line break, then blanks. *)
Inductive separator : str -> Prop :=
| sep_space b : blank b -> separator (ch_space :: b)
| sep_eol e b : eol e -> blank b -> separator (e ++ b).

(** The end of a rule: spaces and comments, then a line break.  The line break that ends a line comment is
    part of the comment, so that another one is needed. *)
Inductive rule_end : str -> Prop :=
| re_eol e : eol e -> rule_end e
| re_space r : rule_end r -> rule_end (ch_space :: r)
| re_comment c r : comment c -> rule_end r ->
    ~ (exists c0 r0, c = c0 ++ [ch_cr] /\ r = ch_nl :: r0) ->    (* the line break of the comment is complete *)
    rule_end (c ++ r).

(* ------------------------------------------------------------------------------------------- *)
(** * Names and literals *)

Definition between (lo hi c : char) : Prop := (lo <= c <= hi)%N.

(** First char of a symbol: a letter, a digit or [_]; the others may also be quotes. *)
Definition sym_start (c : char) : Prop :=
  c = 95%N \/ between 97%N 122%N c \/ between 65%N 90%N c \/ between 48%N 57%N c.
Definition sym_char (c : char) : Prop := sym_start c \/ c = ch_quote \/ c = ch_dquote.

Definition symbol (t : str) : Prop := exists c r, t = c :: r /\ sym_start c /\ Forall sym_char r.

(** Rule names: symbols joined by dots, possibly with a leading dot. *)
Inductive dotted : str -> Prop :=
| dt_one t : symbol t -> dotted t
| dt_more t r : symbol t -> dotted r -> dotted (t ++ s_ "." ++ r).
Definition rule_name (t : str) : Prop := dotted t \/ exists r, t = s_ "." ++ r /\ dotted r.

Definition upper_hex (c : char) (d : N) : Prop :=
  (between 48%N 57%N c /\ d = (c - 48)%N) \/ (between 65%N 70%N c /\ d = (c - 55)%N).

(** The two-char escapes of double-quoted literals. *)
Inductive escape : char -> char -> Prop :=
| esc_r : escape 114%N ch_cr           (* \r *)
| esc_n : escape 110%N ch_nl           (* \n *)
| esc_t : escape 116%N ch_tab          (* \t *)
| esc_b : escape ch_bslash ch_bslash (* \\ *)
| esc_q : escape ch_dquote ch_dquote. (* \ and double quote *)

(** The text starts with an escape sequence. *)
Definition starts_escape (t : str) : Prop :=
  (exists x y r, t = ch_bslash :: x :: r /\ escape x y) \/
  (exists a b d1 d2 r, t = s_ "\0x" ++ a :: b :: r /\ upper_hex a d1 /\ upper_hex b d2).

(** What follows the opening quote of a double-quoted literal, with its value. *)
Inductive dq_body : str -> str -> Prop :=
| dq_close : dq_body [ch_dquote] []
| dq_escape x y t v : escape x y -> dq_body t v -> dq_body (ch_bslash :: x :: t) (y :: v)
| dq_hex a b d1 d2 t v : upper_hex a d1 -> upper_hex b d2 -> dq_body t v ->
    dq_body (s_ "\0x" ++ a :: b :: t) ((d1 * 16 + d2)%N :: v)
| dq_plain c t v : c <> ch_dquote -> ~ starts_escape (c :: t) -> dq_body t v -> dq_body (c :: t) (c :: v).

(** Literals and their values.  A single-quoted literal is not empty, and (as the code has it) each of its
    backslashes counts twice. *)
Inductive literal : str -> str -> Prop :=
| lit_single body : body <> [] -> ~ In ch_quote body ->
    literal ([ch_quote] ++ body ++ [ch_quote]) (flat_map (fun c => if N.eqb c ch_bslash then [ch_bslash; ch_bslash] else [c]) body)
| lit_double t v : dq_body t v -> literal (ch_dquote :: t) v.

(** Character classes: single chars, then ranges, not both empty.  A single char is not a closing bracket and
    is not followed by a dash. *)
Definition ranges_text (rg : list (char * char)) : str := flat_map (fun p => [fst p; 45%N; snd p]) rg.

Definition class_text (cs : str) (rg : list (char * char)) (t : str) : Prop :=
  t = s_ "[" ++ cs ++ ranges_text rg ++ s_ "]" /\ (cs <> [] \/ rg <> []) /\
  forall pre c post, cs = pre ++ c :: post ->
    c <> 93%N /\ hd_error (post ++ ranges_text rg ++ s_ "]") <> Some 45%N.

(** [error(literal)]. *)
Definition error_text (t v : str) : Prop :=
  exists b1 b2 l b3, blank b1 /\ blank b2 /\ literal l v /\ blank b3 /\
    t = s_ "error" ++ b1 ++ s_ "(" ++ b2 ++ l ++ b3 ++ s_ ")".

Definition starts_with_error (t : str) : Prop := exists x v r, error_text x v /\ t = x ++ r.

(* ------------------------------------------------------------------------------------------- *)
(** * Expressions *)

(** Sequences and choices of one element are that element. *)
Definition seq_of (es : list expr) : expr := match es with [e] => e | _ => And es end.
Definition choice_of (es : list expr) : expr := match es with [e] => e | _ => Or es end.

Inductive atom_text : str -> expr -> Prop :=
| at_lit t v : literal t v -> atom_text t (Simple (Literal v))
| at_class cs rg t : class_text cs rg t -> atom_text t (Simple (Match cs rg))
| at_ref t : rule_name t -> atom_text t (RuleName t)
| at_dot : atom_text (s_ ".") (Simple Dot).

Inductive unit_text : str -> expr -> Prop :=
| ut_atom t e : atom_text t e -> unit_text t e
| ut_par b1 t b2 e : blank b1 -> expr_text t e -> blank b2 ->
    unit_text (s_ "(" ++ b1 ++ t ++ b2 ++ s_ ")") e
with item_text : str -> expr -> Prop :=
| it_one t e : unit_text t e -> item_text t e
| it_star t e : unit_text t e -> item_text (t ++ s_ "*") (Repeat e 0 None)
| it_plus t e : unit_text t e -> item_text (t ++ s_ "+") (Repeat e 1 None)
| it_opt t e : unit_text t e -> item_text (t ++ s_ "?") (Repeat e 0 (Some 1))
| it_not t e : unit_text t e -> item_text (s_ "!" ++ t) (Not e)
with seq_text : str -> list expr -> Prop :=
| st_error t v : error_text t v -> seq_text t [Simple (AError v)]
| st_one t e : item_text t e -> ~ starts_with_error t -> seq_text t [e]
| st_more t e sp r es : item_text t e -> separator sp -> seq_text r es ->
    ~ starts_with_error (t ++ sp ++ r) -> seq_text (t ++ sp ++ r) (e :: es)
with choice_text : str -> list expr -> Prop :=
| ct_one t es : seq_text t es -> choice_text t [seq_of es]
| ct_more t es b1 b2 r xs : seq_text t es -> blank b1 -> blank b2 -> hd_error b2 <> Some 47%N ->
    choice_text r xs -> choice_text (t ++ b1 ++ s_ "/" ++ b2 ++ r) (seq_of es :: xs)
with expr_text : str -> expr -> Prop :=
| et t xs : choice_text t xs -> expr_text t (choice_of xs).

(* ------------------------------------------------------------------------------------------- *)
(** * Grammars *)

Inductive def : Type :=
| Def (n : str) (e : expr)
| Mod (m : str) (l : list def).

Inductive def_text : str -> def -> Prop :=
| df_rule n b1 b2 t e r b3 : rule_name n -> blank b1 -> blank b2 -> expr_text t e -> rule_end r -> blank b3 ->
    def_text (n ++ b1 ++ s_ "=" ++ b2 ++ t ++ r ++ b3) (Def n e)
| df_module m b1 b2 t l r b3 : symbol m -> blank b1 -> blank b2 -> defs_text t l -> rule_end r -> blank b3 ->
    def_text (m ++ b1 ++ s_ "{" ++ b2 ++ t ++ s_ "}" ++ r ++ b3) (Mod m l)
with defs_text : str -> list def -> Prop :=
| ds_one t d : def_text t d -> defs_text t [d]
| ds_more t d r l : def_text t d -> defs_text r l -> defs_text (t ++ r) (d :: l).

(** A grammar text: blanks, then one or more definitions. *)
Definition grammar_text (t : str) (l : list def) : Prop :=
  exists b r, blank b /\ defs_text r l /\ t = b ++ r.

(** What each name is bound to.  A definition replaces an earlier one; a module only adds the names that are
    not yet bound in the enclosing block; module names play no role. *)
Definition binding := str -> option expr.

Fixpoint define (env : binding) (d : def) : binding :=
  match d with
  | Def n e => fun k => if str_eqb n k then Some e else env k
  | Mod _ l =>
      let inner := fold_left (fun en x => define en x) l (fun _ => None) in
      fun k => match env k with Some e => Some e | None => inner k end
  end.

Definition bindings (l : list def) : binding := fold_left define l (fun _ => None).
