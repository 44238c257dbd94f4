(** JSON: a grammar text for it, and (independently, after json.org) which texts are JSON and what they say. *)
From Verif Require Import Base ModelAst ModelParser ModelPeg SpecApi SpecDocs.

(** The grammar text.  A rule reads the blanks after it. *)
Definition json_grammar : str :=
  s_ "main   = ws value" ++ nl ++
  s_ "value  = object / array / string / number / 'true' ws / 'false' ws / 'null' ws" ++ nl ++
  s_ "object = '{' ws (member (',' ws member)*)? '}' ws" ++ nl ++
  s_ "member = string ':' ws value" ++ nl ++
  s_ "array  = '[' ws (value (',' ws value)*)? ']' ws" ++ nl ++
  s_ "string = '""' ([ -!#-[]-~] / ""\0x7F"" / ""\\"" ([""\/bfnrt] / 'u' [0-9A-Fa-f] [0-9A-Fa-f] [0-9A-Fa-f] [0-9A-Fa-f]))* '""' ws" ++ nl ++
  s_ "number = '-'? ('0' / [1-9] [0-9]*) ('.' [0-9]+)? ([eE] ('+' / '-')? [0-9]+)? ws" ++ nl ++
  s_ "ws     = (' ' / ""\t"" / ""\n"" / ""\r"")*" ++ nl.

(** * What is JSON *)

Inductive json : Type :=
| JNull | JTrue | JFalse
| JNumber (n : str)              (* as written *)
| JString (x : str)              (* as written between the quotes *)
| JArray (l : list json)
| JObject (l : list (str * json)).

Definition ws (w : str) : Prop := Forall (fun c => c = 32 \/ c = 9 \/ c = 10 \/ c = 13)%N w.

Definition is_hex (c : char) : Prop := (48 <= c <= 57 \/ 65 <= c <= 70 \/ 97 <= c <= 102)%N.
(** Chars that stand for themselves: from the space on, but not the double quote and the backslash; the letters of the short escapes. *)
Definition plain_char (c : char) : Prop := (32 <= c /\ c <> 34 /\ c <> 92)%N.
Definition escape_char (c : char) : Prop := In c (s_ """\/bfnrt").

Inductive chars : str -> Prop :=
| ch_nil : chars []
| ch_plain c x : plain_char c -> chars x -> chars (c :: x)
| ch_escape c x : escape_char c -> chars x -> chars (92%N :: c :: x)
| ch_unicode a b c d x : is_hex a -> is_hex b -> is_hex c -> is_hex d -> chars x -> chars (92%N :: 117%N :: a :: b :: c :: d :: x).

Definition digits1 (x : str) : Prop := x <> [] /\ Forall (fun c => is_digit c = true) x.
Inductive integer : str -> Prop :=
| in_zero : integer (s_ "0")
| in_digits c x : (49 <= c <= 57)%N -> Forall (fun c => is_digit c = true) x -> integer (c :: x).
Definition fraction (x : str) : Prop := x = [] \/ exists d, digits1 d /\ x = s_ "." ++ d.
Definition exponent (x : str) : Prop :=
  x = [] \/ exists e sg d, (e = 101 \/ e = 69)%N /\ (sg = [] \/ sg = s_ "+" \/ sg = s_ "-") /\ digits1 d /\ x = e :: sg ++ d.
Definition number (x : str) : Prop :=
  exists sg i f e, (sg = [] \/ sg = s_ "-") /\ integer i /\ fraction f /\ exponent e /\ x = sg ++ i ++ f ++ e.

Definition quoted (x : str) : str := s_ """" ++ x ++ s_ """".

(** [writes v t]: the text [t] is a way to write [v]. *)
Inductive writes : json -> str -> Prop :=
| w_null : writes JNull (s_ "null")
| w_true : writes JTrue (s_ "true")
| w_false : writes JFalse (s_ "false")
| w_number n : number n -> writes (JNumber n) n
| w_string x : chars x -> writes (JString x) (quoted x)
| w_array0 w : ws w -> writes (JArray []) (s_ "[" ++ w ++ s_ "]")
| w_array l t : elements l t -> writes (JArray l) (s_ "[" ++ t ++ s_ "]")
| w_object0 w : ws w -> writes (JObject []) (s_ "{" ++ w ++ s_ "}")
| w_object l t : members l t -> writes (JObject l) (s_ "{" ++ t ++ s_ "}")
with elements : list json -> str -> Prop :=
| es_one v w1 t w2 : ws w1 -> writes v t -> ws w2 -> elements [v] (w1 ++ t ++ w2)
| es_more v w1 t w2 l r : ws w1 -> writes v t -> ws w2 -> elements l r -> elements (v :: l) ((w1 ++ t ++ w2) ++ s_ "," ++ r)
with members : list (str * json) -> str -> Prop :=
| ms_one k v w1 w2 w3 t w4 : ws w1 -> chars k -> ws w2 -> ws w3 -> writes v t -> ws w4 ->
    members [(k, v)] (w1 ++ quoted k ++ w2 ++ s_ ":" ++ w3 ++ t ++ w4)
| ms_more k v w1 w2 w3 t w4 l r : ws w1 -> chars k -> ws w2 -> ws w3 -> writes v t -> ws w4 -> members l r ->
    members ((k, v) :: l) ((w1 ++ quoted k ++ w2 ++ s_ ":" ++ w3 ++ t ++ w4) ++ s_ "," ++ r).

Definition json_text (v : json) (s : str) : Prop := exists w1 t w2, ws w1 /\ writes v t /\ ws w2 /\ s = w1 ++ t ++ w2.

(** * What is read: the tree without blanks, adjacent texts joined *)

Definition string_tree (x : str) : node := Rule (s_ "string") [Val (quoted x)].

(** The parts with a comma between them. *)
Definition commas (l : list node) : list node :=
  match l with [] => [] | x :: r => x :: flat_map (fun y => [Val (s_ ","); y]) r end.

Fixpoint json_tree (v : json) : node :=
  Rule (s_ "value")
    match v with
    | JNull => [Val (s_ "null")]
    | JTrue => [Val (s_ "true")]
    | JFalse => [Val (s_ "false")]
    | JNumber n => [Rule (s_ "number") [Val n]]
    | JString x => [string_tree x]
    | JArray [] => [Rule (s_ "array") [Val (s_ "[]")]]
    | JArray l => [Rule (s_ "array") ([Val (s_ "[")] ++ commas (map json_tree l) ++ [Val (s_ "]")])]
    | JObject [] => [Rule (s_ "object") [Val (s_ "{}")]]
    | JObject l => [Rule (s_ "object") ([Val (s_ "{")] ++
        commas (map (fun kv => Rule (s_ "member") [string_tree (fst kv); Val (s_ ":"); json_tree (snd kv)]) l) ++ [Val (s_ "}")])]
    end.

(** * A text for each value, without blanks *)

(** The numbers and strings of [v] are JSON. *)
Fixpoint ok_json (v : json) : Prop :=
  match v with
  | JNull | JTrue | JFalse => True
  | JNumber n => number n
  | JString x => chars x
  | JArray l => fold_right (fun x P => ok_json x /\ P) True l
  | JObject l => fold_right (fun kv P => (chars (fst kv) /\ ok_json (snd kv)) /\ P) True l
  end.

Fixpoint joined (l : list str) : str := match l with [] => [] | [x] => x | x :: r => x ++ s_ "," ++ joined r end.

Fixpoint show (v : json) : str :=
  match v with
  | JNull => s_ "null"
  | JTrue => s_ "true"
  | JFalse => s_ "false"
  | JNumber n => n
  | JString x => quoted x
  | JArray l => s_ "[" ++ joined (map show l) ++ s_ "]"
  | JObject l => s_ "{" ++ joined (map (fun kv => quoted (fst kv) ++ s_ ":" ++ show (snd kv)) l) ++ s_ "}"
  end.
