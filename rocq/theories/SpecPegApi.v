(** Small specifications used by the theorems about [rules_from_peg]: answers, literal decoding, a printer of
    grammars, which definition of a name wins, the two defects of an accepted text, plain rules, error paths. *)
From Verif Require Import Base ModelAst ModelParser ModelPeg SpecPos SpecSyntax.

(** "Calling [rules_from_peg] on [s] returns [r]": with enough fuel, and then with any larger one. *)
Definition answers (s : str) (r : pres rules) : Prop :=
  r <> Fuel /\ exists f0, forall f, f0 <= f -> rules_from_peg f s = r.

(** ... a rule set that binds each name as [env] says. *)
Definition reads_as (s : str) (env : str -> option expr) : Prop :=
  exists rs, answers s (Ok rs) /\ NoDup (map fst rs) /\ forall k, rules_get rs k = env k.

(* ------------------------------------------------------------------------------------------- *)
(** * Double-quoted literals *)

(** The char a one-letter escape stands for. *)
Definition escaped (x : char) : option char :=
  if N.eqb x 114 then Some ch_cr
  else if N.eqb x 110 then Some ch_nl
  else if N.eqb x 116 then Some ch_tab
  else if N.eqb x ch_bslash then Some ch_bslash
  else if N.eqb x ch_dquote then Some ch_dquote
  else None.

Definition hex_value (c : char) : option N :=
  if (48 <=? c)%N && (c <=? 57)%N then Some (c - 48)%N
  else if (65 <=? c)%N && (c <=? 70)%N then Some (c - 55)%N
  else None.

(** The text between two double quotes, with its escapes replaced; anything else stands for itself. *)
Fixpoint unescape (t : str) : str :=
  match t with
  | [] => []
  | c :: t1 =>
      if N.eqb c ch_bslash then
        match t1 with
        | x :: t2 =>
            match escaped x with
            | Some y => y :: unescape t2
            | None =>
                match t2 with
                | z :: a :: b :: t5 =>
                    if N.eqb x 48 && N.eqb z 120 then
                      match hex_value a, hex_value b with
                      | Some d1, Some d2 => (d1 * 16 + d2)%N :: unescape t5
                      | _, _ => c :: unescape t1
                      end
                    else c :: unescape t1
                | _ => c :: unescape t1
                end
            end
        | [] => c :: unescape t1
        end
      else c :: unescape t1
  end.

(** The text does not close the literal early: no double quote but after a backslash, and no backslash left
    at the end. *)
Fixpoint closed (t : str) : bool :=
  match t with
  | [] => true
  | c :: t1 =>
      if N.eqb c ch_dquote then false
      else if N.eqb c ch_bslash then
        match t1 with
        | x :: t2 => match escaped x with Some _ => closed t2 | None => closed t1 end
        | [] => false
        end
      else closed t1
  end.

(** One way to write any text of chars below 256 between double quotes. *)
Definition hex_char_of (d : N) : char := if (d <? 10)%N then (d + 48)%N else (d + 55)%N.
Definition encode_char (c : char) : str :=
  if N.eqb c ch_dquote || N.eqb c ch_bslash then [ch_bslash; c]
  else if (c <? 128)%N then [c]
  else s_ "\0x" ++ [hex_char_of (c / 16); hex_char_of (c mod 16)].
Definition encode (v : str) : str := flat_map encode_char v.

(* ------------------------------------------------------------------------------------------- *)
(** * Printing a grammar *)

Definition dq (v : str) : str := [ch_dquote] ++ encode v ++ [ch_dquote].

Definition join (sep : str) (l : list str) : str :=
  match l with [] => [] | x :: r => x ++ flat_map (fun y => sep ++ y) r end.

(** How tightly the written form of an expression binds: 3 a unit, 2 a suffixed or negated unit, 1 a sequence,
    0 a choice.  A reference to a rule named [error] is kept in parentheses inside sequences. *)
Definition level (e : expr) : nat :=
  match e with
  | Simple (AError _) => 1
  | Simple _ => 3
  | RuleName n => if str_eqb n (s_ "error") then 1 else 3
  | Repeat _ _ _ | Not _ => 2
  | And _ => 1
  | Or _ => 0
  end.

Definition rep_suffix (mn : nat) (mx : option nat) : str :=
  match mn, mx with
  | 0, None => s_ "*"
  | 1, None => s_ "+"
  | _, _ => s_ "?"
  end.

Fixpoint print_at (k : nat) (e : expr) : str :=
  let body :=
    match e with
    | Simple (Literal v) => dq v
    | Simple (AError v) => s_ "error(" ++ dq v ++ s_ ")"
    | Simple (Match cs rg) => s_ "[" ++ cs ++ ranges_text rg ++ s_ "]"
    | Simple Dot => s_ "."
    | Simple AEOF => []
    | RuleName n => n
    | Repeat e1 mn mx => print_at 3 e1 ++ rep_suffix mn mx
    | Not e1 => s_ "!" ++ print_at 3 e1
    | And es => join (s_ " ") (map (print_at 2) es)
    | Or es => join (s_ " / ") (map (print_at 1) es)
    end in
  if level e <? k then s_ "(" ++ body ++ s_ ")" else body.

Definition nl : str := [ch_nl].

Fixpoint print_def (d : def) : str :=
  match d with
  | Def n e => n ++ s_ " = " ++ print_at 0 e ++ nl
  | Mod m l => m ++ s_ " {" ++ nl ++ flat_map print_def l ++ s_ "}" ++ nl
  end.

Definition print_grammar (l : list def) : str := flat_map print_def l.

(** The abstract grammars of the supported syntax. *)
Definition byte_text (v : str) : Prop := Forall (fun c => (c < 256)%N) v.

Fixpoint expressible (e : expr) : Prop :=
  match e with
  | Simple (Literal v) | Simple (AError v) => byte_text v
  | Simple (Match cs rg) =>
      (cs <> [] \/ rg <> []) /\ ascii cs /\ ascii (ranges_text rg) /\
      forall pre c post, cs = pre ++ c :: post ->
        c <> 93%N /\ hd_error (post ++ ranges_text rg ++ s_ "]") <> Some 45%N
  | Simple Dot => True
  | Simple AEOF => False
  | RuleName n => rule_name n
  | Repeat e1 mn mx => expressible e1 /\ ((mn = 0 /\ mx = None) \/ (mn = 1 /\ mx = None) \/ (mn = 0 /\ mx = Some 1))
  | Not e1 => expressible e1
  | And es | Or es => 2 <= length es /\ fold_right (fun x P => expressible x /\ P) True es
  end.

Fixpoint expressible_def (d : def) : Prop :=
  match d with
  | Def n e => rule_name n /\ expressible e
  | Mod m l => symbol m /\ l <> [] /\ fold_right (fun x P => expressible_def x /\ P) True l
  end.

(* ------------------------------------------------------------------------------------------- *)
(** * Which definition wins *)

(** [k] is defined somewhere in the block, at any depth. *)
Inductive defined (k : str) : list def -> Prop :=
| dk_plain e l : In (Def k e) l -> defined k l
| dk_module m b l : In (Mod m b) l -> defined k b -> defined k l.

(** The last plain definition of a block wins; without one, the first module that defines the name. *)
Inductive winner (k : str) : list def -> expr -> Prop :=
| wn_plain l1 e l2 : (forall e', ~ In (Def k e') l2) -> winner k (l1 ++ Def k e :: l2) e
| wn_module l1 m b l2 e : (forall e', ~ In (Def k e') (l1 ++ l2)) ->
    (forall m' b', In (Mod m' b') l1 -> ~ defined k b') -> winner k b e -> winner k (l1 ++ Mod m b :: l2) e.

(* ------------------------------------------------------------------------------------------- *)
(** * The two defects of a text accepted by the PEG grammar *)

Definition is_rule (n : str) (x : node) : bool := match x with Rule m _ => str_eqb m n | _ => false end.

(** An empty single-quoted literal (nothing between the two quotes), or a sequence with two continuations
    (which happens after [error(...)]); blanks are not looked into. *)
Inductive defect : node -> Prop :=
| dfx_empty q1 q2 : defect (Rule (s_ "lit_noesc") [q1; q2])
| dfx_two l : 2 <= length (filter (is_rule (s_ "and")) l) -> defect (Rule (s_ "and") l)
| dfx_in n l x : ~ In n peg_blanks -> In x l -> defect x -> defect (Rule n l).

(** One outcome with a defect, another one without. *)
Definition if_defect (ast : node) (yes no : Prop) : Prop := (defect ast -> yes) /\ (~ defect ast -> no).

(* ------------------------------------------------------------------------------------------- *)
(** * Rules that come from a text *)

Fixpoint plain (e : expr) : Prop :=
  match e with
  | Simple (Match cs rg) => cs <> [] \/ rg <> []
  | Simple AEOF => False
  | Simple _ => True
  | And es | Or es => 2 <= length es /\ fold_right (fun x P => plain x /\ P) True es
  | Not e1 => plain e1
  | Repeat e1 mn mx => plain e1 /\ ((mn = 0 /\ mx = None) \/ (mn = 1 /\ mx = None) \/ (mn = 0 /\ mx = Some 1))
  | RuleName n => rule_name n
  end.

(* ------------------------------------------------------------------------------------------- *)
(** * Error paths *)

(** The descriptions of an error, outermost first, and what it ends with. *)
Fixpoint descriptions (e : peg_error) : list str :=
  match e with EPeg s (Some b) => s :: descriptions b | _ => [] end.
Fixpoint root_cause (e : peg_error) : peg_error :=
  match e with EPeg _ (Some b) => root_cause b | _ => e end.

(** The constructs it names: its descriptions of the form [consuming <construct>].  The one description of
    that form that is not about a construct is [consuming symbol rule_ref]. *)
Definition construct (d : str) : option str :=
  if str_eqb (firstn 10 d) (s_ "consuming ") && negb (str_eqb d (s_ "consuming symbol rule_ref"))
  then Some (skipn 10 d) else None.
Fixpoint some_only {A} (l : list (option A)) : list A :=
  match l with [] => [] | Some x :: r => x :: some_only r | None :: r => some_only r end.
Definition constructs (e : peg_error) : list str := some_only (map construct (descriptions e)).

(** The constructs begun and not ended in a list of tokens, outermost first. *)
Fixpoint open_from (st : list str) (l : list fnode) : list str :=
  match l with
  | [] => st
  | FBegin n :: r => open_from (st ++ [n]) r
  | FEnd _ :: r => open_from (removelast st) r
  | _ :: r => open_from st r
  end.
Definition open (l : list fnode) : list str := open_from [] l.

(** The environment with a single binding. *)
Definition only (k : str) (e : expr) : str -> option expr := fun n => if str_eqb k n then Some e else None.

(** The only message [rules_from_peg] can abort with. *)
Definition unbalanced_msg : str := s_ "unbalanced parethesis: missing ')'".
