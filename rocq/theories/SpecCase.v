(** Rules that ignore the difference between some chars, as that between capital and small letters. *)
From Verif Require Import Base ModelAst ModelParser SpecPeg SpecPos.

Definition ascii_letters : list char := map N.of_nat (seq 0 128).

Definition in_class_b (chars : str) (ranges : list (char * char)) (c : char) : bool :=
  existsb (N.eqb c) chars || existsb (fun r => N.leb (fst r) c && N.leb c (snd r)) ranges.

(** [[..]] with the ASCII chars that [p] holds for. *)
Definition chars_with (p : char -> bool) : expr := Simple (Match (filter p ascii_letters) []).

(** [e] for texts where only [f c] counts for a char [c]: a literal ['if'] becomes [[iI] [fF]], a class gets all chars [c] with [f c] in it. *)
Fixpoint ignoring (f : char -> char) (e : expr) : expr :=
  match e with
  | Simple (Literal (c :: l)) => And (map (fun x => chars_with (fun c => N.eqb (f c) x)) (c :: l))
  | Simple (Match cs rs) => chars_with (fun c => in_class_b cs rs (f c))
  | Simple a => Simple a
  | And es => And (map (ignoring f) es)
  | Or es => Or (map (ignoring f) es)
  | Not e => Not (ignoring f e)
  | Repeat e mn mx => Repeat (ignoring f e) mn mx
  | RuleName n => RuleName n
  end.

Definition ignoring_rules (f : char -> char) (rs : rules) : rules := map (fun p => (fst p, ignoring f (snd p))) rs.

(** The nodes [ts] are [ts'], with other chars for the same [f] and, for a leaf, a leaf for each char. (The leaf for the end of the text, and
    that of the literal [''], are the same.) *)
Inductive respelled (f : char -> char) : list node -> list node -> Prop :=
| rs_nil : respelled f [] []
| rs_leaf l ts ts' : l <> [] -> respelled f ts ts' -> respelled f (map (fun c => Val [c]) l ++ ts) (Val (map f l) :: ts')
| rs_same v ts ts' : v = [] \/ v = s_ "EOF" -> respelled f ts ts' -> respelled f (Val v :: ts) (Val v :: ts')
| rs_rule n us us' ts ts' : respelled f us us' -> respelled f ts ts' -> respelled f (Rule n us :: ts) (Rule n us' :: ts').

(** [A] as [a], [B] as [b], .. *)
Definition lower (c : char) : char := if N.leb 65 c && N.leb c 90 then (c + 32)%N else c.
