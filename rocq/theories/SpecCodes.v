(** Rules for texts of words, from rules for texts of chars. *)
From Verif Require Import Base ModelAst ModelParser SpecPeg SpecPos SpecCase.

(** Words, each with the char that it counts as. *)
Definition code : Type := list (str * char).

(** No word is empty, and none is the start of another one. *)
Definition plain (ws : code) : Prop :=
  (forall w c, In (w, c) ws -> w <> [] /\ ascii w /\ ascii_char c) /\
  (forall w c w' c' x y, In (w, c) ws -> In (w', c') ws -> w ++ x = w' ++ y -> w = w' /\ c = c').

(** [counts_as ws s z]: the text [s] consists of words that count as the chars of [z]. *)
Inductive counts_as (ws : code) : str -> str -> Prop :=
| ca_none : counts_as ws [] []
| ca_word w c s z : In (w, c) ws -> counts_as ws s z -> counts_as ws (w ++ s) (c :: z).

(** ['w1' / 'w2' / ..], the words that count as chars with [p]. *)
Definition words_with (ws : code) (p : char -> bool) : expr := Or (map (fun x => lit (fst x)) (filter (fun x => p (snd x)) ws)).

Fixpoint coded (ws : code) (e : expr) : expr :=
  match e with
  | Simple (Literal (c :: l)) => And (map (fun x => words_with ws (N.eqb x)) (c :: l))
  | Simple (Match cs rs) => words_with ws (in_class_b cs rs)
  | Simple Dot => words_with ws (fun _ => true)
  | Simple a => Simple a
  | And es => And (map (coded ws) es)
  | Or es => Or (map (coded ws) es)
  | Not e => Not (coded ws e)
  | Repeat e mn mx => Repeat (coded ws e) mn mx
  | RuleName n => RuleName n
  end.

Definition coded_rules (ws : code) (rs : rules) : rules := map (fun p => (fst p, coded ws (snd p))) rs.

(** [spells ws ts ts']: the nodes [ts] are [ts'] with a leaf for each word in place of a char in a leaf. *)
Inductive spells (ws : code) : list node -> list node -> Prop :=
| sp_nil : spells ws [] []
| sp_leaf l ts ts' : l <> [] -> Forall (fun x => In x ws) l -> spells ws ts ts' -> spells ws (map (fun x => Val (fst x)) l ++ ts) (Val (map snd l) :: ts')
| sp_same v ts ts' : v = [] \/ v = s_ "EOF" -> spells ws ts ts' -> spells ws (Val v :: ts) (Val v :: ts')
| sp_rule n us us' ts ts' : spells ws us us' -> spells ws ts ts' -> spells ws (Rule n us :: ts) (Rule n us' :: ts').
