(** Nested lists of words, as in S-expressions or JSON arrays.  A family of rule sets, one for each class of chars, pair of brackets and separator. *)
From Verif Require Import Base ModelAst ModelParser SpecPeg SpecPos SpecApi SpecTable.

Definition nm_value : str := s_ "value".
Definition nm_word : str := s_ "word".
Definition nm_list : str := s_ "list".

(** [main = value;  value = word / list;  word = [..]+;  list = O (value (F value)* )? C] *)
Definition nested_rules (cs : str) (rg : list (char * char)) (O F C : char) : rules := rules_macro
  [(main, ref_rule nm_value);
   (nm_value, Or [ref_rule nm_word; ref_rule nm_list]);
   (nm_word, rep0 (ematch cs rg) 1);
   (nm_list, And [lit [O]; rep2 (And [ref_rule nm_value; rep0 (And [lit [F]; ref_rule nm_value]) 0]) 0 1; lit [C]])].

(** A word, or a list of such values. *)
Inductive value : Type :=
| Word (w : str)
| List (l : list value).

(** The words consist of one or more chars of the class. *)
Inductive is_value (cs : str) (rg : list (char * char)) : value -> Prop :=
| is_word w : w <> [] -> Forall (in_class cs rg) w -> is_value cs rg (Word w)
| is_list l : Forall (is_value cs rg) l -> is_value cs rg (List l).

Section Nested.
Variables O F C : char.

(** The text of a value. *)
Fixpoint value_text (v : value) : str :=
  match v with
  | Word w => w
  | List l => O :: join F (map value_text l) ++ [C]
  end.

(** Its tree, when words are shown by [word] and the trees of a list are put in brackets by [brackets]. *)
Fixpoint value_tree (word : str -> list node) (brackets : list node -> list node) (v : value) : node :=
  Rule nm_value
    [match v with
     | Word w => Rule nm_word (word w)
     | List l => Rule nm_list (brackets (join_trees F (map (value_tree word brackets) l)))
     end].

(** As the parser gives it. *)
Definition apart (ts : list node) : list node := Val [O] :: ts ++ [Val [C]].
(** As [compact] gives it: the brackets of an empty list are one value. *)
Definition merged (ts : list node) : list node := match ts with [] => [Val [O; C]] | _ => apart ts end.

End Nested.
