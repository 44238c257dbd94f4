(** Records of fixed width: C120.  A family of rule sets, one for each list of char classes. *)
From Verif Require Import Base ModelAst ModelParser SpecPeg SpecPos SpecApi SpecReport SpecTable.

Definition nm_record : str := s_ "record".

(** A column: the chars that can stand in it. *)
Definition column : Type := (str * list (char * char))%type.

Definition fits (f : column) (c : char) : Prop := in_class (fst f) (snd f) c.

(** [main = record*;  record = [..] [..] .. [..]], one class for each column. *)
Definition record_rules (fs : list column) : rules := rules_macro
  [(main, rep0 (ref_rule nm_record) 0);
   (nm_record, And (map (fun f => ematch (fst f) (snd f)) fs))].

(** A record: a char for each column. *)
Definition is_record (fs : list column) (w : str) : Prop := Forall2 fits fs w.

(** The tree of a list of records. *)
Definition records_tree (l : list str) : node := Rule main (map (fun w => Rule nm_record (by_chars w)) l).

(** The text stops to fit: there are records [l] first, then [w], which fills the columns [gs] of one more record, and then, for the next
    column [f], a char that does not fit, or the end of the text. *)
Definition stops_at (fs : list column) (l : list str) (gs : list column) (f : column) (w rest s : str) : Prop :=
  Forall (is_record fs) l /\ (exists hs, fs = gs ++ f :: hs) /\ is_record gs w /\
  match rest with [] => True | c :: _ => ~ fits f c end /\ s = concat l ++ w ++ rest.
