(** Renaming rules. *)
From Verif Require Import Base ModelAst ModelParser SpecPeg SpecReport SpecApi.

Section Rename.
Variable f : str -> str.

(** An expression with its references renamed. *)
Fixpoint rename (e : expr) : expr :=
  match e with
  | Simple a => Simple a
  | And es => And (map rename es)
  | Or es => Or (map rename es)
  | Not e1 => Not (rename e1)
  | Repeat e1 mn mx => Repeat (rename e1) mn mx
  | RuleName n => RuleName (f n)
  end.

(** A tree with its rule names renamed. *)
Fixpoint rename_node (nd : node) : node :=
  match nd with
  | Val v => Val v
  | Rule n l => Rule (f n) (map rename_node l)
  | EOF => EOF
  end.

(** [rs'] is [rs] renamed, as far as [main] can tell. *)
Definition renamed (rs rs' : rules) : Prop :=
  f main = main /\ forall n, reachable rs n -> rules_get rs' (f n) = option_map rename (rules_get rs n).

(** Renaming all definitions and references. *)
Definition rename_rules (rs : rules) : rules := map (fun p => (f (fst p), rename (snd p))) rs.

(** An entry of the trace of entered rules. *)
Definition entry_renamed (x x' : str) : Prop := exists n, x = s_ "r:" ++ n /\ x' = s_ "r:" ++ f n.

(** The same error, except that entered rules are renamed, and so is the rule a "Missing rule" report is about. *)
Record error_renamed (rs : rules) (er er' : perror) : Prop := ErrorRenamed {
  ern_pos : e_pos er' = e_pos er;
  ern_before : e_line_before er' = e_line_before er;
  ern_after : e_line_after er' = e_line_after er;
  ern_prio : e_priority er' = e_priority er;
  ern_trace : Forall2 entry_renamed (e_parsing_rules er) (e_parsing_rules er');
  ern_descr : e_descr er' = e_descr er \/
    (e_priority er = Critical /\
     exists n, reachable rs n /\ rules_get rs n = None /\ e_descr er = missing_rule_msg n /\ e_descr er' = missing_rule_msg (f n)) }.

Definition outcome_renamed (rs : rules) (o o' : outcome perror node) : Prop :=
  match o, o' with
  | Ok t, Ok t' => t' = rename_node t
  | Err er, Err er' => error_renamed rs er er'
  | Panic, Panic => True
  | Fuel, Fuel => True
  | _, _ => False
  end.

End Rename.
