(** Small specification for errors in long grammar texts: what begins a definition, and an error record that
    says the same thing further down in a longer text. *)
From Verif Require Import Base ModelAst ModelParser SpecPos SpecSyntax.

(** The text begins with a name, maybe blanks, and an equals sign or an opening brace. *)
Definition starts_definition (t : str) : Prop :=
  exists n b c r, rule_name n /\ blank b /\ (c = 61%N \/ c = 123%N) /\ t = n ++ b ++ c :: r.

(** [er'] is the error [er] of the text [t], as seen when [g] is written before [t]: same description, same
    rest of the line, same importance, and standing at the same place of [t]. *)
Definition moved (g t : str) (er er' : perror) : Prop :=
  exists pre post, t = pre ++ post /\
    e_pos er = pos_of pre /\ e_line_before er = tail_after is_nl pre /\
    e_pos er' = pos_of (g ++ pre) /\ e_line_before er' = tail_after is_nl (g ++ pre) /\
    e_line_after er = until_eol post /\ e_line_after er' = until_eol post /\
    e_descr er' = e_descr er /\ e_priority er' = e_priority er /\ e_parsing_rules er' = e_parsing_rules er.
