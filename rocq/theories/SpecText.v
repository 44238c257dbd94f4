(** Saving a rule set as a grammar text. *)
From Verif Require Import Base ModelAst ModelParser SpecSyntax SpecPegApi.

(** The definitions of a rule set, in the order they are listed. *)
Definition as_defs (l : list (str * expr)) : list def := map (fun p => Def (fst p) (snd p)) l.

(** A text for a rule set. *)
Definition saved (l : list (str * expr)) : str := print_grammar (as_defs l).

(** The rule sets of the supported syntax. *)
Definition savable (m : list (str * expr)) : Prop :=
  m <> [] /\ Forall (fun p => rule_name (fst p) /\ expressible (snd p)) m.
