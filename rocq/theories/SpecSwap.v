(** Rules where a part is exchanged for another one, and what parsing with both gives. *)
From Verif Require Import Base ModelAst ModelParser SpecPeg SpecPos SpecApi SpecRefactor.

(** Parsing [s] ends with an abort: the message [msg] at place [k]. *)
Definition aborts (rs : rules) (s msg : str) (k : nat) : Prop :=
  exists fuel er, parse fuel s rs = Err er /\ e_priority er = Critical /\ e_descr er = msg /\ pn (e_pos er) = k.

(** Whatever text is parsed with either rule set: the same tree, or an error in both, where aborts are the same; or both hang. *)
Definition same_answers (rs rs' : rules) : Prop := forall s, ascii s ->
  (forall ast, (exists fuel, parse fuel s rs = Ok ast) <-> (exists fuel, parse fuel s rs' = Ok ast)) /\
  ((exists fuel er, parse fuel s rs = Err er) <-> (exists fuel er, parse fuel s rs' = Err er)) /\
  (forall msg k, aborts rs s msg k <-> aborts rs' s msg k).

(** The same, but for the trees. *)
Definition same_texts (rs rs' : rules) : Prop := forall s, ascii s ->
  ((exists fuel ast, parse fuel s rs = Ok ast) <-> (exists fuel ast, parse fuel s rs' = Ok ast)) /\
  ((exists fuel er, parse fuel s rs = Err er) <-> (exists fuel er, parse fuel s rs' = Err er)) /\
  (forall msg k, aborts rs s msg k <-> aborts rs' s msg k).

(** [rs'] is [rs] where some occurrences of [e], in any rules, are replaced by [e']. *)
Definition swapped (e e' : expr) (rs rs' : rules) : Prop :=
  forall n, match rules_get rs n, rules_get rs' n with
            | Some x, Some x' => replaced (fun a b => a = e /\ b = e') x x'
            | None, None => True
            | _, _ => False
            end.

(** [e] can be replaced by [e'], and [e'] by [e], anywhere in any rules. *)
Definition interchangeable (e e' : expr) : Prop :=
  forall rs rs', sane_rules rs -> sane_rules rs' -> swapped e e' rs rs' -> same_answers rs rs'.
