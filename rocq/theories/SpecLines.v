(** Texts that are read line by line. *)
From Verif Require Import Base ModelAst ModelParser ModelCost SpecPeg SpecPos SpecApi SpecPower.

(** The atom can tell the char [c] from the end of the text. *)
Definition minds (c : char) (a : atom) : Prop :=
  match a with
  | Literal l => In c l
  | Match cs rg => in_class cs rg c
  | Dot | AEOF => True
  | AError _ => False
  end.

(** [a] is one of the atoms of [e], or of the rules that [e] refers to, directly or not. *)
Inductive uses (G : str -> option expr) : expr -> atom -> Prop :=
| us_here e a : has_atom a e -> uses G e a
| us_rule n e e' a : has_ref n e -> G n = Some e' -> uses G e' a -> uses G e a.

(** To [e] the char [c] is like the end of the text. *)
Definition stranger (G : str -> option expr) (c : char) (e : expr) : Prop := forall a, uses G e a -> ~ minds c a.

(** The same result in front of [x]. *)
Definition put_before (x : str) (r : presult) : presult :=
  match r with PMatch ts rest => PMatch ts (rest ++ x) | PFail => PFail | PAbort m rest => PAbort m (rest ++ x) end.

(** [main = (e 'c')*], with the rules [rs]. *)
Definition line_rules (rs : rules) (e : expr) (c : char) : rules := with_main rs (rep0 (And [e; lit [c]]) 0).

(** Lines, each with its end. *)
Definition ended (c : char) (lines : list str) : str := flat_map (fun l => l ++ [c]) lines.

(** Read on its own, the line [l] gives the nodes [ks]. *)
Definition reads (rs : rules) (e : expr) (l : str) (ks : list node) : Prop :=
  exists fuel, parse fuel l (with_main rs e) = Ok (Rule main ks).

(** Read on its own, the line [l] is accepted or rejected, but not with a message. *)
Definition quiet (rs : rules) (e : expr) (l : str) : Prop :=
  exists fuel, match parse fuel l (with_main rs e) with Ok _ => True | Err er => e_priority er = Normal | _ => False end.

(** Read on its own, the line [l] leads to the message [m] after [k] chars. *)
Definition complains (rs : rules) (s : str) (m : str) (k : nat) : Prop :=
  exists fuel er, parse fuel s rs = Err er /\ e_priority er = Critical /\ e_descr er = m /\ pn (e_pos er) = k.

(** Parsing [s] makes [k] calls. *)
Definition makes_calls (rs : rules) (s : str) (k : nat) : Prop :=
  exists fuel, parse fuel s rs <> Fuel /\ parse_calls fuel s rs false = k.

(** The lines of a text and what is left after the last line end. *)
Definition split_lines (c : char) (s : str) (lines : list str) (last : str) : Prop :=
  s = ended c lines ++ last /\ Forall (fun l => ~ In c l) (last :: lines).
