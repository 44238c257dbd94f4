(** Searching a text. *)
From Verif Require Import Base ModelAst ModelParser SpecPeg SpecPos SpecApi SpecPower SpecTable SpecLexer.

(** [main = (!n .)* n .*] *)
Definition find_rules (rs : rules) (n : str) : rules :=
  with_main rs (And [rep0 (And [Not (ref_rule n); dot_]) 0; ref_rule n; rep0 dot_ 0]).

(** [main = (n / o)*], where [o = .] *)
Definition scan_rules (rs : rules) (n o : str) : rules := lexer_rules rs [n; o].

Section Search.
Variable G : str -> option expr.
Variable n : str.

(** At the start of [s] the rule is answered, but does not match. *)
Definition misses (s : str) : Prop := exists r, peg G (RuleName n) s r /\ stops r.

(** The first place of [s] where the rule matches is after [u]; there it gives the nodes [ks] and leaves [rest]. *)
Definition first_match (s u : str) (ks : list node) (rest : str) : Prop :=
  exists v, s = u ++ v /\ (forall a b, u = a ++ b -> b <> [] -> misses (b ++ v)) /\ peg G (RuleName n) v (PMatch [Rule n ks] rest).

(** It matches nowhere, the end of the text included. *)
Definition never_matches (s : str) : Prop := forall a b, s = a ++ b -> misses b.

(** The matches of the rule, from left to right, each as soon as possible after the one before, and the chars between them. *)
Inductive part : Type := Hit (ks : list node) (w : str) | Between (c : char).
Inductive scans : str -> list part -> Prop :=
| sc_end : peg G (RuleName n) [] PFail -> scans [] []
| sc_hit ks w s ps : peg G (RuleName n) (w ++ s) (PMatch [Rule n ks] s) -> w <> [] -> scans s ps -> scans (w ++ s) (Hit ks w :: ps)
| sc_char c s ps : peg G (RuleName n) (c :: s) PFail -> scans s ps -> scans (c :: s) (Between c :: ps).
End Search.

Definition part_node (n o : str) (p : part) : node :=
  match p with Hit ks _ => Rule n ks | Between c => Rule o [Val [c]] end.
Definition part_text (p : part) : str := match p with Hit _ w => w | Between c => [c] end.
Definition hit_nodes (n : str) (ps : list part) : list node := flat_map (fun p => match p with Hit ks _ => [Rule n ks] | Between _ => [] end) ps.
Definition text_between (ps : list part) : str := flat_map (fun p => match p with Hit _ _ => [] | Between c => [c] end) ps.
