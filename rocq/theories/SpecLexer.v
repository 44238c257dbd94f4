(** Cutting a text into tokens. *)
From Verif Require Import Base ModelAst ModelParser SpecPeg SpecPos SpecApi SpecPower.

(** [main = (n1 / n2 / ..)*], with the rules [rs] for the tokens. *)
Definition lexer_rules (rs : rules) (ns : list str) : rules := with_main rs (rep0 (Or (map ref_rule ns)) 0).

(** A token: the name of its rule, what is in its node, and its text. *)
Record token : Type := Token { t_name : str; t_kids : list node; t_text : str }.

Section Lexer.
Variable G : str -> option expr.
Variable ns : list str.

(** At the start of [s], [n] is the first of the rules [ns] that does not fail, with the result [r]. *)
Definition picks (s : str) (n : str) (r : presult) : Prop :=
  exists earlier later, ns = earlier ++ n :: later /\ (forall m, In m earlier -> peg G (RuleName m) s PFail) /\ peg G (RuleName n) s r /\ r <> PFail.

(** No token starts here. *)
Definition no_token (s : str) : Prop := forall n, In n ns -> peg G (RuleName n) s PFail.

(** [s] starts with the tokens [toks], each by the first rule that does not fail where it starts, and [rest] is left. *)
Inductive lexes : str -> list token -> str -> Prop :=
| lx_stop s : lexes s [] s
| lx_next n ks w s toks rest : picks (w ++ s) n (PMatch [Rule n ks] s) -> w <> [] -> lexes s toks rest ->
    lexes (w ++ s) (Token n ks w :: toks) rest.
End Lexer.

Definition token_node (t : token) : node := Rule (t_name t) (t_kids t).

(** The list of tokens as [flatten] gives it: names and texts. *)
Definition token_list (toks : list token) : list fnode :=
  FBegin main :: flat_map (fun t => [FBegin (t_name t); FVal (t_text t); FEnd (t_name t)]) toks ++ [FEnd main].
