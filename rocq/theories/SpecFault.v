(** The error of [rules_from_peg] for a text that the PEG grammar accepts but that has a defect, written down as a
    function of the syntax tree of the text: which construct is blamed, and the whole chain of descriptions. *)
From Verif Require Import Base ModelAst ModelParser ModelPegRules ModelPeg SpecPegApi.

(** The first element that has something to say. *)
Definition first {A B} (f : A -> option B) : list A -> option B :=
  fix go l := match l with
              | [] => None
              | x :: r => match f x with Some b => Some b | None => go r end
              end.

(** The same, but only up to the first element that satisfies [stop]; the rest is judged by [after]. *)
Definition first_until {A B} (f : A -> option B) (stop : A -> bool) (after : list A -> option B) : list A -> option B :=
  fix go l := match l with
              | [] => None
              | x :: r => match f x with Some b => Some b | None => if stop x then after r else go r end
              end.

(** An error with descriptions around it, outermost first. *)
Definition chain (ds : list str) (e : peg_error) : peg_error := fold_right (fun d b => EPeg d (Some b)) e ds.

(** The two root causes: no text between the quotes, and a sequence that goes on after it ended. *)
Definition no_text : peg_error := EAst (AstError (s_ "expected Val node") None).
Definition goes_on : peg_error := EAst (AstError (s_ "expected end rule for and") None).

(** The descriptions that a construct puts around the errors of its parts. *)
Definition labels (n : str) (parts : list node) : list str :=
  (s_ "consuming " ++ n) ::
  (if str_eqb n (s_ "expr") then [s_ "or:"]
   else if str_eqb n (s_ "atom") || str_eqb n (s_ "atom_or_par") then
     match parts with Rule m _ :: _ => [s_ "n:" ++ m] | _ => [] end
   else []).

(** What is wrong with a tree: blanks are not looked at; the parts are looked at from left to right; a sequence is
    only looked at up to its first continuation, and then blamed if there is a second one. *)
Fixpoint fault (x : node) : option peg_error :=
  match x with
  | Rule n parts =>
      if name_in [s_ "_"; s_ "_1"; s_ "_eol"] n then None
      else
        option_map (chain (labels n parts))
          (if str_eqb n (s_ "lit_noesc") && (length parts =? 2) then Some no_text
           else if str_eqb n (s_ "and") then
             first_until fault (is_rule (s_ "and"))
               (fun more => if existsb (is_rule (s_ "and")) more then Some goes_on else first fault more) parts
           else first fault parts)
  | _ => None
  end.

(** The same as a relation that does not compute: the path from the whole tree to the first construct with a defect
    of its own, and the root cause.  Everything to the left of the path is free of defects; a sequence with two
    continuations is only looked at up to the first one. *)
Definition fine (l : list node) : Prop := forall y, In y l -> ~ defect y.
Definition no_and (l : list node) : Prop := forall y, In y l -> is_rule (s_ "and") y = false.

Inductive first_defect : node -> list node -> peg_error -> Prop :=
| fd_empty q1 q2 : let x := Rule (s_ "lit_noesc") [q1; q2] in first_defect x [x] no_text
| fd_two pre a mid b post : fine pre -> no_and pre -> is_rule (s_ "and") a = true -> ~ defect a -> is_rule (s_ "and") b = true ->
    let x := Rule (s_ "and") (pre ++ a :: mid ++ b :: post) in first_defect x [x] goes_on
| fd_in n pre y post path root : ~ In n [s_ "_"; s_ "_1"; s_ "_eol"] -> fine pre ->
    (n = s_ "lit_noesc" -> length (pre ++ y :: post) <> 2) ->
    (n = s_ "and" -> no_and pre \/ length (filter (is_rule (s_ "and")) (pre ++ y :: post)) <= 1) ->
    first_defect y path root ->
    let x := Rule n (pre ++ y :: post) in first_defect x (x :: path) root.

(** The descriptions of a path. *)
Definition told (path : list node) : list str :=
  flat_map (fun x => match x with Rule n parts => labels n parts | _ => [] end) path.
