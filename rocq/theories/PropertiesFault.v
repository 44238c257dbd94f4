(** C107: the error of a grammar text that the PEG grammar accepts but that has a defect is determined in full by its
    syntax tree: it blames the first defect, and describes the way to it.  "[answers s r]" reads "[rules_from_peg] on
    [s] returns [r]" (SpecPegApi). *)
From Verif Require Import Base ModelAst ModelParser ModelPegRules ModelPeg SpecPeg SpecSyntax SpecPegApi SpecFault.
From Verif Require Import ProofParser ProofApi ProofPegApi ProofFault ProofPegMeaning ProofPegPath.

(** Every error is a syntax error of the parser, handed through, or blames the tree of the text. *)
Theorem C107_errors : forall f s e, rules_from_peg f s = Err e ->
  (exists er, e = EParser er /\ parse f s parse_peg = Err er) \/
  (exists ast, parse f s parse_peg = Ok ast /\ fault ast = Some e).
Proof. exact faulty. Qed.
Print Assumptions C107_errors.

(** The whole answer for an accepted text. *)
Theorem C107_accepted_texts : forall f s ast, parse f s parse_peg = Ok ast ->
  match fault ast with
  | Some e => answers s (Err e)
  | None => exists rs, answers s (Ok rs)
  end.
Proof. exact accepted. Qed.
Print Assumptions C107_accepted_texts.

(** Nothing is blamed exactly when there is no defect. *)
Theorem C107_blames_defects_only : forall x, fault x = None <-> ~ defect x.
Proof. exact fault_none_iff. Qed.
Print Assumptions C107_blames_defects_only.

(** What is blamed is the first defect, and the error consists of the descriptions along the way to it, around its
    cause. *)
Theorem C107_blames_the_first_defect : forall x e,
  fault x = Some e <-> exists path root, first_defect x path root /\ e = chain (told path) root.
Proof.
  intros x e. split; [apply fault_first|]. intros (path & root & D & ->). exact (first_fault x path root D).
Qed.
Print Assumptions C107_blames_the_first_defect.

(** Both together, for texts: the error is that of the first defect. *)
Theorem C107_error_of_the_first_defect : forall f s ast path root,
  parse f s parse_peg = Ok ast -> first_defect ast path root -> answers s (Err (chain (told path) root)).
Proof.
  intros f s ast path root P D. pose proof (accepted f s ast P) as A. rewrite (first_fault _ _ _ D) in A. exact A.
Qed.
Print Assumptions C107_error_of_the_first_defect.

(** How it is displayed: the way to the defect, from the outside, and one of two causes; syntax errors are displayed
    alone.  ([dp] and [da] render the errors of the parser and of the tree functions, see C51.) *)
Theorem C107_display : forall dp da f s e, rules_from_peg f s = Err e ->
  (exists er, parse f s parse_peg = Err er /\ display_peg_error dp da e = s_ "Parser(" ++ dp er ++ s_ ")") \/
  (exists ast path root msg, parse f s parse_peg = Ok ast /\ first_defect ast path root /\
    display_peg_error dp da e = flat_map (fun d => d ++ s_ " > ") (told path) ++ s_ "AST(" ++ da (AstError msg None) ++ s_ ")" /\
    (msg = s_ "expected Val node" \/ msg = s_ "expected end rule for and")).
Proof.
  intros dp da f s e H. destruct (faulty f s e H) as [(er & -> & P)|(ast & P & F)]; [left; exists er; split; [exact P|reflexivity]|right].
  destruct (fault_first ast e F) as (path & root & D & ->).
  assert (R : exists msg, root = EAst (AstError msg None) /\ (msg = s_ "expected Val node" \/ msg = s_ "expected end rule for and")).
  { clear - D. induction D; [eexists; split; [reflexivity|left; reflexivity]|eexists; split; [reflexivity|right; reflexivity]|exact IHD]. }
  destruct R as (msg & R & M). exists ast, path, root, msg. split; [exact P|]. split; [exact D|]. split; [|exact M]. subst root.
  clear. induction (told path) as [|d ds IH]; [reflexivity|]. cbn [chain fold_right display_peg_error flat_map]. fold (chain ds (EAst (AstError msg None))).
  rewrite IH, <- !app_assoc. reflexivity.
Qed.
Print Assumptions C107_display.

(** An empty literal inside a module, behind a sequence that goes on after [error]: only the first defect counts. *)
Example C107_nonvacuous : exists e,
  rules_from_peg 400 (s_ "main = 'x' / lex" ++ nl ++ s_ "m { lex = 'a' ( 'b' !'' )" ++ nl ++ s_ "}" ++ nl ++ s_ "k = 'a' error('b') 'c'" ++ nl) = Err e /\
  root_cause e = EAst (AstError (s_ "expected Val node") None) /\
  descriptions e = map s_ ["consuming main"; "consuming grammar"; "consuming module"; "consuming grammar"; "consuming rule"; "consuming expr"; "or:"; "consuming or";
    "consuming and"; "consuming and"; "consuming rep_or_neg"; "consuming atom_or_par"; "n:parenth"; "consuming parenth"; "consuming expr"; "or:"; "consuming or";
    "consuming and"; "consuming and"; "consuming rep_or_neg"; "consuming atom_or_par"; "n:atom"; "consuming atom"; "n:literal"; "consuming literal";
    "consuming lit_noesc"]%string.
Proof. eexists. split; [vm_compute; reflexivity|]. split; vm_compute; reflexivity. Qed.

Example C107_nonvacuous_sequence : exists e,
  rules_from_peg 400 (s_ "k = 'a' error('b') 'c'" ++ nl ++ s_ "m = ''" ++ nl) = Err e /\
  root_cause e = EAst (AstError (s_ "expected end rule for and") None) /\
  descriptions e = map s_ ["consuming main"; "consuming grammar"; "consuming rule"; "consuming expr"; "or:"; "consuming or"; "consuming and"]%string.
Proof. eexists. split; [vm_compute; reflexivity|]. split; vm_compute; reflexivity. Qed.
