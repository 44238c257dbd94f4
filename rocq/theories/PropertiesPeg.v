(** [rules_from_peg]: C16, C27-C32, C36, C37, C42, C43.  "[answers s r]" reads "[rules_from_peg] on [s] returns
    [r]" (SpecPegApi); "[grammar_text s l]" reads "[s] is a text of the grammar with definitions [l]" (SpecSyntax). *)
From Verif Require Import Base ModelAst ModelParser ModelPegRules ModelPeg SpecPeg SpecPos SpecApi SpecSyntax SpecPegApi.
From Verif Require Import ProofParser ProofApi ProofConsume PegLeaf ProofPegPrint ProofPegMeaning ProofPegEnd ProofPegPath ProofPegApi.

(** A grammar with a module, a choice, repetitions, a class, an escape and a comment. *)
Definition demo_defs : list def :=
  [ Def main (And [RuleName (s_ "num"); Repeat (And [Or [Simple (Literal (s_ "+")); Simple (Literal [ch_tab])]; RuleName (s_ "num")]) 0 None;
                   Not (Simple Dot)]);
    Mod (s_ "lex") [Def (s_ "num") (Repeat (Simple (Match [] [(48%N, 57%N)])) 1 None)] ].

Definition demo_text : str :=
  s_ "main = num (  (""+"" /  '	')" ++ nl ++ s_ " num )*   !." ++ nl ++ s_ "lex /* here */ {" ++ nl ++
  s_ "   num=[0-9]+" ++ nl ++ s_ "}" ++ nl.

Lemma demo_expressible : Forall expressible_def demo_defs.
Proof.
  assert (M : rule_name main).
  { left. constructor. exists 109%N, (s_ "ain"). split; [reflexivity|]. split; [unfold sym_start, between; lia|].
    change (s_ "ain") with [97; 105; 110]%N. repeat (apply Forall_cons; [unfold sym_char, sym_start, between; lia|]). constructor. }
  assert (N : rule_name (s_ "num")).
  { left. constructor. exists 110%N, (s_ "um"). split; [reflexivity|]. split; [unfold sym_start, between; lia|].
    change (s_ "um") with [117; 109]%N. repeat (apply Forall_cons; [unfold sym_char, sym_start, between; lia|]). constructor. }
  assert (L : symbol (s_ "lex")).
  { exists 108%N, (s_ "ex"). split; [reflexivity|]. split; [unfold sym_start, between; lia|].
    change (s_ "ex") with [101; 120]%N. repeat (apply Forall_cons; [unfold sym_char, sym_start, between; lia|]). constructor. }
  assert (B : forall c, (c < 256)%N -> byte_text [c]) by (intros c H; constructor; [exact H|constructor]).
  constructor.
  - split; [exact M|]. cbn. repeat split; try lia; try exact N; try (apply B; reflexivity). left. split; reflexivity.
  - constructor; [|constructor]. cbn. split; [exact L|]. split; [discriminate|]. split; [|exact I]. split; [exact N|].
    split; [|right; left; split; reflexivity]. split; [right; discriminate|]. split; [constructor|]. split; [repeat constructor|].
    intros pre c post E. destruct pre; discriminate.
Qed.

(* ---- C16 --------------------------------------------------------------------------------- *)

(** Every text whatsoever has an answer, which no larger amount of fuel changes. *)
Theorem C16_terminates_on_every_text : forall s, exists r, answers s r /\ forall r', answers s r' -> r' = r.
Proof.
  intro s. destruct (answers_total s) as [r A]. exists r. split; [exact A|]. intros r' A'. exact (answers_fun s r' r A' A).
Qed.
Print Assumptions C16_terminates_on_every_text.

Theorem C16_never_panics_on_ascii_text : forall s f, ascii s -> rules_from_peg f s <> Panic.
Proof.
  intros s f As H. destruct (rules_from_peg_total s) as (f0 & r & N & F & C).
  assert (E : Panic = r) by (eapply (le_answers s f f0); [exact H|apply F; lia|discriminate|exact N]). subst r. contradiction.
Qed.
Print Assumptions C16_never_panics_on_ascii_text.

Theorem C16_ok_or_error : forall s, ascii s -> (exists rs, answers s (Ok rs)) \/ (exists e, answers s (Err e)).
Proof.
  intros s As. destruct (answers_total s) as [r A]. destruct r as [rs|e| |].
  - left. exists rs. exact A.
  - right. exists e. exact A.
  - exfalso. destruct A as [_ [f F]]. apply (C16_never_panics_on_ascii_text s f As). apply F. lia.
  - exfalso. apply (proj1 A). reflexivity.
Qed.
Print Assumptions C16_ok_or_error.

Example C16_nonvacuous : (exists rs, answers demo_text (Ok rs)) /\ (exists e, answers (s_ "main = (") (Err e)).
Proof.
  split.
  - eexists. apply (answers_intro 1000); [vm_compute; reflexivity|discriminate].
  - eexists. apply (answers_intro 200); [vm_compute; reflexivity|discriminate].
Qed.

(* ---- C27 --------------------------------------------------------------------------------- *)

(** Every grammar text is read as the bindings of its definitions ... *)
Theorem C27_grammar_texts_are_read : forall s l, ascii s -> grammar_text s l -> reads_as s (bindings l).
Proof. exact reads_bindings. Qed.
Print Assumptions C27_grammar_texts_are_read.

(** ... and no other text is accepted. *)
Theorem C27_only_grammar_texts_are_read : forall f s rs, rules_from_peg f s = Ok rs ->
  ascii s /\ exists l, grammar_text s l /\ forall k, rules_get rs k = bindings l k.
Proof.
  intros f s rs H. destruct (rules_from_peg_ok s f rs H) as (As & l & G & ->). split; [exact As|]. exists l. split; [exact G|]. apply built_env.
Qed.
Print Assumptions C27_only_grammar_texts_are_read.

Theorem C27_other_texts_are_errors : forall s, ascii s -> (~ exists l, grammar_text s l) -> exists e, answers s (Err e).
Proof.
  intros s As N. destruct (C16_ok_or_error s As) as [(rs & A)|H]; [|exact H]. exfalso. apply N.
  destruct (answers_ok s rs A) as (_ & l & G & _). exists l. exact G.
Qed.
Print Assumptions C27_other_texts_are_errors.

(** A text has one meaning. *)
Theorem C27_texts_are_unambiguous : forall s l l', grammar_text s l -> grammar_text s l' -> forall k, bindings l k = bindings l' k.
Proof.
  intros s l l' G G' k. pose proof (one_meaning s l l' G G') as E.
  rewrite <- (proj2 (built_env l) k), <- (proj2 (built_env l') k), E. reflexivity.
Qed.
Print Assumptions C27_texts_are_unambiguous.

(** Writing any abstract grammar of the supported syntax and reading it back. *)
Theorem C27_print_then_read : forall l, l <> [] -> Forall expressible_def l -> reads_as (print_grammar l) (bindings l).
Proof. intros l N F. destruct (print_grammar_text l N F) as [G As]. exact (reads_bindings _ l As G). Qed.
Print Assumptions C27_print_then_read.

(** In particular any expression, for any rule name. *)
Theorem C27_print_then_read_expression : forall n e, rule_name n -> expressible e ->
  reads_as (n ++ s_ " = " ++ print_at 0 e ++ nl) (only n e).
Proof.
  intros n e N X. destruct (C27_print_then_read [Def n e] ltac:(discriminate)) as (rs & A & U & E).
  { constructor; [split; assumption|constructor]. }
  exists rs. split; [|split; [exact U|intro k; rewrite E; reflexivity]].
  unfold print_grammar in A. cbn [flat_map print_def] in A. rewrite app_nil_r in A. exact A.
Qed.
Print Assumptions C27_print_then_read_expression.

Example C27_nonvacuous : reads_as (print_grammar demo_defs) (bindings demo_defs) /\ reads_as demo_text (bindings demo_defs).
Proof.
  split; [apply C27_print_then_read; [discriminate|exact demo_expressible]|].
  exists (built demo_defs). split; [|apply built_env]. apply (answers_intro 1000); [vm_compute; reflexivity|discriminate].
Qed.

(* ---- C28 --------------------------------------------------------------------------------- *)

(** [grammar_text] lets any blanks stand wherever the syntax has them: two texts of the same definitions, with
    different blanks, give the same rule set (the very same map, not only the same bindings). *)
Theorem C28_layout_does_not_matter : forall s s' l, ascii s -> ascii s' -> grammar_text s l -> grammar_text s' l ->
  exists rs, answers s (Ok rs) /\ answers s' (Ok rs).
Proof. intros s s' l A A' G G'. exists (built l). split; apply reads; assumption. Qed.
Print Assumptions C28_layout_does_not_matter.

(** Blanks around a grammar are ignored. *)
Theorem C28_blanks_around_are_ignored : forall s b b' rs, blank b -> blank b' -> ascii b -> ascii b' ->
  answers s (Ok rs) -> answers (b ++ s ++ b') (Ok rs).
Proof.
  intros s b b' rs B B' Ab Ab' A. destruct (answers_ok s rs A) as (As & l & G & ->).
  apply reads; [|apply grammar_around; assumption]. apply ascii_app. split; [exact Ab|]. apply ascii_app. split; assumption.
Qed.
Print Assumptions C28_blanks_around_are_ignored.

Example C28_nonvacuous : exists rs, answers (print_grammar demo_defs) (Ok rs) /\
  answers (s_ "// intro" ++ nl ++ s_ "  " ++ demo_text ++ s_ " /* end */ ") (Ok rs).
Proof.
  eexists. split; (apply (answers_intro 1500); [vm_compute; reflexivity|discriminate]).
Qed.

(* ---- C29 --------------------------------------------------------------------------------- *)

(** The claim as such is false: the two kinds of accepted texts that yield an error. *)
Theorem C29_accepted_texts_yield_rules_refuted :
  exists s1 s2 ast1 ast2 e1 e2, s1 = s_ "main = ''" ++ nl /\ s2 = s_ "main = 'a' error(""x"") 'b'" ++ nl /\
    (exists f, parse f s1 parse_peg = Ok ast1) /\ answers s1 (Err e1) /\
    (exists f, parse f s2 parse_peg = Ok ast2) /\ answers s2 (Err e2).
Proof.
  eexists _, _, _, _, _, _. split; [reflexivity|]. split; [reflexivity|].
  split; [exists 300; vm_compute; reflexivity|]. split; [apply (answers_intro 300); [vm_compute; reflexivity|discriminate]|].
  split; [exists 300; vm_compute; reflexivity|]. apply (answers_intro 300); [vm_compute; reflexivity|discriminate].
Qed.
Print Assumptions C29_accepted_texts_yield_rules_refuted.

(** These are the only ones: an accepted text gives rules exactly when its tree has neither defect. *)
Theorem C29_accepted_texts_yield_rules_without_defect : forall f s ast, parse f s parse_peg = Ok ast ->
  (defect ast -> exists e, answers s (Err e)) /\ (~ defect ast -> exists rs, answers s (Ok rs)).
Proof. exact rules_from_peg_accepted. Qed.
Print Assumptions C29_accepted_texts_yield_rules_without_defect.

Example C29_nonvacuous : (exists ast, parse 1000 demo_text parse_peg = Ok ast /\ ~ defect ast) /\
  exists ast, parse 300 (s_ "main = ''" ++ nl) parse_peg = Ok ast /\ defect ast.
Proof.
  split.
  - destruct (parse 1000 demo_text parse_peg) as [ast| | |] eqn:P; try (vm_compute in P; discriminate).
    exists ast. split; [reflexivity|]. intro D. destruct (proj1 (rules_from_peg_accepted _ _ _ P) D) as [e E].
    assert (A : exists rs, answers demo_text (Ok rs)) by (eexists; apply (answers_intro 1000); [vm_compute; reflexivity|discriminate]).
    destruct A as [rs A]. pose proof (answers_fun _ _ _ A E) as X. discriminate X.
  - destruct (parse 300 (s_ "main = ''" ++ nl) parse_peg) as [ast| | |] eqn:P; try (vm_compute in P; discriminate).
    exists ast. split; [reflexivity|]. vm_compute in P. injection P as <-.
    repeat (first [apply dfx_empty|eapply dfx_in; [intros [X|[X|[X|[]]]]; discriminate|right; right; right; right; right; left; reflexivity|]
      |eapply dfx_in; [intros [X|[X|[X|[]]]]; discriminate|left; reflexivity|]]).
Qed.

(* ---- C30 --------------------------------------------------------------------------------- *)

Theorem C30_rules_are_plain : forall f s rs k e, rules_from_peg f s = Ok rs -> rules_get rs k = Some e -> rule_name k /\ plain e.
Proof.
  intros f s rs k e H E. destruct (rules_from_peg_ok s f rs H) as (_ & l & G & ->). rewrite (proj2 (built_env l)) in E.
  exact (bindings_plain s l G k e E).
Qed.
Print Assumptions C30_rules_are_plain.

(** So that the side conditions of the theorems about [parse] hold of every rule set read from a text. *)
Theorem C30_rules_are_sane : forall f s rs, rules_from_peg f s = Ok rs -> sane_rules rs /\ no_eof_atom rs /\ NoDup (map fst rs).
Proof.
  intros f s rs H. split; [|split].
  - intros k e E. apply plain_sane. exact (proj2 (C30_rules_are_plain f s rs k e H E)).
  - intros k e E. exact (plain_no_eof e (proj2 (C30_rules_are_plain f s rs k e H E))).
  - destruct (rules_from_peg_ok s f rs H) as (_ & l & G & ->). apply built_env.
Qed.
Print Assumptions C30_rules_are_sane.

Example C30_nonvacuous : exists rs e, rules_from_peg 1000 demo_text = Ok rs /\ rules_get rs main = Some e.
Proof. eexists _, _. split; [vm_compute; reflexivity|vm_compute; reflexivity]. Qed.

(* ---- C31 --------------------------------------------------------------------------------- *)

Theorem C31_double_quoted_literals : forall c, ascii c -> closed c = true ->
  reads_as (s_ "main = """ ++ c ++ s_ """" ++ nl) (only main (Simple (Literal (unescape c)))).
Proof.
  intros c As C. assert (A : ascii ([ch_dquote] ++ c ++ [ch_dquote])).
  { apply ascii_app. split; [repeat constructor|]. apply ascii_app. split; [exact As|repeat constructor]. }
  pose proof (one_literal _ _ A (closed_literal c C)) as R. cbn [app] in R. rewrite <- !app_assoc in R. exact R.
Qed.
Print Assumptions C31_double_quoted_literals.

(** Every text of chars below 256 can be written, and is read back. *)
Theorem C31_double_quoted_literals_express_everything : forall v, byte_text v ->
  reads_as (s_ "main = """ ++ encode v ++ s_ """" ++ nl) (only main (Simple (Literal v))).
Proof.
  intros v B. pose proof (one_literal (dq v) v (dq_ascii v B) (dq_literal v B)) as R. unfold dq in R. rewrite <- !app_assoc in R. exact R.
Qed.
Print Assumptions C31_double_quoted_literals_express_everything.

(** Single-quoted literals double their backslashes ... *)
Theorem C31_single_quoted_literals : forall c, ascii c -> c <> [] -> ~ In ch_quote c ->
  reads_as (s_ "main = '" ++ c ++ s_ "'" ++ nl) (only main (Simple (Literal (flat_map (fun x => if N.eqb x ch_bslash then [x; x] else [x]) c)))).
Proof.
  intros c As N Q. assert (A : ascii ([ch_quote] ++ c ++ [ch_quote])).
  { apply ascii_app. split; [repeat constructor|]. apply ascii_app. split; [exact As|repeat constructor]. }
  pose proof (one_literal _ _ A (lit_single c N Q)) as R. cbn [app] in R. rewrite <- !app_assoc in R.
  assert (E : flat_map (fun x => if N.eqb x ch_bslash then [ch_bslash; ch_bslash] else [x]) c = flat_map (fun x => if N.eqb x ch_bslash then [x; x] else [x]) c).
  { clear. induction c as [|x c IH]; [reflexivity|]. cbn. rewrite IH.
    destruct (N.eqb_spec x ch_bslash) as [->|]; reflexivity. }
  rewrite E in R. exact R.
Qed.
Print Assumptions C31_single_quoted_literals.

(** ... hence are verbatim only without backslash; the full claim is false. *)
Theorem C31_single_quoted_literals_without_backslash : forall c, ascii c -> c <> [] -> ~ In ch_quote c -> ~ In ch_bslash c ->
  reads_as (s_ "main = '" ++ c ++ s_ "'" ++ nl) (only main (Simple (Literal c))).
Proof.
  intros c As N Q B. pose proof (C31_single_quoted_literals c As N Q) as R.
  assert (E : flat_map (fun x => if N.eqb x ch_bslash then [x; x] else [x]) c = c).
  { clear - B. induction c as [|x c IH]; [reflexivity|]. cbn. rewrite IH by (intro X; apply B; right; exact X).
    destruct (N.eqb_spec x ch_bslash) as [->|]; [exfalso; apply B; left; reflexivity|reflexivity]. }
  rewrite E in R. exact R.
Qed.
Print Assumptions C31_single_quoted_literals_without_backslash.

Theorem C31_single_quoted_literals_verbatim_refuted : exists c, ascii c /\ c <> [] /\ ~ In ch_quote c /\
  ~ reads_as (s_ "main = '" ++ c ++ s_ "'" ++ nl) (only main (Simple (Literal c))).
Proof.
  exists (s_ "\n"). split; [repeat constructor|]. split; [discriminate|].
  assert (NQ : ~ In ch_quote (s_ "\n")) by (intros [X|[X|[]]]; discriminate). split; [exact NQ|].
  intros (rs & A & _ & E). destruct (C31_single_quoted_literals (s_ "\n") ltac:(repeat constructor) ltac:(discriminate) NQ) as (rs' & A' & _ & E').
  pose proof (answers_fun _ _ _ A A') as X. injection X as <-. specialize (E main). specialize (E' main). rewrite E in E'. vm_compute in E'. discriminate.
Qed.
Print Assumptions C31_single_quoted_literals_verbatim_refuted.

Example C31_nonvacuous : closed (s_ "a\n\""\0x41\q") = true /\ unescape (s_ "a\n\""\0x41\q") = s_ "a" ++ [ch_nl; ch_dquote; 65%N] ++ s_ "\q".
Proof. split; vm_compute; reflexivity. Qed.

(* ---- C32 --------------------------------------------------------------------------------- *)

(** Each name is bound to the definition that wins; module names play no role. *)
Theorem C32_the_winning_definition : forall f s rs, rules_from_peg f s = Ok rs ->
  exists l, grammar_text s l /\ forall k e, rules_get rs k = Some e <-> winner k l e.
Proof.
  intros f s rs H. destruct (rules_from_peg_ok s f rs H) as (_ & l & G & ->). exists l. split; [exact G|].
  intros k e. rewrite (proj2 (built_env l)). exact (bindings_winner _ l k e (Nat.le_refl _)).
Qed.
Print Assumptions C32_the_winning_definition.

(** Wrapping a grammar in a module changes nothing. *)
Theorem C32_modules_are_transparent : forall s rs m, symbol m -> answers s (Ok rs) ->
  reads_as (m ++ s_ " {" ++ s ++ s_ "}" ++ nl) (rules_get rs).
Proof.
  intros s rs m M A. destruct (answers_ok s rs A) as (As & l & G & ->).
  assert (AS : ascii (m ++ s_ " {" ++ s ++ s_ "}" ++ nl)).
  { apply ascii_app. split; [exact (name_ascii m (symbol_name m M))|]. apply ascii_app. split; [repeat constructor|].
    apply ascii_app. split; [exact As|repeat constructor]. }
  destruct (reads_bindings _ _ AS (grammar_wrap m s l M G)) as (rs & A' & U & E). exists rs. split; [exact A'|]. split; [exact U|].
  intro k. rewrite E, (proj2 (built_env l)). reflexivity.
Qed.
Print Assumptions C32_modules_are_transparent.

(** Names that are defined somewhere are bound, and no others. *)
Theorem C32_bound_iff_defined : forall f s rs, rules_from_peg f s = Ok rs ->
  exists l, grammar_text s l /\ forall k, rules_get rs k = None <-> ~ defined k l.
Proof.
  intros f s rs H. destruct (rules_from_peg_ok s f rs H) as (_ & l & G & ->). exists l. split; [exact G|].
  intro k. rewrite (proj2 (built_env l)). exact (defined_iff _ l k (Nat.le_refl _)).
Qed.
Print Assumptions C32_bound_iff_defined.

Example C32_nonvacuous :
  reads_as (s_ "a = '1'" ++ nl ++ s_ "m { a = '2'" ++ nl ++ s_ "b = '3'" ++ nl ++ s_ "n { b = '4'" ++ nl ++ s_ "c = '5'" ++ nl ++ s_ "} " ++ nl ++ s_ "}"
            ++ nl ++ s_ "c = '6'" ++ nl ++ s_ "c = '7'" ++ nl)
    (fun k => if str_eqb (s_ "a") k then Some (lit (s_ "1")) else if str_eqb (s_ "b") k then Some (lit (s_ "3"))
              else if str_eqb (s_ "c") k then Some (lit (s_ "7")) else None).
Proof.
  eexists. split; [apply (answers_intro 1000); [vm_compute; reflexivity|discriminate]|]. split.
  - repeat constructor; cbn; intros H; repeat (destruct H as [H|H]; [discriminate|]); exact H.
  - intro k. cbn [rules_get]. destruct (str_eqb (s_ "a") k) eqn:A; [apply str_eqb_eq in A; subst k; reflexivity|].
    destruct (str_eqb (s_ "b") k) eqn:B; [apply str_eqb_eq in B; subst k; reflexivity|].
    destruct (str_eqb (s_ "c") k) eqn:C; [apply str_eqb_eq in C; subst k; reflexivity|].
    change (str_eqb [97%N] k = false) in A. change (str_eqb [98%N] k = false) in B. change (str_eqb [99%N] k = false) in C.
    rewrite ?A, ?B, ?C. reflexivity.
Qed.

(* ---- C36 --------------------------------------------------------------------------------- *)

(** Descriptions are displayed outermost first, separated by [ > ]. *)
Theorem C36_display : forall dp da e,
  display_peg_error dp da e = flat_map (fun d => d ++ s_ " > ") (descriptions e) ++ display_peg_error dp da (root_cause e) /\
  match root_cause e with EPeg _ (Some _) => False | _ => True end.
Proof.
  intros dp da e. split; [exact (display_path dp da e)|]. revert e. fix IH 1. intros [s [b|]|p|a]; cbn; try exact I. exact (IH b).
Qed.
Print Assumptions C36_display.

(** Whatever the tokens, an error names the constructs that are open where the consumer stopped, outermost first
    and starting with [main], and possibly the one it expected to start there.  (The only other error is the
    one for tokens left over after [main].) *)
Theorem C36_errors_name_the_open_constructs : forall f tokens e, rules_from_flat_ast f tokens = Err e ->
  e = EPeg (s_ "expected empty nodes after processing main") None \/
  (hd_error (descriptions e) = Some (s_ "consuming main") /\
   exists before after, tokens = before ++ after /\
     (constructs e = open before \/
      exists r, constructs e = open before ++ [r] /\ hd_error after <> Some (FBegin r))).
Proof. exact flat_ast_path. Qed.
Print Assumptions C36_errors_name_the_open_constructs.

(** For grammar texts: the errors that are not syntax errors. *)
Theorem C36_errors_of_texts : forall f s e, rules_from_peg f s = Err e -> (forall p, e <> EParser p) ->
  exists ast before after, parse f s parse_peg = Ok ast /\ hd_error (descriptions e) = Some (s_ "consuming main") /\
    flatten (prune peg_blanks (compact ast)) = before ++ after /\
    (constructs e = open before \/ exists r, constructs e = open before ++ [r] /\ hd_error after <> Some (FBegin r)).
Proof.
  intros f s e H N. destruct (rules_from_peg_err f s e H) as [(er & E & _)|(ast & e' & P & _ & E & X)]; [exfalso; exact (N er E)|].
  destruct (flat_ast_path _ _ _ X) as [Y|(Y & before & after & Z & W)]; [rewrite E in Y; discriminate|].
  exists ast, before, after. auto.
Qed.
Print Assumptions C36_errors_of_texts.

Example C36_nonvacuous : exists e, rules_from_peg 300 (s_ "main = 'x' ('a' / '')" ++ nl) = Err e /\
  constructs e = map s_ ["main"; "grammar"; "rule"; "expr"; "or"; "and"; "and"; "rep_or_neg"; "atom_or_par"; "parenth"; "expr"; "or"; "or"; "and"; "rep_or_neg";
    "atom_or_par"; "atom"; "literal"; "lit_noesc"]%string.
Proof. eexists. split; vm_compute; reflexivity. Qed.

(* ---- C37 --------------------------------------------------------------------------------- *)

Theorem C37_text_without_line_break : forall f s rs, ~ In ch_nl s -> ~ In ch_cr s -> rules_from_peg f s <> Ok rs.
Proof.
  intros f s rs N1 N2 H. destruct (rules_from_peg_ok s f rs H) as (_ & l & (b & r & _ & D & ->) & _).
  destruct (proj1 (proj2 def_text_marks r l D)); [apply N2|apply N1]; apply in_or_app; right; assumption.
Qed.
Print Assumptions C37_text_without_line_break.

Theorem C37_text_without_equals : forall f s rs, ~ In 61%N s -> rules_from_peg f s <> Ok rs.
Proof.
  intros f s rs N H. destruct (rules_from_peg_ok s f rs H) as (_ & l & (b & r & _ & D & ->) & _).
  apply N. apply in_or_app. right. exact (proj2 (proj2 def_text_marks r l D)).
Qed.
Print Assumptions C37_text_without_equals.

(** The last definition of an accepted text ends with a char that is not a blank, and is followed by the end of a rule (spaces, comments
    and a line break of its own), and then only by blanks. *)
Theorem C37_how_accepted_texts_end : forall f s rs, rules_from_peg f s = Ok rs ->
  exists q c r b, s = q ++ [c] ++ r ++ b /\ c <> ch_space /\ c <> ch_nl /\ c <> ch_cr /\ c <> 47%N /\ rule_end r /\ blank b.
Proof.
  intros f s rs H. destruct (rules_from_peg_ok s f rs H) as (_ & l & T & _). destruct (grammar_ended s l T) as (q & c & r & b & E & (C1 & C2 & C3 & C4) & R & B).
  exists q, c, r, b. auto 10.
Qed.
Print Assumptions C37_how_accepted_texts_end.

(** So a text whose last char, up to spaces, is neither a line break nor the end of a comment is not accepted, whatever stands before. *)
Theorem C37_last_line_without_a_break : forall f p c n rs, c <> ch_space -> c <> ch_nl -> c <> ch_cr -> c <> 47%N ->
  rules_from_peg f (p ++ c :: repeat ch_space n) <> Ok rs.
Proof.
  intros f p c n rs C1 C2 C3 C4 H. destruct (rules_from_peg_ok _ f rs H) as (_ & l & T & _).
  exact (ended_not_solid _ (grammar_ended _ l T) p c n eq_refl (conj C1 (conj C2 (conj C3 C4)))).
Qed.
Print Assumptions C37_last_line_without_a_break.

Example C37_nonvacuous : (exists e, answers (s_ "main = 'a'") (Err e)) /\ (exists e, answers [] (Err e)) /\
  (exists rs, answers (s_ "main = 'a'" ++ nl) (Ok rs)) /\
  (exists e, answers (s_ "main = 'a'" ++ nl ++ s_ "b = 'c'  ") (Err e)) /\ (exists e, answers (s_ "main = 'a'  // c" ++ nl) (Err e)) /\
  exists rs, answers (s_ "main = 'a' // c" ++ nl ++ nl ++ s_ " /* d */ ") (Ok rs).
Proof.
  repeat split; eexists; (apply (answers_intro 300); [vm_compute; reflexivity|discriminate]).
Qed.

(* ---- C42 --------------------------------------------------------------------------------- *)

(** Every error is a syntax error at a position of the text, or comes from a text that was accepted. *)
Theorem C42_errors_are_located : forall f s e, rules_from_peg f s = Err e ->
  (exists er pre post, e = EParser er /\ s = pre ++ post /\ e_pos er = pos_of pre /\ e_line_after er = until_eol post /\
     (ascii s -> e_line_before er = tail_after is_nl pre)) \/
  (exists ast, parse f s parse_peg = Ok ast /\ defect ast /\ hd_error (descriptions e) = Some (s_ "consuming main")).
Proof.
  intros f s e H. destruct (rules_from_peg_err f s e H) as [(er & E & P)|(ast & e' & P & D & E & _)].
  - left. destruct (parse_err_pos f s parse_peg false er P) as (pre & post & X). exists er, pre, post. tauto.
  - right. exists ast. split; [exact P|]. split; [exact D|]. rewrite E. reflexivity.
Qed.
Print Assumptions C42_errors_are_located.

(** A syntax error is exactly what [parse] with the built-in rules reports. *)
Theorem C42_syntax_errors_are_those_of_parse : forall f s er,
  rules_from_peg f s = Err (EParser er) <-> parse f s parse_peg = Err er.
Proof.
  intros f s er. split; intro H.
  - destruct (rules_from_peg_err f s _ H) as [(er' & E & P)|(ast & e' & P & D & E & _)]; [injection E as <-; exact P|discriminate].
  - unfold rules_from_peg. rewrite H. reflexivity.
Qed.
Print Assumptions C42_syntax_errors_are_those_of_parse.

Example C42_nonvacuous : exists er, rules_from_peg 300 (s_ "main = 'a'" ++ nl ++ s_ "b = * 'c'" ++ nl) = Err (EParser er) /\ pn (e_pos er) = 16 /\
  prow (e_pos er) = 1 /\ pcol (e_pos er) = 5.
Proof. eexists. split; [vm_compute; reflexivity|]. repeat split. Qed.

(* ---- C43 --------------------------------------------------------------------------------- *)

(** The only abort while reading a grammar is the one for a missing closing parenthesis. *)
Theorem C43_aborts_are_unbalanced_parentheses : forall f s er, rules_from_peg f s = Err (EParser er) ->
  e_priority er = Critical -> e_descr er = s_ "unbalanced parethesis: missing ')'".
Proof. intros f s er H C. apply (C42_syntax_errors_are_those_of_parse f s er) in H. exact (critical_msg f s er H C). Qed.
Print Assumptions C43_aborts_are_unbalanced_parentheses.

Example C43_nonvacuous : exists er, rules_from_peg 300 (s_ "main = ('a'" ++ nl) = Err (EParser er) /\ e_priority er = Critical.
Proof. eexists. split; vm_compute; reflexivity. Qed.
