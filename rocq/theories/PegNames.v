(** The rules of the PEG grammar, one lemma per rule, and inversion through them. *)
From Verif Require Import Base ModelAst ModelParser ModelPegRules SpecPeg PegTools.

Global Arguments s_ : simpl never.

Definition PG : str -> option expr := rules_get parse_peg.

Lemma g_dot : PG (s_ "dot") = Some (lit (s_ ".")).
Proof. vm_compute. reflexivity. Qed.
Lemma g_module : PG (s_ "module") = Some (And [ref_rule (s_ "_"); ref_rule (s_ "mod_name"); ref_rule (s_ "_"); lit (s_ "{"); ref_rule (s_ "_"); ref_rule (s_ "grammar"); ref_rule (s_ "_"); lit (s_ "}"); ref_rule (s_ "_eol"); ref_rule (s_ "_")]).
Proof. vm_compute. reflexivity. Qed.
Lemma g_mline_comment : PG (s_ "mline_comment") = Some (And [lit (s_ "/*"); rep0 (And [Not (lit (s_ "*/")); dot_]) 0; lit (s_ "*/")]).
Proof. vm_compute. reflexivity. Qed.
Lemma g_one : PG (s_ "_1") = Some (Or [lit (s_ " "); ref_rule (s_ "eol")]).
Proof. vm_compute. reflexivity. Qed.
Lemma g_comment : PG (s_ "comment") = Some (Or [ref_rule (s_ "line_comment"); ref_rule (s_ "mline_comment")]).
Proof. vm_compute. reflexivity. Qed.
Lemma g_or : PG (s_ "or") = Some (And [ref_rule (s_ "and"); rep2 (And [ref_rule (s_ "_"); lit (s_ "/"); ref_rule (s_ "_"); ref_rule (s_ "or")]) 0 1]).
Proof. vm_compute. reflexivity. Qed.
Lemma g_literal : PG (s_ "literal") = Some (Or [ref_rule (s_ "lit_noesc"); ref_rule (s_ "lit_esc")]).
Proof. vm_compute. reflexivity. Qed.
Lemma g_mod_name : PG (s_ "mod_name") = Some (ref_rule (s_ "symbol")).
Proof. vm_compute. reflexivity. Qed.
Lemma g_esc_char : PG (s_ "esc_char") = Some (Or [lit (s_ "\r"); lit (s_ "\n"); lit (s_ "\t"); lit (s_ "\\"); lit (s_ "\""")]).
Proof. vm_compute. reflexivity. Qed.
Lemma g_atom : PG (s_ "atom") = Some (Or [ref_rule (s_ "literal"); ref_rule (s_ "match"); ref_rule (s_ "rule_name"); ref_rule (s_ "dot")]).
Proof. vm_compute. reflexivity. Qed.
Lemma g_hex_char : PG (s_ "hex_char") = Some (And [lit (s_ "\0x"); ematch (s_ "") [(48%N, 57%N); (65%N, 70%N)]; ematch (s_ "") [(48%N, 57%N); (65%N, 70%N)]]).
Proof. vm_compute. reflexivity. Qed.
Lemma g_parenth : PG (s_ "parenth") = Some (And [lit (s_ "("); ref_rule (s_ "_"); ref_rule (s_ "expr"); ref_rule (s_ "_"); Or [lit (s_ ")"); error_ (s_ "unbalanced parethesis: missing ')'")]]).
Proof. vm_compute. reflexivity. Qed.
Lemma g_and : PG (s_ "and") = Some (Or [ref_rule (s_ "error"); And [ref_rule (s_ "rep_or_neg"); rep0 (And [ref_rule (s_ "_1"); ref_rule (s_ "_"); Not (And [ref_rule (s_ "rule_name"); ref_rule (s_ "_"); Or [lit (s_ "="); lit (s_ "{")]]); ref_rule (s_ "and")]) 0]]).
Proof. vm_compute. reflexivity. Qed.
Lemma g_rule : PG (s_ "rule") = Some (And [ref_rule (s_ "_"); ref_rule (s_ "rule_name"); ref_rule (s_ "_"); lit (s_ "="); ref_rule (s_ "_"); ref_rule (s_ "expr"); ref_rule (s_ "_eol"); ref_rule (s_ "_")]).
Proof. vm_compute. reflexivity. Qed.
Lemma g_grammar : PG (s_ "grammar") = Some (rep0 (Or [ref_rule (s_ "rule"); ref_rule (s_ "module")]) 1).
Proof. vm_compute. reflexivity. Qed.
Lemma g_class : PG (s_ "match") = Some (And [lit (s_ "["); Or [And [ref_rule (s_ "mchars"); rep0 (ref_rule (s_ "mbetween")) 0]; rep0 (ref_rule (s_ "mbetween")) 1]; lit (s_ "]")]).
Proof. vm_compute. reflexivity. Qed.
Lemma g_rep_or_neg : PG (s_ "rep_or_neg") = Some (Or [And [ref_rule (s_ "atom_or_par"); rep2 (Or [lit (s_ "*"); lit (s_ "+"); lit (s_ "?")]) 0 1]; And [lit (s_ "!"); ref_rule (s_ "atom_or_par")]]).
Proof. vm_compute. reflexivity. Qed.
Lemma g_eolr : PG (s_ "_eol") = Some (And [rep0 (Or [lit (s_ " "); ref_rule (s_ "comment")]) 0; ref_rule (s_ "eol")]).
Proof. vm_compute. reflexivity. Qed.
Lemma g_line_comment : PG (s_ "line_comment") = Some (And [lit (s_ "//"); rep0 (And [Not (ref_rule (s_ "eol")); dot_]) 0; ref_rule (s_ "eol")]).
Proof. vm_compute. reflexivity. Qed.
Lemma g_lit_noesc : PG (s_ "lit_noesc") = Some (And [ref_rule (s_ "_'"); rep0 (And [Not (ref_rule (s_ "_'")); dot_]) 0; ref_rule (s_ "_'")]).
Proof. vm_compute. reflexivity. Qed.
Lemma g_rule_name : PG (s_ "rule_name") = Some (And [rep2 (lit (s_ ".")) 0 1; ref_rule (s_ "symbol"); rep0 (And [lit (s_ "."); ref_rule (s_ "symbol")]) 0]).
Proof. vm_compute. reflexivity. Qed.
Lemma g_q2 : PG (s_ "_""") = Some (lit (s_ """")).
Proof. vm_compute. reflexivity. Qed.
Lemma g_mchars : PG (s_ "mchars") = Some (rep0 (And [Not (lit (s_ "]")); Not (And [dot_; lit (s_ "-")]); dot_]) 1).
Proof. vm_compute. reflexivity. Qed.
Lemma g_expr : PG (s_ "expr") = Some (ref_rule (s_ "or")).
Proof. vm_compute. reflexivity. Qed.
Lemma g_symbol : PG (s_ "symbol") = Some (And [ematch (s_ "_") [(97%N, 122%N); (65%N, 90%N); (48%N, 57%N)]; rep0 (ematch (s_ "_'""") [(97%N, 122%N); (65%N, 90%N); (48%N, 57%N)]) 0]).
Proof. vm_compute. reflexivity. Qed.
Lemma g_error : PG (s_ "error") = Some (And [lit (s_ "error"); ref_rule (s_ "_"); lit (s_ "("); ref_rule (s_ "_"); ref_rule (s_ "literal"); ref_rule (s_ "_"); lit (s_ ")")]).
Proof. vm_compute. reflexivity. Qed.
Lemma g_q1 : PG (s_ "_'") = Some (lit (s_ "'")).
Proof. vm_compute. reflexivity. Qed.
Lemma g_eol : PG (s_ "eol") = Some (Or [lit ([ch_cr; ch_nl]); lit ([ch_nl]); lit ([ch_cr])]).
Proof. vm_compute. reflexivity. Qed.
Lemma g_lit_esc : PG (s_ "lit_esc") = Some (And [ref_rule (s_ "_"""); rep0 (Or [ref_rule (s_ "esc_char"); ref_rule (s_ "hex_char"); And [Not (ref_rule (s_ "_""")); dot_]]) 0; ref_rule (s_ "_""")]).
Proof. vm_compute. reflexivity. Qed.
Lemma g_mbetween : PG (s_ "mbetween") = Some (And [dot_; lit (s_ "-"); dot_]).
Proof. vm_compute. reflexivity. Qed.
Lemma g_blank : PG (s_ "_") = Some (rep0 (Or [lit (s_ " "); ref_rule (s_ "eol"); ref_rule (s_ "comment")]) 0).
Proof. vm_compute. reflexivity. Qed.
Lemma g_main : PG (s_ "main") = Some (ref_rule (s_ "grammar")).
Proof. vm_compute. reflexivity. Qed.
Lemma g_atom_or_par : PG (s_ "atom_or_par") = Some (Or [ref_rule (s_ "atom"); ref_rule (s_ "parenth")]).
Proof. vm_compute. reflexivity. Qed.

Global Opaque PG.

Lemma inv_nt : forall n e s ts rest, PG n = Some e -> peg PG (RuleName n) s (PMatch ts rest) ->
  exists k, ts = [Rule n k] /\ peg PG e s (PMatch k rest).
Proof.
  intros n e s ts rest E H. apply inv_rule in H. destruct H as (e' & k & E' & -> & H). rewrite E in E'. injection E' as <-. eauto.
Qed.

Global Arguments lit /.
Global Arguments ref_rule /.
Global Arguments rep0 /.
Global Arguments rep2 /.
Global Arguments dot_ /.
Global Arguments error_ /.
Global Arguments ematch /.
