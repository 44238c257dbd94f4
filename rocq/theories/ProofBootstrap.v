(** The crate's own description of its PEG syntax, read, printed as code and read back (C34); rules of texts (C33). *)
From Verif Require Import Base ModelAst ModelParser ModelPegRules ModelPeg ModelGcode ModelPeg2code SpecPos SpecSyntax SpecApi SpecAst SpecPegApi SpecRust.
From Verif Require Import ProofParser ProofEngine ProofAst ProofGcode ProofPegMeaning ProofPegApi.
From Coq Require Import Permutation.

(* ---- rules that come from a text ---------------------------------------------------------- *)

Lemma sym_raw : forall c, sym_char c -> c <> ch_cr /\ c <> 35%N.
Proof. intros c H. unfold sym_char, sym_start, between, ch_quote, ch_dquote, ch_cr in *. lia. Qed.

Lemma dotted_raw : forall t, dotted t -> Forall (fun c => c <> ch_cr /\ c <> 35%N) t.
Proof.
  assert (S : forall t, symbol t -> Forall (fun c => c <> ch_cr /\ c <> 35%N) t).
  { intros t (c & r & -> & C & R). constructor; [apply sym_raw; left; exact C|]. rewrite Forall_forall in *. intros x I. exact (sym_raw x (R x I)). }
  intros t H. induction H as [t H|t r H D IH]; [exact (S t H)|].
  apply Forall_app. split; [exact (S _ H)|]. apply Forall_app. split; [|exact IH].
  change (s_ ".") with [46%N]. constructor; [split; discriminate|constructor].
Qed.

Lemma rule_name_raw : forall n, rule_name n -> raw_ok n.
Proof.
  intros n H. assert (F : Forall (fun c => c <> ch_cr /\ c <> 35%N) n).
  { destruct H as [H|(r & -> & H)]; [exact (dotted_raw n H)|]. apply Forall_app. split; [|exact (dotted_raw r H)].
    change (s_ ".") with [46%N]. constructor; [split; discriminate|constructor]. }
  rewrite Forall_forall in F. split.
  - intro I. exact (proj1 (F _ I) eq_refl).
  - intros pre post ->. apply (proj2 (F 35%N ltac:(apply in_or_app; right; right; left; reflexivity))). reflexivity.
Qed.

Lemma plain_codable : forall e, plain e -> (forall a, has_atom a e -> codable (Simple a)) -> codable e.
Proof.
  induction e as [a|es IH|es IH|e IH|e mn mx IH|n] using expr_ind'; intros P A; cbn [plain] in P.
  - apply A. constructor.
  - cbn [codable]. apply codable_list. destruct P as [_ P]. apply plain_list in P. rewrite Forall_forall in *. intros x I. apply (IH x I (P x I)).
    intros a H. apply A. econstructor; eassumption.
  - cbn [codable]. apply codable_list. destruct P as [_ P]. apply plain_list in P. rewrite Forall_forall in *. intros x I. apply (IH x I (P x I)).
    intros a H. apply A. econstructor; eassumption.
  - cbn [codable]. apply (IH P). intros a H. apply A. constructor. exact H.
  - cbn [codable]. apply (IH (proj1 P)). intros a H. apply A. constructor. exact H.
  - cbn [codable]. exact (rule_name_raw n P).
Qed.

Lemma text_rules_codable : forall f s rs, rules_from_peg f s = Ok rs ->
  (forall n e a, rules_get rs n = Some e -> has_atom a e -> codable (Simple a)) -> Forall (fun p => raw_ok (fst p) /\ codable (snd p)) rs.
Proof.
  intros f s rs H A. destruct (rules_from_peg_ok s f rs H) as (_ & l & G & ->). apply Forall_forall. intros [n e] I. cbn [fst snd].
  destruct (built_env l) as [U B]. pose proof (in_get _ n e U I) as E. pose proof E as E'. rewrite B in E. destruct (bindings_plain s l G n e E) as [N P].
  split; [exact (rule_name_raw n N)|]. apply (plain_codable e P). intros a HA. exact (A n e a E' HA).
Qed.

(* ---- the bootstrap ----------------------------------------------------------------------- *)

Definition own_fuel : nat := 50 * 60.

(** What [rules_from_peg] makes of [text_peg2code]: the built-in rules, with every backslash of a literal doubled. *)
Definition own_names : list str :=
  [s_ "mline_comment"; s_ "line_comment"; s_ "comment"; s_ "_"; s_ "dot"; s_ "mbetween"; s_ "mchars"; s_ "match"; s_ "_eol"; s_ "eol"; s_ "hex_char";
   s_ "esc_char"; s_ "_"""; s_ "lit_esc"; s_ "_'"; s_ "lit_noesc"; s_ "literal"; s_ "atom"; s_ "parenth"; s_ "atom_or_par"; s_ "rep_or_neg"; s_ "_1";
   s_ "and"; s_ "error"; s_ "or"; s_ "expr"; s_ "rule_name"; s_ "rule"; s_ "symbol"; s_ "mod_name"; s_ "module"; s_ "grammar"; s_ "main"].

Definition own_esc_char : expr := Or [lit (s_ "\\r"); lit (s_ "\\n"); lit (s_ "\\t"); lit (s_ "\\\\"); lit (s_ "\\""")].
Definition own_hex_char : expr :=
  And [lit (s_ "\\0x"); ematch (s_ "") [(48%N, 57%N); (65%N, 70%N)]; ematch (s_ "") [(48%N, 57%N); (65%N, 70%N)]].

Definition own_expr (n : str) : expr :=
  if str_eqb n (s_ "esc_char") then own_esc_char else if str_eqb n (s_ "hex_char") then own_hex_char
  else match rules_get parse_peg n with Some e => e | None => RuleName n end.

Definition own_rules : rules := map (fun n => (n, own_expr n)) own_names.

Lemma own_rules_read : rules_from_peg own_fuel text_peg2code = Ok own_rules.
Proof. vm_compute. reflexivity. Qed.

Lemma own_rules_code : Forall (fun p => exists e, denote_entry p = Some (fst p, e) /\ rules_get parse_peg (fst p) = Some e) own_rules.
Proof. repeat (apply Forall_cons; [eexists; split; vm_compute; reflexivity|]). constructor. Qed.

Lemma own_rules_all : forall n e, rules_get parse_peg n = Some e -> In n (map fst own_rules).
Proof.
  intros n e H. apply get_in in H. apply (in_map fst) in H. cbn [fst] in H.
  assert (B : forallb (fun k => existsb (str_eqb k) (map fst own_rules)) (map fst parse_peg) = true) by (vm_compute; reflexivity).
  rewrite forallb_forall in B. specialize (B _ H). apply existsb_exists in B. destruct B as (k & I & E). apply str_eqb_eq in E. subst k. exact I.
Qed.

Lemma own_rules_unique : unique_names own_rules.
Proof. destruct (rules_from_peg_ok _ _ _ own_rules_read) as (_ & l & _ & E). rewrite E. apply built_env. Qed.

Lemma bootstrap : forall entries, Permutation entries own_rules ->
  exists l, rust_rules (rust_from_rules entries) l /\ forall n, rules_get (rules_macro l) n = rules_get parse_peg n.
Proof. intros entries P. exact (reads_as_other own_rules parse_peg entries own_rules_unique own_rules_code own_rules_all P). Qed.

Lemma own_rules_differ : forall rs, answers text_peg2code (Ok rs) ->
  forall n, rules_get rs n = rules_get parse_peg n <-> n <> s_ "esc_char" /\ n <> s_ "hex_char".
Proof.
  intros rs A. assert (E : Ok rs = Ok own_rules) by exact (answers_fun _ _ _ A (answers_intro _ _ _ own_rules_read ltac:(discriminate))).
  injection E as ->. intro n. split.
  - intro H. split; intros ->; vm_compute in H; discriminate.
  - intros [N1 N2].
    assert (G : forall l, rules_get (map (fun k => (k, own_expr k)) l) n = if existsb (str_eqb n) l then Some (own_expr n) else None).
    { induction l as [|k l IH]; [reflexivity|]. cbn [map rules_get existsb]. destruct (str_eqb n k) eqn:E; [apply str_eqb_eq in E; rewrite E, (proj2 (str_eqb_eq k k) eq_refl); reflexivity|]. cbn [orb]. rewrite <- IH. destruct (str_eqb k n) eqn:E'; [apply str_eqb_eq in E'; subst; rewrite (proj2 (str_eqb_eq n n) eq_refl) in E; discriminate|reflexivity]. }
    unfold own_rules at 1. rewrite G. destruct (existsb (str_eqb n) own_names) eqn:X.
    + unfold own_expr. destruct (str_eqb n (s_ "esc_char")) eqn:E1; [apply str_eqb_eq in E1; contradiction|].
      destruct (str_eqb n (s_ "hex_char")) eqn:E2; [apply str_eqb_eq in E2; contradiction|].
      destruct (rules_get parse_peg n) eqn:P; [reflexivity|]. exfalso. apply existsb_exists in X. destruct X as (k & I & E). apply str_eqb_eq in E. subst k.
      assert (B : forallb (fun k => match rules_get parse_peg k with Some _ => true | None => false end) own_names = true) by (vm_compute; reflexivity).
      rewrite forallb_forall in B. specialize (B n I). rewrite P in B. discriminate.
    + destruct (rules_get parse_peg n) eqn:P; [|reflexivity]. exfalso. apply own_rules_all in P. unfold own_rules in P. rewrite map_map in P. cbn [fst] in P. rewrite map_id in P.
      assert (Y : existsb (str_eqb n) own_names = true) by (apply existsb_exists; exists n; split; [exact P|apply str_eqb_eq; reflexivity]). congruence.
Qed.
