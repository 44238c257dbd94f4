(** The token consumer: what it makes of the trees the PEG grammar produces. *)
From Verif Require Import Base ModelAst ModelParser ModelPegRules ModelPeg SpecAst SpecSyntax ProofParser ProofAst.

Global Arguments s_ : simpl never.

(* ------------------------------------------------------------------------------------------- *)
(** * Tokens of a list of sibling nodes, after [compact] and [prune] *)

Definition kt (l : list node) : list fnode := flat_of (prune_list peg_blanks (compact_loop [] l)).

Definition v1 (c : char) : node := Val [c].

Lemma kt_nil : kt [] = [].
Proof. reflexivity. Qed.

Lemma compact_loop_rule : forall n k l, compact_loop [] (Rule n k :: l) = Rule n (compact_loop [] k) :: compact_loop [] l.
Proof.
  intros n k l. cbn [compact_loop concat_nodes last_val app]. rewrite compact_loop_step by discriminate.
  rewrite compact_rule. reflexivity.
Qed.

Lemma prune_list_cons : forall names x l, prune_list names (x :: l) =
  (if node2prune names x then [] else [prune names x]) ++ prune_list names l.
Proof. intros names x l. unfold prune_list. cbn [flat_map]. destruct (node2prune names x); reflexivity. Qed.

Lemma kt_blank : forall n k l, name_in peg_blanks n = true -> kt (Rule n k :: l) = kt l.
Proof.
  intros n k l H. unfold kt. rewrite compact_loop_rule, prune_list_cons. cbn [node2prune]. rewrite H. reflexivity.
Qed.

Lemma kt_rule : forall n k l, name_in peg_blanks n = false -> kt (Rule n k :: l) = FBegin n :: kt k ++ FEnd n :: kt l.
Proof.
  intros n k l H. unfold kt. rewrite compact_loop_rule, prune_list_cons. cbn [node2prune]. rewrite H. cbn [app].
  rewrite prune_unfold, flat_of_rule. reflexivity.
Qed.

Definition no_val (l : list node) : Prop := ~ starts_with_val l.

Lemma kt_run : forall vs v l, no_val l -> kt (Val v :: map Val vs ++ l) = FVal (v ++ concat vs) :: kt l.
Proof.
  intros vs v l H. unfold kt. cbn [compact_loop concat_nodes last_val app]. rewrite compact_loop_run, compact_loop_stop by exact H.
  rewrite prune_list_cons. cbn [node2prune app prune]. rewrite flat_of_cons. reflexivity.
Qed.

Lemma kt_val : forall v l, no_val l -> kt (Val v :: l) = FVal v :: kt l.
Proof. intros v l H. pose proof (kt_run [] v l H) as E. cbn in E. rewrite app_nil_r in E. exact E. Qed.

Lemma map_v1 : forall cs, map v1 cs = map Val (map (fun c => [c]) cs).
Proof. intro cs. rewrite map_map. reflexivity. Qed.

Lemma concat_single : forall cs : str, concat (map (fun c => [c]) cs) = cs.
Proof. induction cs as [|c cs IH]; cbn; congruence. Qed.

Lemma kt_v1s : forall cs l, cs <> [] -> no_val l -> kt (map v1 cs ++ l) = FVal cs :: kt l.
Proof.
  intros [|c cs] l N H; [congruence|]. cbn [map app]. rewrite map_v1. unfold v1 at 1.
  rewrite (kt_run (map (fun c => [c]) cs) [c] l H), concat_single. reflexivity.
Qed.

Lemma no_val_nil : no_val [].
Proof. intros [v [r E]]. discriminate. Qed.

Lemma no_val_rule : forall n k l, no_val (Rule n k :: l).
Proof. intros n k l [v [r E]]. discriminate. Qed.

Global Hint Resolve no_val_nil no_val_rule : nv.

(** Following a rule node, the siblings are treated separately. *)
Lemma compact_loop_app_rule : forall l n k r,
  compact_loop [] (l ++ Rule n k :: r) = compact_loop [] l ++ compact_loop [] (Rule n k :: r).
Proof.
  assert (G : forall l acc n k r, compact_loop acc (l ++ Rule n k :: r) = compact_loop acc l ++ compact_loop [] (Rule n k :: r)).
  { induction l as [|x l IH]; intros acc n k r.
    - cbn [app compact_loop concat_nodes last_val]. rewrite compact_loop_snoc. reflexivity.
    - cbn [app compact_loop]. apply IH. }
  intros. apply G.
Qed.

Lemma kt_app_rule : forall l n k r, kt (l ++ Rule n k :: r) = kt l ++ kt (Rule n k :: r).
Proof.
  intros. unfold kt. rewrite compact_loop_app_rule. unfold prune_list, flat_of. rewrite !flat_map_app. reflexivity.
Qed.

(* ------------------------------------------------------------------------------------------- *)
(** * Trees and their meaning; [None] marks a defect *)

Inductive t_sym : node -> str -> Prop :=
| ts n : n <> [] -> t_sym (Rule (s_ "symbol") (map v1 n)) n.

Inductive t_dots : list node -> str -> Prop :=
| td_nil : t_dots [] []
| td_cons x n l m : t_sym x n -> t_dots l m -> t_dots (Val (s_ ".") :: x :: l) (s_ "." ++ n ++ m).

Inductive t_name : node -> str -> Prop :=
| tn_plain x n l m : t_sym x n -> t_dots l m -> t_name (Rule (s_ "rule_name") (x :: l)) (n ++ m)
| tn_dot x n l m : t_sym x n -> t_dots l m -> t_name (Rule (s_ "rule_name") (Val (s_ ".") :: x :: l)) (s_ "." ++ n ++ m).

Inductive t_elem : node -> str -> Prop :=
| tl_val c : t_elem (v1 c) [c]
| tl_esc x y : escape x y -> t_elem (Rule (s_ "esc_char") [Val [ch_bslash; x]]) [y]
| tl_hex a b d1 d2 : upper_hex a d1 -> upper_hex b d2 ->
    t_elem (Rule (s_ "hex_char") [Val (s_ "\0x"); v1 a; v1 b]) [(d1 * 16 + d2)%N].

Inductive t_elems : list node -> str -> Prop :=
| te_nil : t_elems [] []
| te_cons x v l w : t_elem x v -> t_elems l w -> t_elems (x :: l) (v ++ w).

Definition q1_node : node := Rule (s_ "_'") [Val (s_ "'")].
Definition q2_node : node := Rule (s_ "_""") [Val (s_ """")].

Inductive t_lit : node -> option str -> Prop :=
| tt_single body : t_lit (Rule (s_ "literal") [Rule (s_ "lit_noesc") (q1_node :: map v1 body ++ [q1_node])])
    (match body with [] => None | _ => Some (replace_char ch_bslash [ch_bslash; ch_bslash] body) end)
| tt_double l v : t_elems l v ->
    t_lit (Rule (s_ "literal") [Rule (s_ "lit_esc") (q2_node :: l ++ [q2_node])]) (Some v).

Definition range_node (p : char * char) : node := Rule (s_ "mbetween") [v1 (fst p); Val (s_ "-"); v1 (snd p)].

Inductive t_class : node -> str -> list (char * char) -> Prop :=
| tc_both cs rg : cs <> [] ->
    t_class (Rule (s_ "match") (Val (s_ "[") :: Rule (s_ "mchars") (map v1 cs) :: map range_node rg ++ [Val (s_ "]")])) cs rg
| tc_ranges rg : rg <> [] -> t_class (Rule (s_ "match") (Val (s_ "[") :: map range_node rg ++ [Val (s_ "]")])) [] rg.

Inductive t_atom : node -> option expr -> Prop :=
| ta_lit x o : t_lit x o -> t_atom (Rule (s_ "atom") [x]) (option_map (fun v => Simple (Literal v)) o)
| ta_class x cs rg : t_class x cs rg -> t_atom (Rule (s_ "atom") [x]) (Some (Simple (Match cs rg)))
| ta_name x n : t_name x n -> t_atom (Rule (s_ "atom") [x]) (Some (RuleName n))
| ta_dot : t_atom (Rule (s_ "atom") [Rule (s_ "dot") [Val (s_ ".")]]) (Some (Simple Dot)).

Definition b_node (k : list node) : node := Rule (s_ "_") k.
Definition b1_node (k : list node) : node := Rule (s_ "_1") k.
Definition be_node (k : list node) : node := Rule (s_ "_eol") k.

Inductive t_error : node -> option str -> Prop :=
| terr k1 k2 k3 x o : t_lit x o ->
    t_error (Rule (s_ "error") [Val (s_ "error"); b_node k1; Val (s_ "("); b_node k2; x; b_node k3; Val (s_ ")")]) o.

Inductive t_unit : node -> option expr -> Prop :=
| tu_atom x o : t_atom x o -> t_unit (Rule (s_ "atom_or_par") [x]) o
| tu_par k1 k2 x o : t_expr x o ->
    t_unit (Rule (s_ "atom_or_par") [Rule (s_ "parenth") [Val (s_ "("); b_node k1; x; b_node k2; Val (s_ ")")]]) o
with t_item : node -> option expr -> Prop :=
| ti_one x o : t_unit x o -> t_item (Rule (s_ "rep_or_neg") [x]) o
| ti_star x o : t_unit x o -> t_item (Rule (s_ "rep_or_neg") [x; Val (s_ "*")]) (option_map (fun e => Repeat e 0 None) o)
| ti_plus x o : t_unit x o -> t_item (Rule (s_ "rep_or_neg") [x; Val (s_ "+")]) (option_map (fun e => Repeat e 1 None) o)
| ti_opt x o : t_unit x o -> t_item (Rule (s_ "rep_or_neg") [x; Val (s_ "?")]) (option_map (fun e => Repeat e 0 (Some 1)) o)
| ti_not x o : t_unit x o -> t_item (Rule (s_ "rep_or_neg") [Val (s_ "!"); x]) (option_map Not o)
with t_seq : node -> option (list expr) -> Prop :=
| tq_error x o : t_error x o -> t_seq (Rule (s_ "and") [x]) (option_map (fun v => [Simple (AError v)]) o)
| tq_one x o : t_item x o -> t_seq (Rule (s_ "and") [x]) (option_map (fun e => [e]) o)
| tq_bad x l : t_item x None -> t_seq (Rule (s_ "and") (x :: l)) None
| tq_more x e k1 k2 y o : t_item x (Some e) -> t_seq y o ->
    t_seq (Rule (s_ "and") [x; b1_node k1; b_node k2; y]) (option_map (cons e) o)
| tq_extra x e k1 k2 y o k3 k4 k5 l : t_item x (Some e) -> t_seq y o ->
    t_seq (Rule (s_ "and") (x :: b1_node k1 :: b_node k2 :: y :: b1_node k3 :: b_node k4 :: Rule (s_ "and") k5 :: l)) None
with t_choice : node -> option (list expr) -> Prop :=
| tch_one x o : t_seq x o -> t_choice (Rule (s_ "or") [x]) (option_map (fun es => [seq_of es]) o)
| tch_bad x l : t_seq x None -> t_choice (Rule (s_ "or") (x :: l)) None
| tch_more x es k1 k2 y o : t_seq x (Some es) -> t_choice y o ->
    t_choice (Rule (s_ "or") [x; b_node k1; Val (s_ "/"); b_node k2; y]) (option_map (cons (seq_of es)) o)
with t_expr : node -> option expr -> Prop :=
| tx x o : t_choice x o -> t_expr (Rule (s_ "expr") [x]) (option_map choice_of o).

Inductive t_def : node -> option def -> Prop :=
| tf_rule k1 x n k2 k3 y o k4 k5 : t_name x n -> t_expr y o ->
    t_def (Rule (s_ "rule") [b_node k1; x; b_node k2; Val (s_ "="); b_node k3; y; be_node k4; b_node k5])
      (option_map (Def n) o)
| tf_module k1 x m k2 k3 y o k4 k5 k6 : t_sym x m -> t_grammar y o ->
    t_def (Rule (s_ "module") [b_node k1; Rule (s_ "mod_name") [x]; b_node k2; Val (s_ "{"); b_node k3; y; b_node k4;
      Val (s_ "}"); be_node k5; b_node k6]) (option_map (Mod m) o)
with t_defs : list node -> option (list def) -> Prop :=
| tds_nil : t_defs [] (Some [])
| tds_bad x l : t_def x None -> (forall y, In y l -> exists o, t_def y o) -> t_defs (x :: l) None
| tds_more x d l o : t_def x (Some d) -> t_defs l o -> t_defs (x :: l) (option_map (cons d) o)
with t_grammar : node -> option (list def) -> Prop :=
| tg l o : t_defs l o -> t_grammar (Rule (s_ "grammar") l) o.

Scheme t_unit_mut := Induction for t_unit Sort Prop
  with t_item_mut := Induction for t_item Sort Prop
  with t_seq_mut := Induction for t_seq Sort Prop
  with t_choice_mut := Induction for t_choice Sort Prop
  with t_expr_mut := Induction for t_expr Sort Prop.
Combined Scheme t_expr_ind5 from t_unit_mut, t_item_mut, t_seq_mut, t_choice_mut, t_expr_mut.

Scheme t_def_mut := Induction for t_def Sort Prop
  with t_defs_mut := Induction for t_defs Sort Prop
  with t_grammar_mut := Induction for t_grammar Sort Prop.
Combined Scheme t_grammar_ind3 from t_def_mut, t_defs_mut, t_grammar_mut.

(* ------------------------------------------------------------------------------------------- *)
(** * Consumers *)

(** The consumer takes exactly the tokens [toks] and gives [o]; [None] is an error. *)
Definition eats {A} (c : consumer A) (toks : list fnode) (o : option A) : Prop :=
  forall rest ctx,
    match o with
    | Some d => c (toks ++ rest) ctx = Ok (d, rest, ctx)
    | None => exists e, c (toks ++ rest) ctx = Err e
    end.

Lemma begin_ok : forall n r, fconsume_node_start_rule_name n (FBegin n :: r) = Ok r.
Proof. intros. unfold fconsume_node_start_rule_name. cbn. rewrite str_eqb_refl. reflexivity. Qed.

Lemma end_ok : forall n r, fconsume_node_end_rule_name n (FEnd n :: r) = Ok r.
Proof. intros. unfold fconsume_node_end_rule_name. cbn. rewrite str_eqb_refl. reflexivity. Qed.

Lemma consuming_ok : forall A n body rest ctx (f : consumer A) d ctx',
  f (body ++ FEnd n :: rest) ctx = Ok (d, FEnd n :: rest, ctx') ->
  consuming_rule n (FBegin n :: body ++ FEnd n :: rest) ctx f = Ok (d, rest, ctx').
Proof.
  intros A n body rest ctx f d ctx' H. unfold consuming_rule. rewrite begin_ok. cbn [ast_ map_err bind]. rewrite H.
  cbn [bind]. rewrite end_ok. reflexivity.
Qed.

Lemma consuming_err : forall A n body rest ctx (f : consumer A) e,
  f (body ++ FEnd n :: rest) ctx = Err e ->
  consuming_rule n (FBegin n :: body ++ FEnd n :: rest) ctx f = Err (err_ipush e (s_ "consuming " ++ n)).
Proof.
  intros A n body rest ctx f e H. unfold consuming_rule. rewrite begin_ok. cbn [ast_ map_err bind]. rewrite H. reflexivity.
Qed.

Lemma consuming_extra : forall A n body rest ctx (f : consumer A) d m r ctx',
  f (body ++ FEnd n :: rest) ctx = Ok (d, FBegin m :: r, ctx') ->
  exists e, consuming_rule n (FBegin n :: body ++ FEnd n :: rest) ctx f = Err e.
Proof.
  intros A n body rest ctx f d m r ctx' H. unfold consuming_rule. rewrite begin_ok. cbn [ast_ map_err bind]. rewrite H.
  eexists. reflexivity.
Qed.

(** The tokens of a rule node, at the head of a list. *)
Lemma kt_head : forall n k rest, name_in peg_blanks n = false ->
  kt [Rule n k] ++ rest = FBegin n :: kt k ++ FEnd n :: rest.
Proof. intros n k rest H. rewrite kt_rule by exact H. rewrite kt_nil. cbn [app]. rewrite <- app_assoc. reflexivity. Qed.

Lemma kt_cons : forall n k l, kt (Rule n k :: l) = kt [Rule n k] ++ kt l.
Proof.
  intros n k l. destruct (name_in peg_blanks n) eqn:E.
  - rewrite !kt_blank by exact E. reflexivity.
  - rewrite (kt_head n k (kt l) E). apply kt_rule. exact E.
Qed.

Lemma eats_rule : forall A n k (f : consumer A) o, name_in peg_blanks n = false ->
  (forall rest ctx, match o with
     | Some d => f (kt k ++ FEnd n :: rest) ctx = Ok (d, FEnd n :: rest, ctx)
     | None => exists e, f (kt k ++ FEnd n :: rest) ctx = Err e end) ->
  eats (fun nodes ctx => consuming_rule n nodes ctx f) (kt [Rule n k]) o.
Proof.
  intros A n k f o H F rest ctx. rewrite kt_head by exact H. specialize (F rest ctx). destruct o as [d|].
  - apply consuming_ok. exact F.
  - destruct F as [e F]. eexists. apply consuming_err. exact F.
Qed.

Lemma val_ok : forall v r, fconsume_val (FVal v :: r) = Ok (v, r).
Proof. reflexivity. Qed.

Lemma this_ok : forall v r, fconsume_this_value v (FVal v :: r) = Ok r.
Proof. intros. unfold fconsume_this_value. cbn. rewrite str_eqb_refl. reflexivity. Qed.

(** Length of tokens. *)
Definition tl (l : list node) : nat := length (kt l).
Definition tn (x : node) : nat := length (kt [x]).

Lemma eats_symbol : forall x n, t_sym x n -> eats consume_symbol (kt [x]) (Some n).
Proof.
  intros x n H. inversion H as [n' N]; subst. unfold consume_symbol. apply eats_rule; [reflexivity|].
  intros rest ctx. rewrite <- (app_nil_r (map v1 n)), kt_v1s by (auto with nv). rewrite kt_nil. reflexivity.
Qed.

Lemma sym_rule : forall x n, t_sym x n -> exists k, x = Rule (s_ "symbol") k.
Proof. intros x n H. inversion H; subst. eauto. Qed.

Lemma kt_sym_head : forall x n, t_sym x n -> kt [x] = [FBegin (s_ "symbol"); FVal n; FEnd (s_ "symbol")].
Proof.
  intros x n H. inversion H as [n' N]; subst. rewrite kt_rule by reflexivity.
  rewrite <- (app_nil_r (map v1 n)), kt_v1s by (auto with nv). reflexivity.
Qed.

Lemma kt_dots_cons : forall x n l, t_sym x n -> kt (Val (s_ ".") :: x :: l) = FVal (s_ ".") :: kt [x] ++ kt l.
Proof.
  intros x n l H. destruct (sym_rule x n H) as [k ->]. rewrite kt_val by (auto with nv). rewrite kt_cons. reflexivity.
Qed.

Lemma eats_dots : forall l m, t_dots l m -> forall fuel acc nm rest ctx, tl l < fuel ->
  rec_consume_dot_symbol fuel acc (kt l ++ FEnd nm :: rest) ctx = Ok (acc ++ m, FEnd nm :: rest, ctx).
Proof.
  intros l m H. induction H as [|x n l m Hx Hl IH]; intros fuel acc nm rest ctx F.
  - destruct fuel as [|fuel]; [lia|]. rewrite kt_nil, app_nil_r. reflexivity.
  - unfold tl in *. rewrite (kt_dots_cons x n l Hx) in *. cbn [length] in F. rewrite app_length in F.
    destruct fuel as [|fuel]; [lia|]. cbn [app rec_consume_dot_symbol fpeek_first_node ast_ map_err bind].
    rewrite str_eqb_refl. cbn [fconsume_val fsplit_first_nodes bind map_err ast_].
    rewrite <- app_assoc. rewrite (eats_symbol x n Hx _ ctx). cbn [bind]. rewrite IH by lia.
    rewrite <- !app_assoc. reflexivity.
Qed.

Lemma eats_name : forall x n, t_name x n -> forall fuel, tn x <= fuel -> eats (consume_rule_name fuel) (kt [x]) (Some n).
Proof.
  intros x n H fuel F. unfold consume_rule_name. inversion H as [y m l d Hy Hl|y m l d Hy Hl]; subst; apply eats_rule; try reflexivity;
    intros rest ctx; unfold tn in F; rewrite kt_rule in F by reflexivity; cbn [length] in F; rewrite app_length in F.
  - destruct (sym_rule y m Hy) as [k ->]. rewrite kt_cons in F |- *. rewrite app_length in F. rewrite <- app_assoc.
    pose proof (kt_sym_head _ _ Hy) as K. rewrite K. cbn [app get_dot_or_empty fpeek_first_node ast_ map_err bind].
    change (FBegin (s_ "symbol") :: FVal m :: FEnd (s_ "symbol") :: kt l ++ FEnd (s_ "rule_name") :: rest)
      with ([FBegin (s_ "symbol"); FVal m; FEnd (s_ "symbol")] ++ kt l ++ FEnd (s_ "rule_name") :: rest).
    rewrite <- K, (eats_symbol _ m Hy). cbn [bind]. rewrite (eats_dots l d Hl) by (unfold tl; lia). reflexivity.
  - rewrite (kt_dots_cons y m l Hy) in F |- *. cbn [length] in F. rewrite app_length in F.
    cbn [app get_dot_or_empty fpeek_first_node ast_ map_err bind]. rewrite str_eqb_refl, this_ok. cbn [bind map_err ast_].
    rewrite <- app_assoc, (eats_symbol _ m Hy). cbn [bind]. rewrite (eats_dots l d Hl) by (unfold tl; lia). reflexivity.
Qed.

(** ** Literals *)

Lemma eats_quote1 : eats consume_single_quote (kt [q1_node]) (Some tt).
Proof. intros rest ctx. reflexivity. Qed.

Lemma eats_quote2 : eats consume_quote (kt [q2_node]) (Some tt).
Proof. intros rest ctx. reflexivity. Qed.

Lemma upper_hex_digit : forall c d, upper_hex c d -> hex_digit c = Some d /\ (d < 16)%N /\ (c < 128)%N.
Proof.
  intros c d [[[H1 H2] ->]|[[H1 H2] ->]]; unfold hex_digit.
  - apply N.leb_le in H1 as A. apply N.leb_le in H2 as B. rewrite A, B. split; [reflexivity|lia].
  - assert (X : (c <=? 57)%N = false) by (apply N.leb_gt; lia). rewrite X, andb_false_r.
    apply N.leb_le in H1 as A. apply N.leb_le in H2 as B. rewrite A, B. split; [reflexivity|lia].
Qed.

Lemma esc_kt : forall x, kt [Rule (s_ "esc_char") [Val [ch_bslash; x]]] =
  [FBegin (s_ "esc_char"); FVal [ch_bslash; x]; FEnd (s_ "esc_char")].
Proof. intros x. rewrite kt_rule by reflexivity. rewrite kt_val by (auto with nv). reflexivity. Qed.

Lemma eats_elem : forall x v, t_elem x v -> (forall c, x <> v1 c) -> eats consume_element (kt [x]) (Some v) /\ exists n k, kt [x] = FBegin n :: k /\ str_eqb n (s_ "_""") = false.
Proof.
  intros x v H N. inversion H as [c|a y E|a b d1 d2 Ha Hb]; subst; [exfalso; apply (N c); reflexivity| |].
  - split.
    + intros rest ctx. rewrite (esc_kt a). inversion E; subst; reflexivity.
    + rewrite (esc_kt a). eauto.
  - destruct (upper_hex_digit a d1 Ha) as (A1 & A2 & A3), (upper_hex_digit b d2 Hb) as (B1 & B2 & B3).
    assert (K : kt [Rule (s_ "hex_char") [Val (s_ "\0x"); v1 a; v1 b]] = [FBegin (s_ "hex_char"); FVal (s_ "\0x" ++ [a; b]); FEnd (s_ "hex_char")]).
    { rewrite kt_rule by reflexivity. pose proof (kt_run [[a]; [b]] (s_ "\0x") [] no_val_nil) as X. cbn [map app] in X. unfold v1. rewrite X. reflexivity. }
    rewrite K. split; [|eauto]. intros rest ctx.
    change (consume_element ([FBegin (s_ "hex_char"); FVal (s_ "\0x" ++ [a; b]); FEnd (s_ "hex_char")] ++ rest) ctx)
      with (consume_hex_char ([FBegin (s_ "hex_char"); FVal (s_ "\0x" ++ [a; b]); FEnd (s_ "hex_char")] ++ rest) ctx).
    unfold consume_hex_char.
    change ([FBegin (s_ "hex_char"); FVal (s_ "\0x" ++ [a; b]); FEnd (s_ "hex_char")] ++ rest)
      with (FBegin (s_ "hex_char") :: [FVal (s_ "\0x" ++ [a; b])] ++ FEnd (s_ "hex_char") :: rest).
    apply consuming_ok. cbn [app]. rewrite val_ok. cbn [ast_ map_err bind].
    assert (Sl : slice_from (s_ "\0x" ++ [a; b]) 3 = Some [a; b]) by reflexivity.
    rewrite Sl. unfold u8_from_str_radix_16.
    assert (a <> 43%N). { intros ->. destruct Ha as [[[? ?] _]|[[? ?] _]]; lia. }
    destruct (N.eqb_spec a 43) as [Q|_]; [contradiction|]. cbn [hex_digits]. rewrite A1.
    replace (0 * 16 + d1)%N with d1 by lia. cbv zeta. assert (L1 : (d1 <? 256)%N = true) by (apply N.ltb_lt; lia). rewrite L1.
    rewrite B1. assert (L2 : (d1 * 16 + d2 <? 256)%N = true) by (apply N.ltb_lt; lia). rewrite L2. reflexivity.
Qed.

Lemma elems_split : forall l v, t_elems l v -> exists cs l' w, l = map v1 cs ++ l' /\ v = cs ++ w /\ t_elems l' w /\ no_val l'.
Proof.
  intros l v H. induction H as [|x v l w Hx Hl IH].
  - exists [], [], []. repeat split; [constructor|auto with nv].
  - inversion Hx as [c|a y E|a b d1 d2 Ha Hb]; subst.
    + destruct IH as (cs & l' & w' & -> & -> & T & N). exists (c :: cs), l', w'. auto.
    + exists [], (Rule (s_ "esc_char") [Val [ch_bslash; a]] :: l), ([y] ++ w). repeat split; [|auto with nv]. constructor; assumption.
    + exists [], (Rule (s_ "hex_char") [Val (s_ "\0x"); v1 a; v1 b] :: l), ([(d1 * 16 + d2)%N] ++ w). repeat split; [|auto with nv].
      constructor; assumption.
Qed.

Lemma eats_elems : forall k l v, length l <= k -> t_elems l v -> forall fuel acc rest ctx, tl l < fuel ->
  rec_consume_lit_esc_ch fuel acc (kt l ++ kt [q2_node] ++ rest) ctx = Ok (acc ++ v, kt [q2_node] ++ rest, ctx).
Proof.
  (* a list not starting with a value *)
  assert (B : forall k, (forall l v, length l <= k -> t_elems l v -> forall fuel acc rest ctx, tl l < fuel ->
      rec_consume_lit_esc_ch fuel acc (kt l ++ kt [q2_node] ++ rest) ctx = Ok (acc ++ v, kt [q2_node] ++ rest, ctx)) ->
    forall l v, length l <= S k -> no_val l -> t_elems l v -> forall fuel acc rest ctx, tl l < fuel ->
      rec_consume_lit_esc_ch fuel acc (kt l ++ kt [q2_node] ++ rest) ctx = Ok (acc ++ v, kt [q2_node] ++ rest, ctx)).
  { intros k IH l v L N H fuel acc rest ctx F. inversion H as [|x w l' w' Hx Hl]; subst.
    - destruct fuel as [|fuel]; [lia|]. rewrite kt_nil, app_nil_r. reflexivity.
    - assert (NV : forall c, x <> v1 c). { intros c ->. apply N. exists [c], l'. reflexivity. }
      destruct (eats_elem x w Hx NV) as [E (n & t & K & Q)].
      assert (exists m k', x = Rule m k') as (m & k' & ->). { inversion Hx; subst; [exfalso; eapply NV; reflexivity| |]; eauto. }
      unfold tl in F. rewrite kt_cons in F |- *. rewrite app_length, K in F. cbn [length] in F.
      destruct fuel as [|fuel]; [lia|]. rewrite <- app_assoc.
      assert (St : rec_consume_lit_esc_ch (S fuel) acc (kt [Rule m k'] ++ kt l' ++ kt [q2_node] ++ rest) ctx =
        let? (v, nodes, ctx) := consume_element (kt [Rule m k'] ++ kt l' ++ kt [q2_node] ++ rest) ctx in rec_consume_lit_esc_ch fuel (acc ++ v) nodes ctx).
      { rewrite K. cbn [rec_consume_lit_esc_ch app fpeek_first_node ast_ map_err bind fget_nodename]. rewrite Q. reflexivity. }
      rewrite St, (E _ ctx). cbn [bind]. cbn [length] in L. rewrite (IH l' w') by (try assumption; unfold tl; lia). rewrite app_assoc. reflexivity. }
  induction k as [|k IH]; intros l v L H fuel acc rest ctx F.
  - destruct l; [|cbn in L; lia]. inversion H; subst. destruct fuel as [|fuel]; [lia|]. rewrite kt_nil, app_nil_r. reflexivity.
  - destruct (elems_split l v H) as (cs & l' & w & -> & -> & T & N).
    rewrite app_length, map_length in L.
    destruct cs as [|c cs].
    + cbn [map app] in *. apply (B k IH); try assumption.
    + unfold tl in F. rewrite kt_v1s in F |- * by (discriminate || assumption). cbn [length] in F.
      destruct fuel as [|fuel]; [lia|]. cbn [app rec_consume_lit_esc_ch fpeek_first_node ast_ map_err bind fget_nodename consume_element fconsume_val fsplit_first_nodes].
      cbn [length] in L. rewrite (IH l' w) by (try assumption; unfold tl; lia). rewrite <- app_assoc. reflexivity.
Qed.

Ltac ev := cbn [app fpeek_first_node ast_ map_err bind fget_nodename fconsume_val fsplit_first_nodes push_err].

Lemma eats_literal : forall x o, t_lit x o -> forall fuel, tn x <= fuel -> eats (consume_literal_string fuel) (kt [x]) o.
Proof.
  intros x o H fuel F. unfold consume_literal_string. inversion H as [body|l v Hl]; subst; apply eats_rule; try reflexivity.
  - assert (K : kt (q1_node :: map v1 body ++ [q1_node]) = kt [q1_node] ++ match body with [] => [] | _ => [FVal body] end ++ kt [q1_node]).
    { unfold q1_node at 1. rewrite kt_cons. fold q1_node. f_equal. destruct body as [|c b]; [reflexivity|].
      rewrite kt_v1s by (discriminate || (unfold q1_node; auto with nv)). reflexivity. }
    assert (X : forall rest ctx, match body with
      | [] => exists e, consume_literal_no_esc (kt [Rule (s_ "lit_noesc") (q1_node :: map v1 body ++ [q1_node])] ++ rest) ctx = Err e
      | _ => consume_literal_no_esc (kt [Rule (s_ "lit_noesc") (q1_node :: map v1 body ++ [q1_node])] ++ rest) ctx
         = Ok (replace_char ch_bslash [ch_bslash; ch_bslash] body, rest, ctx) end).
    { intros rest ctx. unfold consume_literal_no_esc. rewrite kt_head by reflexivity. rewrite K. destruct body as [|c b].
      - eexists. apply consuming_err. rewrite <- !app_assoc, (eats_quote1 _ ctx). reflexivity.
      - apply consuming_ok. rewrite <- !app_assoc, (eats_quote1 _ ctx). ev. rewrite (eats_quote1 _ ctx). reflexivity. }
    intros rest ctx. specialize (X (FEnd (s_ "literal") :: rest) ctx).
    rewrite kt_rule in X |- * by reflexivity. cbn [app] in X |- *.
    destruct body as [|c b]; [destruct X as [e X]; exists e|]; exact X.
  - intros rest ctx.
    assert (X : consume_literal_esc fuel (kt [Rule (s_ "lit_esc") (q2_node :: l ++ [q2_node])] ++ FEnd (s_ "literal") :: rest) ctx = Ok (v, FEnd (s_ "literal") :: rest, ctx)).
    { unfold consume_literal_esc. rewrite kt_head by reflexivity. apply consuming_ok.
      unfold tn in F. rewrite kt_rule in F by reflexivity. rewrite kt_rule in F by reflexivity.
      assert (K : kt (q2_node :: l ++ [q2_node]) = kt [q2_node] ++ kt l ++ kt [q2_node]).
      { unfold q2_node at 1. rewrite kt_cons. fold q2_node. f_equal. unfold q2_node. apply kt_app_rule. }
      rewrite K in *. rewrite <- !app_assoc, (eats_quote2 _ ctx). ev.
      rewrite (eats_elems (length l) l v (le_n _) Hl) by (cbn [length] in F; rewrite !app_length in F; cbn [length] in F; rewrite !app_length in F; unfold tl; lia).
      ev. rewrite (eats_quote2 _ ctx). reflexivity. }
    rewrite kt_rule in X |- * by reflexivity. cbn [app] in X |- *. exact X.
Qed.

(** ** Classes and atoms *)

Lemma range_kt : forall p, kt [range_node p] = [FBegin (s_ "mbetween"); FVal [fst p; 45%N; snd p]; FEnd (s_ "mbetween")].
Proof.
  intros [a b]. unfold range_node. rewrite kt_rule by reflexivity. pose proof (kt_run [s_ "-"; [b]] [a] [] no_val_nil) as X.
  cbn [map app] in X. unfold v1. cbn [fst snd]. rewrite X. reflexivity.
Qed.

Lemma eats_range : forall p, eats consume_mbetween (kt [range_node p]) (Some p).
Proof. intros [a b] rest ctx. rewrite range_kt. reflexivity. Qed.

Lemma no_val_ranges : forall rg l, rg <> [] -> no_val (map range_node rg ++ l).
Proof. intros [|p rg] l H; [congruence|]. cbn. unfold range_node. auto with nv. Qed.

Lemma kt_ranges_cons : forall p l, kt (range_node p :: l) = kt [range_node p] ++ kt l.
Proof. intros. unfold range_node. apply kt_cons. Qed.

Lemma eats_ranges : forall rg fuel acc rest ctx, tl (map range_node rg ++ [Val (s_ "]")]) <= fuel ->
  rec_consume_mbetween fuel acc (kt (map range_node rg ++ [Val (s_ "]")]) ++ rest) ctx = Ok (acc ++ rg, FVal (s_ "]") :: rest, ctx).
Proof.
  induction rg as [|p rg IH]; intros fuel acc rest ctx F.
  - unfold tl in F. cbn [map app] in *. rewrite kt_val in F |- * by (auto with nv). cbn [length] in F. destruct fuel as [|fuel]; [lia|].
    rewrite app_nil_r. reflexivity.
  - unfold tl in F. cbn [map app] in *. rewrite kt_ranges_cons in F |- *. rewrite range_kt in F. cbn [length app] in F.
    destruct fuel as [|fuel]; [lia|]. rewrite <- app_assoc.
    assert (St : rec_consume_mbetween (S fuel) acc (kt [range_node p] ++ kt (map range_node rg ++ [Val (s_ "]")]) ++ rest) ctx =
      let? (ft, nodes, ctx) := consume_mbetween (kt [range_node p] ++ kt (map range_node rg ++ [Val (s_ "]")]) ++ rest) ctx in rec_consume_mbetween fuel (acc ++ [ft]) nodes ctx).
    { rewrite range_kt. reflexivity. }
    rewrite St, (eats_range p _ ctx). cbn [bind]. rewrite IH by (unfold tl; lia). rewrite <- app_assoc. reflexivity.
Qed.

Lemma eats_mchars : forall cs, cs <> [] -> eats consume_mchars (kt [Rule (s_ "mchars") (map v1 cs)]) (Some cs).
Proof.
  intros cs N. unfold consume_mchars. apply eats_rule; [reflexivity|]. intros rest ctx.
  rewrite <- (app_nil_r (map v1 cs)), kt_v1s by (auto with nv). reflexivity.
Qed.

Lemma eats_match : forall x cs rg, t_class x cs rg -> forall fuel, tn x <= fuel ->
  eats (consume_match fuel) (kt [x]) (Some (Simple (Match cs rg))).
Proof.
  intros x cs rg H fuel F. unfold consume_match. inversion H as [cs' rg' N|rg' N]; subst; apply eats_rule; try reflexivity;
    unfold tn in F; rewrite kt_rule in F by reflexivity; cbn [length] in F; rewrite app_length in F; cbn [length] in F; intros rest ctx.
  - rewrite kt_val in F |- * by (auto with nv). rewrite kt_cons in F |- *. cbn [app length] in *. rewrite app_length in F.
    rewrite this_ok. ev. rewrite <- app_assoc.
    assert (P : fpeek_first_node (kt [Rule (s_ "mchars") (map v1 cs)] ++ kt (map range_node rg ++ [Val (s_ "]")]) ++ FEnd (s_ "match") :: rest) = Ok (FBegin (s_ "mchars"))).
    { rewrite kt_rule by reflexivity. reflexivity. }
    rewrite P. ev. change (str_eqb (s_ "mchars") (s_ "mchars")) with true. cbv iota. rewrite (eats_mchars cs N _ ctx). ev.
    rewrite eats_ranges by (unfold tl; lia). ev. destruct rg as [|p rg]; ev; rewrite this_ok; reflexivity.
  - rewrite kt_val in F |- * by (apply no_val_ranges; exact N). cbn [app length] in *. rewrite this_ok. ev.
    destruct rg as [|p rg]; [congruence|].
    assert (P : fpeek_first_node (kt (map range_node (p :: rg) ++ [Val (s_ "]")]) ++ FEnd (s_ "match") :: rest) = Ok (FBegin (s_ "mbetween"))).
    { cbn [map app]. rewrite kt_ranges_cons, range_kt. reflexivity. }
    rewrite P. ev. change (str_eqb (s_ "mbetween") (s_ "mchars")) with false. cbv iota. ev.
    rewrite eats_ranges by (unfold tl; lia). ev. rewrite this_ok. reflexivity.
Qed.

Lemma peek_rule : forall n k r, name_in peg_blanks n = false -> fpeek_first_node (kt [Rule n k] ++ r) = Ok (FBegin n).
Proof. intros n k r H. rewrite kt_rule by exact H. reflexivity. Qed.

Lemma lit_name : forall x o, t_lit x o -> exists k, x = Rule (s_ "literal") k.
Proof. intros x o H. inversion H; subst; eauto. Qed.
Lemma class_name : forall x cs rg, t_class x cs rg -> exists k, x = Rule (s_ "match") k.
Proof. intros x cs rg H. inversion H; subst; eauto. Qed.
Lemma name_name : forall x n, t_name x n -> exists k, x = Rule (s_ "rule_name") k.
Proof. intros x n H. inversion H; subst; eauto. Qed.
Lemma atom_name : forall x o, t_atom x o -> exists k, x = Rule (s_ "atom") k.
Proof. intros x o H. inversion H; subst; eauto. Qed.

Lemma inner_bound : forall n k, name_in peg_blanks n = false -> tn (Rule n k) = tl k + 2.
Proof. intros n k H. unfold tn, tl. rewrite kt_rule by exact H. cbn [length]. rewrite app_length, kt_nil. cbn. lia. Qed.

Lemma eats_atom : forall x o, t_atom x o -> forall fuel, tn x <= fuel -> eats (consume_atom fuel) (kt [x]) o.
Proof.
  intros x o H fuel F. unfold consume_atom.
  inversion H as [y p Hy|y cs rg Hy|y n Hy|]; subst; apply eats_rule; try reflexivity; intros rest ctx;
    rewrite inner_bound in F by reflexivity; unfold tl in F.
  - destruct (lit_name y p Hy) as [k ->]. rewrite peek_rule by reflexivity. ev.
    change (str_eqb (s_ "literal") (s_ "literal")) with true. cbv iota. unfold consume_literal_expr.
    pose proof (eats_literal _ _ Hy fuel) as X. unfold tn in X. specialize (X ltac:(lia) (FEnd (s_ "atom") :: rest) ctx).
    destruct p as [v|]; cbn [option_map].
    + rewrite X. reflexivity.
    + destruct X as [e ->]. eexists. reflexivity.
  - destruct (class_name y cs rg Hy) as [k ->]. rewrite peek_rule by reflexivity. ev.
    change (str_eqb (s_ "match") (s_ "literal")) with false. change (str_eqb (s_ "match") (s_ "rule_name")) with false.
    change (str_eqb (s_ "match") (s_ "dot")) with false. change (str_eqb (s_ "match") (s_ "match")) with true. cbv iota.
    rewrite (eats_match _ _ _ Hy) by (unfold tn; lia). reflexivity.
  - destruct (name_name y n Hy) as [k ->]. rewrite peek_rule by reflexivity. ev.
    change (str_eqb (s_ "rule_name") (s_ "literal")) with false. change (str_eqb (s_ "rule_name") (s_ "rule_name")) with true. cbv iota.
    unfold consume_rule_ref. rewrite (eats_name _ _ Hy) by (unfold tn; lia). reflexivity.
Qed.

Lemma eats_error : forall x o, t_error x o -> forall fuel, tn x <= fuel ->
  eats (consume_error fuel) (kt [x]) (option_map (fun v => Simple (AError v)) o).
Proof.
  intros x o H fuel F rest ctx. unfold consume_error. inversion H as [k1 k2 k3 y p Hy]; subst.
  rewrite inner_bound in F by reflexivity. unfold tl in F.
  destruct (lit_name y o Hy) as [k ->].
  assert (K : kt [Val (s_ "error"); b_node k1; Val (s_ "("); b_node k2; Rule (s_ "literal") k; b_node k3; Val (s_ ")")] =
    FVal (s_ "error") :: FVal (s_ "(") :: kt [Rule (s_ "literal") k] ++ [FVal (s_ ")")]).
  { unfold b_node. rewrite kt_val by (auto with nv). rewrite kt_blank by reflexivity. rewrite kt_val by (auto with nv).
    rewrite kt_blank by reflexivity. rewrite kt_cons. rewrite (kt_blank (s_ "_")) by reflexivity. rewrite kt_val by (auto with nv). reflexivity. }
  rewrite K in F. cbn [length] in F. rewrite app_length in F. cbn [length] in F.
  pose proof (eats_literal _ _ Hy fuel) as X. unfold tn in X. specialize (X ltac:(lia)).
  rewrite kt_head by reflexivity. rewrite K. destruct o as [v|]; cbn [option_map].
  - erewrite consuming_ok; [reflexivity|]. cbn [app]. rewrite this_ok. ev. rewrite this_ok. ev. rewrite <- app_assoc, (X _ ctx). ev.
    rewrite this_ok. reflexivity.
  - destruct (X ([FVal (s_ ")")] ++ FEnd (s_ "error") :: rest) ctx) as [e Xe].
    eexists. erewrite consuming_err; [reflexivity|]. cbn [app]. rewrite this_ok. ev. rewrite this_ok. ev. rewrite <- app_assoc. rewrite Xe. reflexivity.
Qed.

(** ** Expressions *)

Definition c_unit (f : nat) : consumer expr := consume_atom_or_par f (consume_peg_expr f).
Definition c_item (f : nat) : consumer expr := consume_rep_or_neg (c_unit f).

Definition pushes (acc : eov) (es : list expr) : eov := fold_left eov_ipush es acc.

Definition eats_push (c : eov -> consumer eov) (toks : list fnode) (o : option (list expr)) : Prop :=
  forall acc rest ctx,
    match o with
    | Some es => c acc (toks ++ rest) ctx = Ok (pushes acc es, rest, ctx)
    | None => exists e, c acc (toks ++ rest) ctx = Err e
    end.

Lemma unit_name : forall x o, t_unit x o -> exists k, x = Rule (s_ "atom_or_par") k.
Proof. intros x o H. inversion H; subst; eauto. Qed.
Lemma item_name : forall x o, t_item x o -> exists k, x = Rule (s_ "rep_or_neg") k.
Proof. intros x o H. inversion H; subst; eauto. Qed.
Lemma seq_name : forall x o, t_seq x o -> exists k, x = Rule (s_ "and") k.
Proof. intros x o H. inversion H; subst; eauto. Qed.
Lemma choice_name : forall x o, t_choice x o -> exists k, x = Rule (s_ "or") k.
Proof. intros x o H. inversion H; subst; eauto. Qed.
Lemma expr_name : forall x o, t_expr x o -> exists k, x = Rule (s_ "expr") k.
Proof. intros x o H. inversion H; subst; eauto. Qed.
Lemma error_name : forall x o, t_error x o -> exists k, x = Rule (s_ "error") k.
Proof. intros x o H. inversion H; subst; eauto. Qed.

Lemma pushes_none : forall es, es <> [] -> pushes EovNone es = match es with [e] => EovExpr e | _ => EovVExpr es end.
Proof.
  intros [|e [|e2 es]] H; [congruence|reflexivity|]. unfold pushes. cbn [fold_left eov_ipush].
  assert (G : forall es v, fold_left eov_ipush es (EovVExpr v) = EovVExpr (v ++ es)).
  { clear. induction es as [|x es IH]; intro v; cbn; [rewrite app_nil_r; reflexivity|]. rewrite IH, <- app_assoc. reflexivity. }
  rewrite G. reflexivity.
Qed.

Lemma seq_nonempty : forall x o, t_seq x o -> forall es, o = Some es -> es <> [].
Proof.
  intros x o H es E. inversion H as [y p Hy|y p Hy|y l Hy|y e k1 k2 z p Hy Hz|]; subst; try discriminate; destruct p; try discriminate; cbn in *; congruence.
Qed.
Lemma choice_nonempty : forall x o, t_choice x o -> forall es, o = Some es -> es <> [].
Proof.
  intros x o H es E. inversion H as [y p Hy|y l Hy|y e k1 k2 z p Hy Hz]; subst; try discriminate; destruct p; try discriminate; cbn in *; congruence.
Qed.

Lemma consume_and_of : forall x o f cron cerr, t_seq x o ->
  eats_push (rec_consume_and f cron cerr) (kt [x]) o -> eats (consume_and f cron cerr) (kt [x]) (option_map seq_of o).
Proof.
  intros x o f cron cerr H E rest ctx. unfold consume_and. specialize (E EovNone rest ctx). destruct o as [es|]; cbn [option_map].
  - pose proof (seq_nonempty x _ H es eq_refl) as N. rewrite E. ev. rewrite (pushes_none es N). destruct es as [|a [|b es]]; [congruence|reflexivity|reflexivity].
  - destruct E as [e ->]. eexists. reflexivity.
Qed.

Lemma consume_or_of : forall x o f cand, t_choice x o ->
  eats_push (rec_consume_or f cand) (kt [x]) o -> eats (consume_or f cand) (kt [x]) (option_map choice_of o).
Proof.
  intros x o f cand H E rest ctx. unfold consume_or. specialize (E EovNone rest ctx). destruct o as [es|]; cbn [option_map].
  - pose proof (choice_nonempty x _ H es eq_refl) as N. rewrite E. ev. rewrite (pushes_none es N). destruct es as [|a [|b es]]; [congruence|reflexivity|reflexivity].
  - destruct E as [e ->]. eexists. reflexivity.
Qed.

Lemma eats_c_atom : forall x o f, t_atom x o -> tn (Rule (s_ "atom_or_par") [x]) <= f ->
  eats (c_unit f) (kt [Rule (s_ "atom_or_par") [x]]) o.
Proof.
  intros x o f H F. unfold c_unit, consume_atom_or_par. apply eats_rule; [reflexivity|]. intros rest ctx.
  rewrite inner_bound in F by reflexivity. unfold tl in F. destruct (atom_name x o H) as [k ->]. rewrite peek_rule by reflexivity. ev.
  change (str_eqb (s_ "atom") (s_ "atom")) with true. cbv iota.
  pose proof (eats_atom _ _ H f) as X. unfold tn in X. specialize (X ltac:(lia) (FEnd (s_ "atom_or_par") :: rest) ctx).
  destruct o as [d|]; [rewrite X; reflexivity|destruct X as [e ->]; eexists; reflexivity].
Qed.

Lemma kt_par : forall k1 x o k2, t_expr x o ->
  kt [Val (s_ "("); b_node k1; x; b_node k2; Val (s_ ")")] = FVal (s_ "(") :: kt [x] ++ [FVal (s_ ")")].
Proof.
  intros k1 x o k2 H. destruct (expr_name x o H) as [k ->]. unfold b_node. rewrite kt_val by (auto with nv). rewrite kt_blank by reflexivity.
  rewrite kt_cons. rewrite (kt_blank (s_ "_")) by reflexivity. rewrite kt_val by (auto with nv). reflexivity.
Qed.

Theorem eats_exprs :
  (forall x o, t_unit x o -> forall f, tn x <= f -> eats (c_unit f) (kt [x]) o) /\
  (forall x o, t_item x o -> forall f, tn x <= f -> eats (c_item f) (kt [x]) o) /\
  (forall x o, t_seq x o -> forall f f', tn x <= f -> tn x <= f' ->
     eats_push (rec_consume_and f' (c_item f) (consume_error f)) (kt [x]) o) /\
  (forall x o, t_choice x o -> forall f f', tn x <= f -> tn x <= f' ->
     eats_push (rec_consume_or f' (consume_and f (c_item f) (consume_error f))) (kt [x]) o) /\
  (forall x o, t_expr x o -> forall f, tn x <= f -> eats (consume_peg_expr f) (kt [x]) o).
Proof.
  apply t_expr_ind5.
  - (* atom *) intros x o H f F. apply eats_c_atom; assumption.
  - (* parentheses *) intros k1 k2 x o H IH f F. unfold c_unit, consume_atom_or_par. apply eats_rule; [reflexivity|]. intros rest ctx.
    rewrite inner_bound in F by reflexivity. unfold tl in F. rewrite peek_rule by reflexivity. ev.
    change (str_eqb (s_ "parenth") (s_ "atom")) with false. change (str_eqb (s_ "parenth") (s_ "parenth")) with true. cbv iota.
    change (length (kt [Rule (s_ "parenth") [Val (s_ "("); b_node k1; x; b_node k2; Val (s_ ")")]]))
      with (tn (Rule (s_ "parenth") [Val (s_ "("); b_node k1; x; b_node k2; Val (s_ ")")])) in F.
    rewrite inner_bound in F by reflexivity. unfold tl in F. rewrite (kt_par k1 x o k2 H) in F. cbn [length] in F. rewrite app_length in F. cbn [length] in F.
    specialize (IH f ltac:(unfold tn; lia)).
    assert (X : eats (consume_parenth (consume_peg_expr f)) (kt [Rule (s_ "parenth") [Val (s_ "("); b_node k1; x; b_node k2; Val (s_ ")")]]) o).
    { unfold consume_parenth. apply eats_rule; [reflexivity|]. intros rest' ctx'. rewrite (kt_par k1 x o k2 H). cbn [app]. rewrite this_ok. ev.
      rewrite <- app_assoc. specialize (IH ([FVal (s_ ")")] ++ FEnd (s_ "parenth") :: rest') ctx'). destruct o as [d|].
      - rewrite IH. ev. rewrite this_ok. reflexivity.
      - destruct IH as [e ->]. eexists. reflexivity. }
    specialize (X (FEnd (s_ "atom_or_par") :: rest) ctx). destruct o as [d|]; [rewrite X; reflexivity|destruct X as [e ->]; eexists; reflexivity].
  - (* one *) intros x o H IH f F. unfold c_item, consume_rep_or_neg. apply eats_rule; [reflexivity|]. intros rest ctx.
    rewrite inner_bound in F by reflexivity. unfold tl in F. specialize (IH f ltac:(unfold tn; lia)).
    destruct (unit_name x o H) as [k ->]. rewrite peek_rule by reflexivity. ev. unfold atom_and_rep.
    specialize (IH (FEnd (s_ "rep_or_neg") :: rest) ctx). destruct o as [d|]; [rewrite IH; reflexivity|destruct IH as [e ->]; eexists; reflexivity].
  - (* star *) intros x o H IH f F. unfold c_item, consume_rep_or_neg. apply eats_rule; [reflexivity|]. intros rest ctx.
    rewrite inner_bound in F by reflexivity. unfold tl in F. destruct (unit_name x o H) as [k ->]. rewrite kt_cons in F |- *. rewrite app_length in F.
    specialize (IH f ltac:(unfold tn; lia)). rewrite <- app_assoc. rewrite peek_rule by reflexivity. ev. unfold atom_and_rep.
    specialize (IH (kt [Val (s_ "*")] ++ FEnd (s_ "rep_or_neg") :: rest) ctx). destruct o as [d|]; [rewrite IH; reflexivity|destruct IH as [e ->]; eexists; reflexivity].
  - (* plus *) intros x o H IH f F. unfold c_item, consume_rep_or_neg. apply eats_rule; [reflexivity|]. intros rest ctx.
    rewrite inner_bound in F by reflexivity. unfold tl in F. destruct (unit_name x o H) as [k ->]. rewrite kt_cons in F |- *. rewrite app_length in F.
    specialize (IH f ltac:(unfold tn; lia)). rewrite <- app_assoc. rewrite peek_rule by reflexivity. ev. unfold atom_and_rep.
    specialize (IH (kt [Val (s_ "+")] ++ FEnd (s_ "rep_or_neg") :: rest) ctx). destruct o as [d|]; [rewrite IH; reflexivity|destruct IH as [e ->]; eexists; reflexivity].
  - (* option *) intros x o H IH f F. unfold c_item, consume_rep_or_neg. apply eats_rule; [reflexivity|]. intros rest ctx.
    rewrite inner_bound in F by reflexivity. unfold tl in F. destruct (unit_name x o H) as [k ->]. rewrite kt_cons in F |- *. rewrite app_length in F.
    specialize (IH f ltac:(unfold tn; lia)). rewrite <- app_assoc. rewrite peek_rule by reflexivity. ev. unfold atom_and_rep.
    specialize (IH (kt [Val (s_ "?")] ++ FEnd (s_ "rep_or_neg") :: rest) ctx). destruct o as [d|]; [rewrite IH; reflexivity|destruct IH as [e ->]; eexists; reflexivity].
  - (* not *) intros x o H IH f F. unfold c_item, consume_rep_or_neg. apply eats_rule; [reflexivity|]. intros rest ctx.
    rewrite inner_bound in F by reflexivity. unfold tl in F. destruct (unit_name x o H) as [k ->]. rewrite kt_val in F |- * by (auto with nv). cbn [length] in F.
    specialize (IH f ltac:(unfold tn; lia)). ev. change (str_eqb (s_ "!") (s_ "!")) with true. cbv iota. unfold neg_and_atom. rewrite this_ok. ev.
    specialize (IH (FEnd (s_ "rep_or_neg") :: rest) ctx). destruct o as [d|]; [rewrite IH; reflexivity|destruct IH as [e ->]; eexists; reflexivity].
  - (* error *) intros x o H f f' F F' acc rest ctx. pose proof F' as F2. rewrite inner_bound in F, F2 by reflexivity. unfold tl in F. destruct f' as [|f']; [lia|].
    cbn [rec_consume_and]. pose proof (eats_error x o H f ltac:(unfold tn; lia) (FEnd (s_ "and") :: rest) ctx) as E.
    destruct (error_name x o H) as [k ->]. rewrite kt_head by reflexivity. destruct o as [v|]; cbn [option_map] in *.
    + apply consuming_ok. rewrite peek_rule by reflexivity. ev. change (str_eqb (s_ "error") (s_ "error")) with true. cbv iota. rewrite E. reflexivity.
    + destruct E as [e E]. eexists. apply consuming_err. rewrite peek_rule by reflexivity. ev. change (str_eqb (s_ "error") (s_ "error")) with true. cbv iota. rewrite E. reflexivity.
  - (* one *) intros x o H IH f f' F F' acc rest ctx. pose proof F' as F2. rewrite inner_bound in F, F2 by reflexivity. unfold tl in F. destruct f' as [|f']; [lia|].
    cbn [rec_consume_and]. specialize (IH f ltac:(unfold tn; lia) (FEnd (s_ "and") :: rest) ctx).
    destruct (item_name x o H) as [k ->]. rewrite kt_head by reflexivity. destruct o as [v|]; cbn [option_map] in *.
    + apply consuming_ok. rewrite peek_rule by reflexivity. ev. change (str_eqb (s_ "error") (s_ "rep_or_neg")) with false. cbv iota. rewrite IH. reflexivity.
    + destruct IH as [e E]. eexists. apply consuming_err. rewrite peek_rule by reflexivity. ev. change (str_eqb (s_ "error") (s_ "rep_or_neg")) with false. cbv iota. rewrite E. reflexivity.
  - (* bad *) intros x l H IH f f' F F' acc rest ctx. pose proof F' as F2. rewrite inner_bound in F, F2 by reflexivity. unfold tl in F. destruct f' as [|f']; [lia|].
    cbn [rec_consume_and]. destruct (item_name x None H) as [k ->]. rewrite kt_cons in F. rewrite app_length in F.
    destruct (IH f ltac:(unfold tn; lia) (kt l ++ FEnd (s_ "and") :: rest) ctx) as [e E]. rewrite kt_head by reflexivity.
    eexists. apply consuming_err. rewrite kt_cons, <- app_assoc. rewrite peek_rule by reflexivity. ev. change (str_eqb (s_ "error") (s_ "rep_or_neg")) with false. cbv iota. rewrite E. reflexivity.
  - (* more *) intros x d k1 k2 y o H IH H2 IH2 f f' F F' acc rest ctx. pose proof F' as F2. rewrite inner_bound in F, F2 by reflexivity. unfold tl in F, F2. destruct f' as [|f']; [lia|].
    cbn [rec_consume_and]. destruct (item_name x _ H) as [k ->]. destruct (seq_name y o H2) as [kq ->].
    assert (K : kt [Rule (s_ "rep_or_neg") k; b1_node k1; b_node k2; Rule (s_ "and") kq] = kt [Rule (s_ "rep_or_neg") k] ++ kt [Rule (s_ "and") kq]).
    { rewrite kt_cons. unfold b1_node, b_node. rewrite (kt_blank (s_ "_1")) by reflexivity. rewrite (kt_blank (s_ "_")) by reflexivity. reflexivity. }
    rewrite K in F, F2. rewrite app_length in F, F2. specialize (IH f ltac:(unfold tn; lia) (kt [Rule (s_ "and") kq] ++ FEnd (s_ "and") :: rest) ctx). cbn iota in IH.
    specialize (IH2 f f' ltac:(unfold tn; lia) ltac:(unfold tn; lia) (eov_ipush acc d) (FEnd (s_ "and") :: rest) ctx).
    rewrite kt_head by reflexivity. rewrite K.
    assert (St : forall T, T = rec_consume_and f' (c_item f) (consume_error f) (eov_ipush acc d) (kt [Rule (s_ "and") kq] ++ FEnd (s_ "and") :: rest) ctx ->
      (let? nd := ast_ (fpeek_first_node ((kt [Rule (s_ "rep_or_neg") k] ++ kt [Rule (s_ "and") kq]) ++ FEnd (s_ "and") :: rest)) in
        let? nm := ast_ (fget_nodename nd) in
        if str_eqb (s_ "error") nm then
          let? (e, nodes, ctx) := consume_error f ((kt [Rule (s_ "rep_or_neg") k] ++ kt [Rule (s_ "and") kq]) ++ FEnd (s_ "and") :: rest) ctx in
          Ok (eov_ipush acc e, nodes, ctx)
        else
          let? (e, nodes, ctx) := c_item f ((kt [Rule (s_ "rep_or_neg") k] ++ kt [Rule (s_ "and") kq]) ++ FEnd (s_ "and") :: rest) ctx in
          let acc := eov_ipush acc e in
          let? next_node := ast_ (fpeek_first_node nodes) in
          match next_node with
          | FBegin n => if str_eqb n (s_ "and") then rec_consume_and f' (c_item f) (consume_error f) acc nodes ctx
                        else Ok (acc, nodes, ctx)
          | _ => Ok (acc, nodes, ctx)
          end) = T).
    { intros T ->. rewrite <- app_assoc. rewrite peek_rule by reflexivity. ev. change (str_eqb (s_ "error") (s_ "rep_or_neg")) with false. cbv iota.
      rewrite IH. ev. rewrite peek_rule by reflexivity. ev. change (str_eqb (s_ "and") (s_ "and")) with true. reflexivity. }
    destruct o as [es|]; cbn [option_map].
    + apply consuming_ok. apply St. symmetry. exact IH2.
    + destruct IH2 as [e E]. eexists. apply consuming_err. apply St. symmetry. exact E.
  - (* extra *) intros x d k1 k2 y o k3 k4 k5 l H IH H2 IH2 f f' F F' acc rest ctx. pose proof F' as F2. rewrite inner_bound in F, F2 by reflexivity. unfold tl in F, F2. destruct f' as [|f']; [lia|].
    cbn [rec_consume_and]. destruct (item_name x _ H) as [k ->]. destruct (seq_name y o H2) as [kq ->].
    assert (K : kt (Rule (s_ "rep_or_neg") k :: b1_node k1 :: b_node k2 :: Rule (s_ "and") kq :: b1_node k3 :: b_node k4 :: Rule (s_ "and") k5 :: l)
      = kt [Rule (s_ "rep_or_neg") k] ++ kt [Rule (s_ "and") kq] ++ kt [Rule (s_ "and") k5] ++ kt l).
    { rewrite kt_cons. unfold b1_node, b_node. rewrite (kt_blank (s_ "_1")) by reflexivity. rewrite (kt_blank (s_ "_")) by reflexivity.
      rewrite (kt_cons (s_ "and") kq). rewrite (kt_blank (s_ "_1")) by reflexivity. rewrite (kt_blank (s_ "_")) by reflexivity. rewrite (kt_cons (s_ "and") k5). reflexivity. }
    rewrite K in F, F2. rewrite !app_length in F, F2.
    specialize (IH f ltac:(unfold tn; lia) (kt [Rule (s_ "and") kq] ++ (kt [Rule (s_ "and") k5] ++ kt l) ++ FEnd (s_ "and") :: rest) ctx). cbn iota in IH.
    specialize (IH2 f f' ltac:(unfold tn; lia) ltac:(unfold tn; lia) (eov_ipush acc d) ((kt [Rule (s_ "and") k5] ++ kt l) ++ FEnd (s_ "and") :: rest) ctx).
    rewrite kt_head by reflexivity. rewrite K.
    assert (St : forall T, T = rec_consume_and f' (c_item f) (consume_error f) (eov_ipush acc d) (kt [Rule (s_ "and") kq] ++ (kt [Rule (s_ "and") k5] ++ kt l) ++ FEnd (s_ "and") :: rest) ctx ->
      (let? nd := ast_ (fpeek_first_node ((kt [Rule (s_ "rep_or_neg") k] ++ kt [Rule (s_ "and") kq] ++ kt [Rule (s_ "and") k5] ++ kt l) ++ FEnd (s_ "and") :: rest)) in
        let? nm := ast_ (fget_nodename nd) in
        if str_eqb (s_ "error") nm then
          let? (e, nodes, ctx) := consume_error f ((kt [Rule (s_ "rep_or_neg") k] ++ kt [Rule (s_ "and") kq] ++ kt [Rule (s_ "and") k5] ++ kt l) ++ FEnd (s_ "and") :: rest) ctx in
          Ok (eov_ipush acc e, nodes, ctx)
        else
          let? (e, nodes, ctx) := c_item f ((kt [Rule (s_ "rep_or_neg") k] ++ kt [Rule (s_ "and") kq] ++ kt [Rule (s_ "and") k5] ++ kt l) ++ FEnd (s_ "and") :: rest) ctx in
          let acc := eov_ipush acc e in
          let? next_node := ast_ (fpeek_first_node nodes) in
          match next_node with
          | FBegin n => if str_eqb n (s_ "and") then rec_consume_and f' (c_item f) (consume_error f) acc nodes ctx
                        else Ok (acc, nodes, ctx)
          | _ => Ok (acc, nodes, ctx)
          end) = T).
    { intros T ->. rewrite <- app_assoc. rewrite peek_rule by reflexivity. ev. change (str_eqb (s_ "error") (s_ "rep_or_neg")) with false. cbv iota.
      rewrite <- app_assoc. rewrite IH. ev. rewrite peek_rule by reflexivity. ev. change (str_eqb (s_ "and") (s_ "and")) with true. reflexivity. }
    destruct o as [es|].
    + rewrite <- (app_assoc (kt [Rule (s_ "and") k5])) in IH2. rewrite (kt_head (s_ "and") k5) in IH2 by reflexivity.
      eapply consuming_extra. rewrite <- (app_assoc (kt [Rule (s_ "and") k5])) in St. rewrite (kt_head (s_ "and") k5) in St by reflexivity.
      apply St. symmetry. exact IH2.
    + destruct IH2 as [e E]. eexists. apply consuming_err. apply St. symmetry. exact E.
  - (* one *) intros x o H IH f f' F F' acc rest ctx. pose proof F' as F2. rewrite inner_bound in F, F2 by reflexivity. unfold tl in F. destruct f' as [|f']; [lia|].
    cbn [rec_consume_or]. specialize (IH f f ltac:(unfold tn; lia) ltac:(unfold tn; lia)).
    pose proof (consume_and_of x o f _ _ H IH (FEnd (s_ "or") :: rest) ctx) as X.
    destruct (seq_name x o H) as [k ->]. rewrite kt_head by reflexivity. destruct o as [v|]; cbn [option_map] in *.
    + apply consuming_ok. rewrite X. reflexivity.
    + destruct X as [e E]. eexists. apply consuming_err. rewrite E. reflexivity.
  - (* bad *) intros x l H IH f f' F F' acc rest ctx. pose proof F' as F2. rewrite inner_bound in F, F2 by reflexivity. unfold tl in F. destruct f' as [|f']; [lia|].
    cbn [rec_consume_or]. destruct (seq_name x None H) as [k ->]. rewrite kt_cons in F. rewrite app_length in F.
    specialize (IH f f ltac:(unfold tn; lia) ltac:(unfold tn; lia)).
    destruct (consume_and_of _ _ f _ _ H IH (kt l ++ FEnd (s_ "or") :: rest) ctx) as [e E]. rewrite kt_head by reflexivity.
    eexists. apply consuming_err. rewrite kt_cons, <- app_assoc. rewrite E. reflexivity.
  - (* more *) intros x es k1 k2 y o H IH H2 IH2 f f' F F' acc rest ctx. pose proof F' as F2. rewrite inner_bound in F, F2 by reflexivity. unfold tl in F, F2. destruct f' as [|f']; [lia|].
    cbn [rec_consume_or]. destruct (seq_name x _ H) as [k ->]. destruct (choice_name y o H2) as [kq ->].
    assert (K : kt [Rule (s_ "and") k; b_node k1; Val (s_ "/"); b_node k2; Rule (s_ "or") kq] = kt [Rule (s_ "and") k] ++ FVal (s_ "/") :: kt [Rule (s_ "or") kq]).
    { rewrite kt_cons. unfold b_node. rewrite (kt_blank (s_ "_")) by reflexivity. rewrite kt_val by (auto with nv). rewrite (kt_blank (s_ "_")) by reflexivity. reflexivity. }
    rewrite K in F, F2. rewrite app_length in F, F2. cbn [length] in F, F2.
    specialize (IH f f ltac:(unfold tn; lia) ltac:(unfold tn; lia)).
    pose proof (consume_and_of _ _ f _ _ H IH (FVal (s_ "/") :: kt [Rule (s_ "or") kq] ++ FEnd (s_ "or") :: rest) ctx) as X. cbn [option_map] in X.
    specialize (IH2 f f' ltac:(unfold tn; lia) ltac:(unfold tn; lia) (eov_ipush acc (seq_of es)) (FEnd (s_ "or") :: rest) ctx).
    rewrite kt_head by reflexivity. rewrite K.
    destruct o as [xs|]; cbn [option_map].
    + apply consuming_ok. rewrite <- app_assoc. cbn [app]. rewrite X. ev. rewrite this_ok. ev. exact IH2.
    + destruct IH2 as [e E]. eexists. apply consuming_err. rewrite <- app_assoc. cbn [app]. rewrite X. ev. rewrite this_ok. ev. exact E.
  - (* expr *) intros x o H IH f F. rewrite inner_bound in F by reflexivity. unfold tl in F. destruct f as [|f]; [lia|].
    specialize (IH f f ltac:(unfold tn; lia) ltac:(unfold tn; lia)). intros rest ctx. cbn [consume_peg_expr].
    apply (eats_rule expr (s_ "expr") [x] (consume_or f (consume_and f (c_item f) (consume_error f)))); [reflexivity|].
    intros rest' ctx'. exact (consume_or_of x o f _ H IH (FEnd (s_ "expr") :: rest') ctx').
Qed.

(** ** Grammars *)

(** The rule set built from a list of definitions. *)
Fixpoint rules_of (rs : rules) (d : def) : rules :=
  match d with
  | Def n e => rules_add rs n e
  | Mod _ l => rules_merge rs (fold_left (fun r x => rules_of r x) l rules_new)
  end.

Definition built (l : list def) : rules := fold_left rules_of l rules_new.

Lemma eats_rule_def : forall x n y o k1 k2 k3 k4 k5 f, t_name x n -> t_expr y o ->
  let nd := Rule (s_ "rule") [b_node k1; x; b_node k2; Val (s_ "="); b_node k3; y; be_node k4; b_node k5] in
  tn nd <= f -> eats (consume_rule f) (kt [nd]) (option_map (fun e => (n, e)) o).
Proof.
  intros x n y o k1 k2 k3 k4 k5 f H1 H2 nd F. subst nd. rewrite inner_bound in F by reflexivity. unfold tl in F.
  destruct (name_name x n H1) as [kx ->]. destruct (expr_name y o H2) as [ky ->].
  assert (K : kt [b_node k1; Rule (s_ "rule_name") kx; b_node k2; Val (s_ "="); b_node k3; Rule (s_ "expr") ky; be_node k4; b_node k5] =
    kt [Rule (s_ "rule_name") kx] ++ FVal (s_ "=") :: kt [Rule (s_ "expr") ky]).
  { unfold b_node, be_node. rewrite (kt_blank (s_ "_")) by reflexivity. rewrite kt_cons. rewrite (kt_blank (s_ "_")) by reflexivity.
    rewrite kt_val by (auto with nv). rewrite (kt_blank (s_ "_")) by reflexivity. rewrite (kt_cons (s_ "expr")).
    rewrite (kt_blank (s_ "_eol")) by reflexivity. rewrite (kt_blank (s_ "_")) by reflexivity. rewrite kt_nil, app_nil_r. reflexivity. }
  rewrite K in F. rewrite app_length in F. cbn [length] in F.
  unfold consume_rule. apply eats_rule; [reflexivity|]. intros rest ctx. rewrite K, <- app_assoc.
  rewrite (eats_name _ _ H1) by (unfold tn; lia). ev. rewrite this_ok. ev.
  pose proof (proj2 (proj2 (proj2 (proj2 eats_exprs))) _ _ H2 f ltac:(unfold tn; lia) (FEnd (s_ "rule") :: rest) ctx) as E.
  destruct o as [e|]; cbn [option_map]; [rewrite E; reflexivity|destruct E as [e ->]; eexists; reflexivity].
Qed.

Lemma grammar_name : forall x o, t_grammar x o -> exists k, x = Rule (s_ "grammar") k.
Proof. intros x o H. inversion H; subst; eauto. Qed.
Lemma def_name : forall x o, t_def x o -> exists n k, x = Rule n k /\ name_in peg_blanks n = false.
Proof. intros x o H. inversion H; subst; do 2 eexists; split; reflexivity. Qed.

Lemma remove_added : forall ctx m, remove_module (add_module ctx m) m = Ok ctx.
Proof.
  intros ctx m. unfold add_module. destruct (rev ctx) as [|p r].
  - unfold remove_module. rewrite removelast_last. destruct ctx; reflexivity.
  - unfold remove_module. rewrite removelast_last. destruct ctx; reflexivity.
Qed.

Lemma eats_mod_name : forall x m, t_sym x m -> eats consume_mod_name (kt [Rule (s_ "mod_name") [x]]) (Some m).
Proof.
  intros x m H. unfold consume_mod_name. apply eats_rule; [reflexivity|]. intros rest ctx. exact (eats_symbol x m H _ ctx).
Qed.

Lemma eats_module_def : forall x m y o k1 k2 k3 k4 k5 k6 f, t_sym x m -> t_grammar y o ->
  let nd := Rule (s_ "module") [b_node k1; Rule (s_ "mod_name") [x]; b_node k2; Val (s_ "{"); b_node k3; y; b_node k4;
      Val (s_ "}"); be_node k5; b_node k6] in
  (tn y < tn nd -> eats (consume_grammar f) (kt [y]) (option_map built o)) ->
  eats (consume_module (consume_grammar f)) (kt [nd]) (option_map built o).
Proof.
  intros x m y o k1 k2 k3 k4 k5 k6 f H1 H2 nd IH. unfold nd in *. rewrite inner_bound in IH by reflexivity. unfold tl, tn in IH.
  destruct (grammar_name y o H2) as [ky ->].
  assert (K : kt [b_node k1; Rule (s_ "mod_name") [x]; b_node k2; Val (s_ "{"); b_node k3; Rule (s_ "grammar") ky; b_node k4;
      Val (s_ "}"); be_node k5; b_node k6] =
    kt [Rule (s_ "mod_name") [x]] ++ FVal (s_ "{") :: kt [Rule (s_ "grammar") ky] ++ [FVal (s_ "}")]).
  { unfold b_node, be_node. rewrite (kt_blank (s_ "_")) by reflexivity. rewrite kt_cons. rewrite (kt_blank (s_ "_")) by reflexivity.
    rewrite kt_val by (auto with nv). rewrite (kt_blank (s_ "_")) by reflexivity. rewrite (kt_cons (s_ "grammar")).
    rewrite (kt_blank (s_ "_")) by reflexivity. rewrite kt_val by (auto with nv).
    rewrite (kt_blank (s_ "_eol")) by reflexivity. rewrite (kt_blank (s_ "_")) by reflexivity. rewrite kt_nil. reflexivity. }
  rewrite K in IH. rewrite app_length in IH. cbn [length] in IH. rewrite app_length in IH. cbn [length] in IH. specialize (IH ltac:(lia)).
  unfold consume_module. apply eats_rule; [reflexivity|]. intros rest ctx. rewrite K, <- app_assoc.
  rewrite (eats_mod_name _ _ H1). ev. rewrite this_ok. ev. rewrite <- app_assoc.
  specialize (IH ([FVal (s_ "}")] ++ FEnd (s_ "module") :: rest) (add_module ctx m)).
  destruct o as [l|]; cbn [option_map] in *.
  - rewrite IH. ev. rewrite this_ok. ev. rewrite remove_added. reflexivity.
  - destruct IH as [e ->]. eexists. reflexivity.
Qed.

Definition c_defs (f f' : nat) := rec_consume_rules_or_modules f' (consume_rule f) (consume_module (consume_grammar f)).

Theorem eats_grammars :
  (forall x o, t_def x o -> forall f f' rs rest ctx, tn x <= f ->
     match o with
     | Some d => c_defs f (S f') rs (kt [x] ++ rest) ctx = c_defs f f' (rules_of rs d) rest ctx
     | None => exists e, c_defs f (S f') rs (kt [x] ++ rest) ctx = Err e
     end) /\
  (forall l o, t_defs l o -> forall f f' rs nm rest ctx, tl l <= f -> tl l < f' ->
     match o with
     | Some ds => c_defs f f' rs (kt l ++ FEnd nm :: rest) ctx = Ok (fold_left rules_of ds rs, FEnd nm :: rest, ctx)
     | None => exists e, c_defs f f' rs (kt l ++ FEnd nm :: rest) ctx = Err e
     end) /\
  (forall x o, t_grammar x o -> forall f, tn x <= f -> eats (consume_grammar f) (kt [x]) (option_map built o)).
Proof.
  apply t_grammar_ind3.
  - intros k1 x n k2 k3 y o k4 k5 H1 H2 f f' rs rest ctx F.
    pose proof (eats_rule_def x n y o k1 k2 k3 k4 k5 f H1 H2 F rest ctx) as E. unfold c_defs. cbn [rec_consume_rules_or_modules].
    rewrite peek_rule by reflexivity. ev. change (str_eqb (s_ "rule") (s_ "rule")) with true. cbv iota.
    destruct o as [e|]; cbn [option_map] in *; [rewrite E; reflexivity|destruct E as [e E]; rewrite E; eexists; reflexivity].
  - intros k1 x m k2 k3 y o k4 k5 k6 H1 H2 IH f f' rs rest ctx F.
    pose proof (eats_module_def x m y o k1 k2 k3 k4 k5 k6 f H1 H2 ltac:(intro; apply IH; lia) rest ctx) as E. unfold c_defs. cbn [rec_consume_rules_or_modules].
    rewrite peek_rule by reflexivity. ev. change (str_eqb (s_ "module") (s_ "rule")) with false. change (str_eqb (s_ "module") (s_ "module")) with true. cbv iota.
    destruct o as [e|]; cbn [option_map] in *; [rewrite E; reflexivity|destruct E as [e E]; rewrite E; eexists; reflexivity].
  - intros f f' rs nm rest ctx F F'. destruct f' as [|f']; [lia|]. reflexivity.
  - intros x l H IH _ f f' rs nm rest ctx F F'. destruct f' as [|f']; [lia|]. destruct (def_name x None H) as (n & k & -> & N).
    unfold tl in F. rewrite kt_cons in F |- *. rewrite app_length in F. rewrite <- app_assoc. apply IH. unfold tn. lia.
  - intros x d l o H IH H2 IH2 f f' rs nm rest ctx F F'. destruct f' as [|f']; [lia|]. destruct (def_name x _ H) as (n & k & -> & N).
    unfold tl in F, F'. rewrite kt_cons in F, F' |- *. rewrite app_length in F, F'.
    pose proof (inner_bound n k N) as L. unfold tn in L.
    specialize (IH f f' rs (kt l ++ FEnd nm :: rest) ctx ltac:(unfold tn; lia)). cbn iota in IH.
    specialize (IH2 f f' (rules_of rs d) nm rest ctx ltac:(unfold tl; lia) ltac:(unfold tl; lia)). rewrite <- app_assoc, IH.
    destruct o as [ds|]; exact IH2.
  - intros l o H IH f F. rewrite inner_bound in F by reflexivity. destruct f as [|f]; [lia|]. intros rest ctx. cbn [consume_grammar].
    apply (eats_rule rules (s_ "grammar") l (c_defs f f rules_new)); [reflexivity|].
    intros rest' ctx'. specialize (IH f f rules_new (s_ "grammar") rest' ctx' ltac:(lia) ltac:(lia)).
    destruct o as [ds|]; cbn [option_map]; exact IH.
Qed.

Theorem eats_main : forall x o f, t_grammar x o -> tn (Rule (s_ "main") [x]) <= f ->
  match o with
  | Some l => rules_from_flat_ast f (flatten (prune peg_blanks (compact (Rule (s_ "main") [x])))) = Ok (built l)
  | None => exists e, rules_from_flat_ast f (flatten (prune peg_blanks (compact (Rule (s_ "main") [x])))) =
                      Err (err_ipush e (s_ "consuming main"))
  end.
Proof.
  intros x o f H F. rewrite inner_bound in F by reflexivity.
  assert (K : flatten (prune peg_blanks (compact (Rule (s_ "main") [x]))) = kt [Rule (s_ "main") [x]]).
  { rewrite compact_rule. rewrite prune_unfold. rewrite flatten_rule. rewrite kt_rule by reflexivity. reflexivity. }
  rewrite K. unfold rules_from_flat_ast.
  pose proof (proj2 (proj2 eats_grammars) x o H f ltac:(unfold tl, tn in *; lia)) as E.
  assert (X : eats (consume_main f) (kt [Rule (s_ "main") [x]]) (option_map built o)).
  { unfold consume_main. apply eats_rule; [reflexivity|]. intros rest ctx. exact (E _ ctx). }
  specialize (X [] context_new). rewrite app_nil_r in X. destruct o as [l|]; cbn [option_map] in X; [rewrite X; reflexivity|].
  destruct X as [e X]. rewrite X. unfold consume_main, consuming_rule, push_err in X.
  destruct (bind _ _) as [y|e0| |]; cbn [map_err] in X; try discriminate. injection X as <-. exists e0. reflexivity.
Qed.

(** The bindings of the rule set. *)
Lemma define_get : forall d env rs, unique_names rs -> (forall k, rules_get rs k = env k) ->
  unique_names (rules_of rs d) /\ forall k, rules_get (rules_of rs d) k = define env d k.
Proof.
  fix IH 1. intros [n e|m l] env rs U E.
  - cbn [rules_of define]. destruct (add_laws rs n e) as (A1 & A2 & A3). split; [apply A3; exact U|].
    intro k. destruct (str_eqb n k) eqn:Q.
    + apply str_eqb_eq in Q. subst. exact A1.
    + rewrite A2; [apply E|]. intros ->. rewrite str_eqb_refl in Q. discriminate.
  - cbn [rules_of define].
    assert (L : forall l env rs, unique_names rs -> (forall k, rules_get rs k = env k) ->
      unique_names (fold_left (fun r x => rules_of r x) l rs) /\
      forall k, rules_get (fold_left (fun r x => rules_of r x) l rs) k = fold_left (fun en x => define en x) l env k).
    { clear - IH. induction l as [|d l IHl]; intros env rs U E; cbn [fold_left]; [split; assumption|].
      destruct (IH d env rs U E) as [U' E']. apply IHl; assumption. }
    destruct (L l (fun _ => None) rules_new) as [U2 E2]; [constructor|reflexivity|].
    destruct (merge_laws rs _ U U2) as [M1 M2]. split; [exact M2|]. intro k. rewrite M1, E, E2. reflexivity.
Qed.

Lemma built_get : forall l, unique_names (built l) /\ forall k, rules_get (built l) k = bindings l k.
Proof.
  assert (L : forall l env rs, unique_names rs -> (forall k, rules_get rs k = env k) ->
      unique_names (fold_left rules_of l rs) /\
      forall k, rules_get (fold_left rules_of l rs) k = fold_left define l env k).
  { induction l as [|d l IHl]; intros env rs U E; cbn [fold_left]; [split; assumption|].
    destruct (define_get d env rs U E) as [U' E']. apply IHl; assumption. }
  intro l. apply L; [constructor|reflexivity].
Qed.
