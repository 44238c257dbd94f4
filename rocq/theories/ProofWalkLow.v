(** Reading a grammar text nests at least as deep as its definitions are many, and linearly deep at most. *)
From Verif Require Import Base ModelAst ModelParser ModelPegRules ModelPeg ModelWalk SpecPeg SpecPos SpecSyntax SpecWf SpecCost.
From Verif Require Import ProofAst ProofEngine ProofApi ProofConsume ProofPegBuild ProofPegApi ProofTreeSize ProofPegMono ProofWalk ProofReadLow.

Lemma def_eats : forall x d f, t_def x (Some d) -> tn x <= f ->
  (exists k n e, x = Rule (s_ "rule") k /\ d = Def n e /\ eats (consume_rule f) (kt [x]) (Some (n, e))) \/
  (exists k m l, x = Rule (s_ "module") k /\ d = Mod m l /\ eats (consume_module (consume_grammar f)) (kt [x]) (Some (built l))).
Proof.
  intros x d f T. remember (Some d) as od eqn:E. revert E. destruct T as [k1 y m k2 k3 z o k4 k5 H1 H2|k1 y m k2 k3 z o k4 k5 k6 H1 H2]; intros E F.
  - left. destruct o as [e|]; [|discriminate]. injection E as <-. do 3 eexists. split; [reflexivity|]. split; [reflexivity|].
    exact (eats_rule_def y m z (Some e) k1 k2 k3 k4 k5 f H1 H2 F).
  - right. destruct o as [l|]; [|discriminate]. injection E as <-. do 3 eexists. split; [reflexivity|]. split; [reflexivity|].
    apply (eats_module_def y m z (Some l) k1 k2 k3 k4 k5 k6 f H1 H2). intro L. apply (proj2 (proj2 eats_grammars) z (Some l) H2). lia.
Qed.

Section Low.
Variable op : nat -> nat -> nat.
Variable OP : forall a b, a <= op a b /\ b <= op a b.

Lemma low_bind : forall A B (m : walk A) (k : A -> walk B) a, fst m = Ok a ->
  snd m <= snd (w_bind op m k) /\ snd (k a) <= snd (w_bind op m k).
Proof. intros A B m k a E. unfold w_bind. rewrite E. cbn [snd]. apply OP. Qed.

Lemma fst_bind : forall A B (m : walk A) (k : A -> walk B) a, fst m = Ok a -> fst (w_bind op m k) = fst (k a).
Proof. intros A B m k a E. unfold w_bind. rewrite E. reflexivity. Qed.

Lemma low_rule : forall A n (w : walker A) r ctx,
  snd (w r ctx) < snd (w_consuming_rule op n (FBegin n :: r) ctx w).
Proof.
  intros A n w r ctx. unfold w_consuming_rule, called, w_push_err. cbn [snd]. apply Nat.lt_succ_r.
  assert (E : fst (free_ast (fconsume_node_start_rule_name n (FBegin n :: r))) = Ok r).
  { unfold free_ast, free. cbn [fst]. unfold ast_. rewrite begin_ok. reflexivity. }
  etransitivity; [|apply (low_bind _ _ _ _ r E)]. cbv beta. unfold w_bind. destruct (fst (w r ctx)) as [[[v l] c]|e| |]; cbn [snd]; try lia. apply OP.
Qed.

Definition w_defs (f f' : nat) := w_rec_consume_rules_or_modules op f' (w_consume_rule op f) (w_consume_module op (w_consume_grammar op f)).

Lemma low_step : forall x d, t_def x (Some d) -> forall f f' rs rest ctx, tn x <= f ->
  snd (w_defs f f' (rules_of rs d) rest ctx) < snd (w_defs f (S f') rs (kt [x] ++ rest) ctx).
Proof.
  intros x d T f f' rs rest ctx F. unfold w_defs at 2. cbn [w_rec_consume_rules_or_modules]. unfold called. cbn [snd]. apply Nat.lt_succ_r.
  destruct (def_eats x d f T F) as [(k & n & e & X & -> & E)|(k & m & l & X & -> & E)].
  - assert (P : fst (free_ast (fpeek_first_node (kt [x] ++ rest))) = Ok (FBegin (s_ "rule"))).
    { rewrite X. unfold free_ast, free. cbn [fst]. unfold ast_. rewrite peek_rule by reflexivity. reflexivity. }
    etransitivity; [|apply (low_bind _ _ _ _ _ P)]. cbv beta iota.
    change (str_eqb (s_ "rule") (s_ "rule")) with true. cbv iota.
    etransitivity; [|apply (low_bind _ _ _ _ (rules_add rs n e, rest, ctx))]; [cbv beta iota; apply le_n|].
    rewrite (fst_bind _ _ _ _ (n, e, rest, ctx)); [reflexivity|]. rewrite (e_rule op f). exact (E rest ctx).
  - assert (P : fst (free_ast (fpeek_first_node (kt [x] ++ rest))) = Ok (FBegin (s_ "module"))).
    { rewrite X. unfold free_ast, free. cbn [fst]. unfold ast_. rewrite peek_rule by reflexivity. reflexivity. }
    etransitivity; [|apply (low_bind _ _ _ _ _ P)]. cbv beta iota.
    change (str_eqb (s_ "module") (s_ "rule")) with false. change (str_eqb (s_ "module") (s_ "module")) with true. cbv iota.
    etransitivity; [|apply (low_bind _ _ _ _ (rules_merge rs (built l), rest, ctx))]; [cbv beta iota; apply le_n|].
    rewrite (fst_bind _ _ _ _ (built l, rest, ctx)); [reflexivity|]. rewrite (e_module op _ _ (e_grammar op f)). exact (E rest ctx).
Qed.

Lemma low_defs : forall l ds, t_defs l (Some ds) -> forall f f' rs rest ctx, tl l <= f -> tl l < f' ->
  length ds < snd (w_defs f f' rs (kt l ++ rest) ctx).
Proof.
  induction l as [|x l IH]; intros ds T f f' rs rest ctx F F'.
  - inversion T; subst. destruct f' as [|f']; [lia|]. unfold w_defs. cbn [w_rec_consume_rules_or_modules]. unfold called. cbn [snd length]. lia.
  - inversion T as [| |y d l' o H1 H2 EL EO]; subst. destruct o as [ds'|]; [|discriminate]. injection EO as <-.
    destruct (def_name x _ H1) as (n & k & -> & N). unfold tl in F, F'. rewrite kt_cons in F, F' |- *. rewrite app_length in F, F'.
    pose proof (inner_bound n k N) as L. unfold tn in L. destruct f' as [|f']; [lia|]. rewrite <- app_assoc.
    pose proof (low_step _ _ H1 f f' rs (kt l ++ rest) ctx ltac:(unfold tn; lia)) as S1.
    pose proof (IH ds' H2 f f' (rules_of rs d) rest ctx ltac:(unfold tl; lia) ltac:(unfold tl; lia)) as S2. cbn [length]. lia.
Qed.

Lemma low_main : forall x ds f, t_grammar x (Some ds) -> tn (Rule (s_ "main") [x]) <= f ->
  length ds + 2 < snd (w_rules_from_flat_ast op f (flatten (prune peg_blanks (compact (Rule (s_ "main") [x]))))).
Proof.
  intros x ds f T F. rewrite inner_bound in F by reflexivity.
  assert (K : flatten (prune peg_blanks (compact (Rule (s_ "main") [x]))) = kt [Rule (s_ "main") [x]]).
  { rewrite compact_rule. rewrite prune_unfold. rewrite flatten_rule. rewrite kt_rule by reflexivity. reflexivity. }
  rewrite K. unfold w_rules_from_flat_ast. rewrite kt_rule by reflexivity.
  inversion T as [l o H EX EO]; subst.
  assert (M : length ds + 2 < snd (w_consume_main op f (FBegin (s_ "main") :: kt [Rule (s_ "grammar") l] ++ FEnd (s_ "main") :: kt []) context_new)).
  { unfold w_consume_main. eapply Nat.le_lt_trans; [|apply low_rule]. cbv beta. destruct f as [|f]; [unfold tl in F; lia|].
    cbn [w_consume_grammar]. rewrite kt_rule by reflexivity. cbn [app].
    eapply Nat.le_trans; [|apply low_rule]. cbv beta. rewrite <- app_assoc.
    unfold tl in F. rewrite kt_rule in F by reflexivity. cbn [length] in F. rewrite app_length in F. cbn [length] in F.
    pose proof (low_defs l ds H f f rules_new ((FEnd (s_ "grammar") :: kt []) ++ FEnd (s_ "main") :: kt []) context_new ltac:(unfold tl; lia) ltac:(unfold tl; lia)) as D.
    unfold w_defs in D. lia. }
  unfold w_bind. destruct (fst (w_consume_main _ _ _ _)) as [[[v r] c]|e| |]; cbn [snd]; try exact M.
  eapply Nat.lt_le_trans; [exact M|apply OP].
Qed.
End Low.

Lemma max_up : forall a b, Nat.max a b <= a + b. Proof. intros; lia. Qed.
Lemma add_up : forall a b, a + b <= a + b. Proof. intros; lia. Qed.
Lemma max_low : forall a b, a <= Nat.max a b /\ b <= Nat.max a b. Proof. intros; lia. Qed.

Lemma nesting_low : forall s l, ascii s -> grammar_text s l ->
  exists f0, forall fuel, f0 <= fuel -> length l + 2 < read_nesting fuel s.
Proof.
  intros s l As GT. destruct (rules_from_peg_total s) as (f0 & r & N & F & C).
  destruct r as [rs|e| |]; [|exfalso; apply C; eauto|contradiction|contradiction].
  destruct (main_build s l GT) as (y & D & TY). exists (f0 + tn (Rule (s_ "main") [y])). intros fuel L.
  specialize (F fuel ltac:(lia)). unfold rules_from_peg in F. unfold read_nesting, read_tally.
  destruct (parse fuel s parse_peg) as [ast| | |] eqn:P; try discriminate.
  pose proof (parse_sound fuel s parse_peg false parse_peg_sane) as S. unfold parse in P. rewrite P in S.
  destruct S as [_ S]. pose proof (peg_det _ _ _ _ D _ S) as Q. injection Q as <-.
  apply (low_main Nat.max max_low y l fuel TY). lia.
Qed.

(** ** Compacting and pruning never add nodes *)

Lemma compact_count : forall nd, node_count (compact nd) <= node_count nd.
Proof.
  fix IH 1. intros [v|n l|]; [cbn; lia| |cbn; lia]. rewrite compact_rule. cbn [node_count].
  enough (H : forall acc, count (compact_loop acc l) <= count acc + count l) by (specialize (H []); unfold count in H; cbn [fold_right] in H; lia).
  induction l as [|x l IHl]; intro acc; cbn [compact_loop]; [lia|]. etransitivity; [apply IHl|].
  assert (C : forall a b, count (a ++ b) = count a + count b).
  { unfold count. induction a as [|y a IHa]; intro b; cbn [app fold_right]; [reflexivity|]. rewrite IHa. lia. }
  enough (count (concat_nodes compact acc x) <= count acc + node_count x) by (unfold count in *; cbn [fold_right]; lia).
  pose proof (IH x) as X. clear IH IHl. unfold concat_nodes. destruct x as [v|m k|].
  - destruct (last_val acc) as [pv|] eqn:E.
    + assert (acc <> []) by (intros ->; discriminate). rewrite (app_removelast_last (Val []) H) at 2. rewrite !C. cbn [count fold_right node_count].
      destruct (last acc (Val [])); cbn [node_count]; lia.
    + rewrite C. cbn [count fold_right node_count]. lia.
  - rewrite C. unfold count at 2. cbn [fold_right]. lia.
  - rewrite C. cbn [count fold_right node_count]. lia.
Qed.

Lemma prune_count : forall names nd, node_count (prune names nd) <= node_count nd.
Proof.
  intro names. fix IH 1. intros [v|n l|]; [cbn; lia| |cbn; lia]. rewrite prune_unfold. cbn [node_count]. apply le_n_S.
  induction l as [|x l IHl]; unfold prune_list; cbn [flat_map]; [cbn; lia|]. fold (prune_list names l).
  specialize (IH x). destruct (node2prune names x); cbn [app fold_right]; lia.
Qed.

Lemma read_linear : forall op, (forall a b, op a b <= a + b) ->
  exists c, forall fuel s, read_tally op fuel s <= c * (length s + 1).
Proof.
  intros op OP. destruct parse_peg_wf as [NLR NEL]. pose proof (tree_size parse_peg NLR NEL) as T.
  match type of T with forall fuel s d ast, _ -> _ <= ?c * _ => exists (20 * c + 2) end.
  intros fuel s. unfold read_tally. destruct (parse fuel s parse_peg) as [ast| | |] eqn:P; try lia.
  specialize (T fuel s false ast P). pose proof (walk_linear op OP fuel (flatten (prune peg_blanks (compact ast)))).
  pose proof (flatten_count (prune peg_blanks (compact ast))). pose proof (prune_count peg_blanks (compact ast)). pose proof (compact_count ast).
  match type of T with _ <= ?c * _ => set (C := c) in * end. rewrite Nat.mul_add_distr_r. nia.
Qed.

(** ** A grammar text of [n + 1] lines [m=a] *)

Fixpoint lines (n : nat) : str := match n with 0 => wide_text 0 | S m => wide_text 0 ++ lines m end.

Lemma line_def : def_text (wide_text 0) (Def (s_ "m") (RuleName (s_ "a"))).
Proof.
  change (wide_text 0) with (s_ "m" ++ [] ++ s_ "=" ++ [] ++ s_ "a" ++ trail 0 ++ []).
  apply df_rule; [left; apply dt_one; exact m_symbol|constructor|constructor|exact (elems_expr 0)|apply trail_end|constructor].
Qed.

Lemma lines_defs : forall n, defs_text (lines n) (repeat (Def (s_ "m") (RuleName (s_ "a"))) (S n)).
Proof. induction n as [|n IH]; [apply ds_one, line_def|]. apply ds_more; [exact line_def|exact IH]. Qed.

Lemma lines_grammar : forall n, grammar_text (lines n) (repeat (Def (s_ "m") (RuleName (s_ "a"))) (S n)).
Proof. intro n. exists [], (lines n). split; [constructor|]. split; [apply lines_defs|reflexivity]. Qed.

Lemma lines_ascii : forall n, ascii (lines n).
Proof. induction n as [|n IH]; [apply wide_ascii|]. apply Forall_app. split; [apply wide_ascii|exact IH]. Qed.

Lemma lines_length : forall n, length (lines n) = 4 * n + 4.
Proof. induction n as [|n IH]; [reflexivity|]. cbn [lines]. rewrite app_length, IH, wide_length. lia. Qed.
