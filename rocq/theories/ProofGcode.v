(** Generated code reads back (C33). *)
From Verif Require Import Base ModelAst ModelParser ModelGcode SpecRust SpecAst ProofParser ProofEngine ProofAst.
From Coq Require Import Permutation.

(* ---- the lexer --------------------------------------------------------------------------- *)

Lemma emit_emit : forall A a b (x : option (list tok * A)), emit a (emit b x) = emit (a ++ b) x.
Proof. intros A a b [[ts y]|]; cbn; [rewrite app_assoc|]; reflexivity. Qed.

Lemma emit_nil : forall A (x : option (list tok * A)), emit [] x = x.
Proof. intros A [[ts y]|]; reflexivity. Qed.

Lemma run_app : forall a b st ts st', run st a = Some (ts, st') -> run st (a ++ b) = emit ts (run st' b).
Proof.
  induction a as [|c a IH]; intros b st ts st' H; cbn [run app] in *.
  - injection H as <- <-. rewrite emit_nil. reflexivity.
  - destruct (step st c) as [[t1 s1]|]; [|discriminate]. destruct (run s1 a) as [[t2 s2]|] eqn:E; [|discriminate].
    cbn in H. injection H as <- <-. rewrite (IH b s1 t2 s2 E), emit_emit. reflexivity.
Qed.

Lemma run_seq : forall a b st ts st' ts2 st2, run st a = Some (ts, st') -> run st' b = Some (ts2, st2) -> run st (a ++ b) = Some (ts ++ ts2, st2).
Proof. intros a b st ts st' ts2 st2 H1 H2. rewrite (run_app a b st ts st' H1), H2. reflexivity. Qed.

Lemma run_cons : forall c s st ts st', step st c = Some (ts, st') -> run st (c :: s) = emit ts (run st' s).
Proof. intros c s st ts st' H. cbn [run]. rewrite H. reflexivity. Qed.

(** Plain chars of a raw string. *)
Lemma run_raw : forall s acc, ~ In ch_cr s ->
  (forall pre post, s <> pre ++ [ch_dquote; 35%N] ++ post) ->
  run (LRaw acc) (s ++ [ch_dquote; 35%N]) = Some ([TStr (acc ++ s)], L0) /\
  ((forall t, s <> 35%N :: t) -> run (LRawQ acc) (s ++ [ch_dquote; 35%N]) = Some ([TStr (acc ++ [ch_dquote] ++ s)], L0)).
Proof.
  induction s as [|c s IH]; intros acc CR NH.
  - split; [cbn; rewrite app_nil_r; reflexivity|]. intros _. reflexivity.
  - assert (CR' : ~ In ch_cr s) by (intro X; apply CR; right; exact X).
    assert (NH' : forall pre post, s <> pre ++ [ch_dquote; 35%N] ++ post) by (intros pre post E; apply (NH (c :: pre) post); rewrite E; reflexivity).
    assert (C : (c =? ch_cr)%N = false) by (apply N.eqb_neq; intro X; apply CR; left; exact X).
    split.
    + cbn [app]. destruct (N.eqb_spec c ch_dquote) as [->|D].
      * rewrite (run_cons ch_dquote _ (LRaw acc) [] (LRawQ acc) eq_refl), emit_nil.
        rewrite (proj2 (IH acc CR' NH')); [reflexivity|]. intros t ->. exact (NH [] t eq_refl).
      * rewrite (run_cons _ _ _ [] (LRaw (acc ++ [c]))).
        2: { cbn [step]. rewrite C. apply N.eqb_neq in D. rewrite D. reflexivity. }
        rewrite emit_nil, (proj1 (IH (acc ++ [c]) CR' NH')), <- app_assoc. reflexivity.
    + intro HH. assert (H35 : (c =? 35)%N = false) by (apply N.eqb_neq; intros ->; exact (HH s eq_refl)).
      cbn [app]. destruct (N.eqb_spec c ch_dquote) as [->|D].
      * rewrite (run_cons ch_dquote _ (LRawQ acc) [] (LRawQ (acc ++ [ch_dquote])) eq_refl), emit_nil.
        rewrite (proj2 (IH (acc ++ [ch_dquote]) CR' NH')).
        2: { intros t ->. exact (NH [] t eq_refl). }
        rewrite <- app_assoc. reflexivity.
      * rewrite (run_cons _ _ _ [] (LRaw (acc ++ [ch_dquote; c]))).
        2: { cbn [step]. rewrite C, H35. apply N.eqb_neq in D. rewrite D. reflexivity. }
        rewrite emit_nil, (proj1 (IH (acc ++ [ch_dquote; c]) CR' NH')), <- app_assoc. reflexivity.
Qed.

Lemma run_raw_string : forall s, raw_ok s -> run L0 (s_ "r#""" ++ s ++ s_ """#") = Some ([TStr s], L0).
Proof.
  intros s [CR NH]. change (s_ """#") with [ch_dquote; 35%N].
  rewrite (run_app (s_ "r#""") _ L0 [] (LRaw []) eq_refl), emit_nil. exact (proj1 (run_raw s [] CR NH)).
Qed.

Lemma run_char : forall c, char_ok c -> run L0 ([ch_quote] ++ [c] ++ [ch_quote]) = Some ([TChar c], L0).
Proof.
  intros c H. unfold char_ok in H. cbn [In] in H.
  assert (E : forall d, In d [ch_quote; ch_bslash; ch_nl; ch_cr; ch_tab] -> (c =? d)%N = false).
  { intros d I. apply N.eqb_neq. intros ->. apply H. exact I. }
  cbn [app]. rewrite (run_cons ch_quote _ L0 [] LCh eq_refl), emit_nil. rewrite (run_cons _ _ _ [] (LChEnd c)).
  - rewrite emit_nil. reflexivity.
  - cbn [step]. rewrite (E ch_quote), (E ch_nl), (E ch_cr), (E ch_tab), (E ch_bslash) by (cbn; tauto). reflexivity.
Qed.

Lemma start_digit : forall d, d < 10 -> start (dec_digit d) = Some ([], LInt d).
Proof. intros d H. do 10 (destruct d as [|d]; [reflexivity|]). lia. Qed.

Lemma step_digit : forall k d, d < 10 -> step (LInt k) (dec_digit d) = Some ([], LInt (10 * k + d)).
Proof.
  intros k d H. cbn [step]. do 10 (destruct d as [|d]; [reflexivity|]). lia.
Qed.

Lemma run_dec_aux : forall f n acc, n < f -> run L0 (dec_aux f n acc) = run (LInt n) acc.
Proof.
  induction f as [|f IH]; intros n acc H; [lia|]. cbn [dec_aux]. pose proof (Nat.div_mod n 10 ltac:(lia)) as DM.
  pose proof (Nat.mod_upper_bound n 10 ltac:(lia)) as MB. destruct (Nat.eqb_spec (n / 10) 0) as [Z|Z].
  - rewrite (run_cons _ _ L0 [] (LInt (n mod 10)) (start_digit _ MB)), emit_nil. f_equal. f_equal. lia.
  - rewrite IH by (pose proof (Nat.div_lt n 10 ltac:(lia) ltac:(lia)); lia).
    rewrite (run_cons _ _ _ [] (LInt (10 * (n / 10) + n mod 10)) (step_digit _ _ MB)), emit_nil, <- DM. reflexivity.
Qed.

Lemma run_dec : forall n, run L0 (dec n) = Some ([], LInt n).
Proof. intro n. unfold dec. rewrite run_dec_aux by lia. reflexivity. Qed.

(* ---- string literals --------------------------------------------------------------------- *)

(** What [replace_esc] does to each char. *)
Definition esc1 (c : char) : str :=
  if (c =? ch_nl)%N then s_ "\n" else if (c =? ch_cr)%N then s_ "\r" else if (c =? ch_tab)%N then s_ "\t"
  else if (c =? ch_dquote)%N then [ch_bslash; ch_dquote] else [c].

Lemma replace_char_app : forall c t a b, replace_char c t (a ++ b) = replace_char c t a ++ replace_char c t b.
Proof. intros c t a b. apply flat_map_app. Qed.

Lemma replace_esc_flat : forall s, replace_esc s = flat_map esc1 s.
Proof.
  unfold replace_esc. induction s as [|c s IH]; [reflexivity|].
  change (c :: s) with ([c] ++ s). rewrite !replace_char_app. rewrite IH. cbn [flat_map app]. f_equal. clear.
  unfold esc1, replace_char at 4. cbn [flat_map]. rewrite app_nil_r.
  destruct (N.eqb_spec c ch_nl) as [->|N1]; [reflexivity|]. unfold replace_char at 3. cbn [flat_map]. rewrite app_nil_r.
  destruct (N.eqb_spec c ch_cr) as [->|N2]; [reflexivity|]. unfold replace_char at 2. cbn [flat_map]. rewrite app_nil_r.
  destruct (N.eqb_spec c ch_tab) as [->|N3]; [reflexivity|]. unfold replace_char. cbn [flat_map]. rewrite app_nil_r.
  reflexivity.
Qed.

Lemma run_escaped : forall s acc, ~ In ch_bslash s -> run (LStr acc) (flat_map esc1 s) = Some ([], LStr (acc ++ s)).
Proof.
  induction s as [|c s IH]; intros acc B; [cbn; rewrite app_nil_r; reflexivity|]. cbn [flat_map].
  assert (B' : ~ In ch_bslash s) by (intro X; apply B; right; exact X).
  rewrite (run_app (esc1 c) _ (LStr acc) [] (LStr (acc ++ [c]))).
  - rewrite emit_nil, (IH _ B'), <- app_assoc. reflexivity.
  - unfold esc1. destruct (N.eqb_spec c ch_nl) as [->|N1]; [reflexivity|]. destruct (N.eqb_spec c ch_cr) as [->|N2]; [reflexivity|].
    destruct (N.eqb_spec c ch_tab) as [->|N3]; [reflexivity|]. destruct (N.eqb_spec c ch_dquote) as [->|N4]; [reflexivity|].
    cbn [run step]. apply N.eqb_neq in N2, N4. rewrite N2, N4.
    replace (c =? ch_bslash)%N with false by (symmetry; apply N.eqb_neq; intros ->; apply B; left; reflexivity). reflexivity.
Qed.

Lemma string_value_plain : forall s, ~ In ch_bslash s -> string_value (replace_esc s) = Some s.
Proof. intros s B. unfold string_value. rewrite replace_esc_flat, (run_escaped s [] B). reflexivity. Qed.

Lemma string_value_run : forall s v, string_value s = Some v -> run (LStr []) s = Some ([], LStr v).
Proof.
  unfold string_value. intros s v H. destruct (run (LStr []) s) as [[[|t ts] st]|]; try discriminate.
  destruct st; try discriminate. injection H as ->. reflexivity.
Qed.

(* ---- expressions ------------------------------------------------------------------------- *)

Definition raw_okb (s : str) : bool :=
  match run L0 (s_ "r#""" ++ s ++ s_ """#") with Some ([TStr t], L0) => str_eqb s t | _ => false end.
Definition char_okb (c : char) : bool := negb (existsb (N.eqb c) [ch_quote; ch_bslash; ch_nl; ch_cr; ch_tab]).

Definition map_opt {A B} (f : A -> option B) : list A -> option (list B) :=
  fix go l :=
  match l with
  | [] => Some []
  | x :: r => match f x, go r with Some y, Some ys => Some (y :: ys) | _, _ => None end
  end.

Lemma map_opt_cons : forall A B (f : A -> option B) x r,
  map_opt f (x :: r) = match f x, map_opt f r with Some y, Some ys => Some (y :: ys) | _, _ => None end.
Proof. reflexivity. Qed.

(** What the code of an expression evaluates to, if it is Rust at all. *)
Fixpoint denote (e : expr) : option expr :=
  match e with
  | Simple (Literal s) => option_map (fun v => Simple (Literal v)) (string_value (replace_esc s))
  | Simple (AError s) => option_map (fun v => Simple (AError v)) (string_value (replace_esc s))
  | Simple (Match cs (r :: rs)) =>
      if raw_okb cs && forallb (fun r => char_okb (fst r) && char_okb (snd r)) (r :: rs) then Some e else None
  | Simple Dot => Some e
  | Simple _ => None
  | And es => option_map And (map_opt denote es)
  | Or es => option_map Or (map_opt denote es)
  | Not e1 => option_map Not (denote e1)
  | Repeat e1 mn mx => option_map (fun x => Repeat x mn mx) (denote e1)
  | RuleName n => if raw_okb n then Some e else None
  end.

Lemma raw_okb_run : forall s, raw_okb s = true -> run L0 (s_ "r#""" ++ s ++ s_ """#") = Some ([TStr s], L0).
Proof.
  unfold raw_okb. intros s H. destruct (run L0 (s_ "r#""" ++ s ++ s_ """#")) as [[[|[ | |t| | | | | |] [|? ?]] [ | | | | | | | | | | | | |]]|]; try discriminate.
  apply str_eqb_eq in H. subst t. reflexivity.
Qed.

Lemma raw_ok_b : forall s, raw_ok s -> raw_okb s = true.
Proof. intros s H. unfold raw_okb. rewrite (run_raw_string s H). apply str_eqb_eq. reflexivity. Qed.

Lemma char_okb_ok : forall c, char_okb c = true <-> char_ok c.
Proof.
  intro c. unfold char_okb, char_ok. rewrite negb_true_iff. split.
  - intros H I. assert (X : existsb (N.eqb c) [ch_quote; ch_bslash; ch_nl; ch_cr; ch_tab] = true) by (apply existsb_exists; exists c; split; [exact I|apply N.eqb_refl]). congruence.
  - intro H. apply not_true_is_false. intro X. apply existsb_exists in X. destruct X as (d & I & E). apply N.eqb_eq in E. subst d. exact (H I).
Qed.

Lemma map_opt_some : forall A (f : A -> option A) l, Forall (fun x => f x = Some x) l -> map_opt f l = Some l.
Proof. induction l as [|x l IH]; intro H; [reflexivity|]. inversion H; subst. rewrite map_opt_cons, H2, (IH H3). reflexivity. Qed.

Lemma codable_list : forall es, (fix all l := match l with [] => True | x :: r => codable x /\ all r end) es <-> Forall codable es.
Proof.
  induction es as [|e es IH]; split; intro H; [constructor|exact I| |].
  - destruct H as [H1 H2]. constructor; [exact H1|]. apply IH. exact H2.
  - inversion H; subst. split; [assumption|]. apply IH. assumption.
Qed.

Lemma codable_denote : forall e, codable e -> denote e = Some e.
Proof.
  induction e as [a|es IH|es IH|e IH|e mn mx IH|n] using expr_ind'; intro C; cbn [codable denote] in *.
  - destruct a as [s|cs rs|s| |]; cbn [codable denote] in *.
    + rewrite (string_value_plain s C). reflexivity.
    + destruct C as (R & N & F). destruct rs as [|r rs]; [contradiction|]. rewrite (raw_ok_b cs R). cbn [andb].
      replace (forallb _ (r :: rs)) with true; [reflexivity|]. symmetry. apply forallb_forall. intros x I. rewrite Forall_forall in F.
      destruct (F x I) as [F1 F2]. apply andb_true_iff. split; apply char_okb_ok; assumption.
    + rewrite (string_value_plain s C). reflexivity.
    + reflexivity.
    + contradiction.
  - apply codable_list in C. rewrite map_opt_some; [reflexivity|]. rewrite Forall_forall in *. intros x I. exact (IH x I (C x I)).
  - apply codable_list in C. rewrite map_opt_some; [reflexivity|]. rewrite Forall_forall in *. intros x I. exact (IH x I (C x I)).
  - rewrite (IH C). reflexivity.
  - rewrite (IH C). reflexivity.
  - rewrite (raw_ok_b n C). reflexivity.
Qed.

(** The code of a list of expressions. *)
Fixpoint mcode (l : list expr) : str :=
  match l with [] => [] | [x] => expr2code x | x :: r => expr2code x ++ s_ ", " ++ mcode r end.

Definition mexpr2code := fix go (acc : str) (l : list expr) : str :=
  match l with
  | [] => acc
  | x :: r => go (match acc with [] => expr2code x | _ => acc ++ s_ ", " ++ expr2code x end) r
  end.

Lemma expr2code_nonempty : forall e, expr2code e <> [].
Proof.
  intros [[s|cs rs|s| |]|es|es|e|e mn mx|n]; cbn [expr2code atom2code]; unfold match_rules2code; intro H; discriminate H.
Qed.

Lemma mexpr2code_acc : forall l acc, acc <> [] -> l <> [] -> mexpr2code acc l = acc ++ s_ ", " ++ mcode l.
Proof.
  induction l as [|x l IH]; intros acc A L; [contradiction|]. cbn [mexpr2code].
  assert (E : match acc with [] => expr2code x | _ :: _ => acc ++ s_ ", " ++ expr2code x end = acc ++ s_ ", " ++ expr2code x) by (destruct acc; [contradiction|reflexivity]).
  rewrite E. destruct l as [|y l]; [reflexivity|]. rewrite IH; [|destruct acc; [contradiction|discriminate]|discriminate].
  cbn [mcode]. rewrite <- !app_assoc. reflexivity.
Qed.

Lemma mexpr2code_nil : forall l, mexpr2code [] l = mcode l.
Proof.
  intros [|x [|y l]]; [reflexivity|reflexivity|]. change (mexpr2code [] (x :: y :: l)) with (mexpr2code (expr2code x) (y :: l)).
  rewrite mexpr2code_acc; [reflexivity|apply expr2code_nonempty|discriminate].
Qed.

Lemma code_and : forall es, expr2code (And es) = s_ "and!(" ++ mcode es ++ s_ ")".
Proof. intro es. rewrite <- mexpr2code_nil. reflexivity. Qed.
Lemma code_or : forall es, expr2code (Or es) = s_ "or!(" ++ mcode es ++ s_ ")".
Proof. intro es. rewrite <- mexpr2code_nil. reflexivity. Qed.

(** [ts] are the tokens of [s], between tokens before and after. *)
Definition lexed (s : str) (ts : list tok) : Prop := run L0 s = Some (ts, L0).

Lemma lexed_app : forall a b ta tb, lexed a ta -> lexed b tb -> lexed (a ++ b) (ta ++ tb).
Proof. intros a b ta tb H1 H2. exact (run_seq _ _ _ _ _ _ _ H1 H2). Qed.

Lemma lexed_call : forall name open args ts, lexed open [TId (s_ name); TBang; TOpen] -> lexed args ts ->
  lexed (open ++ args ++ s_ ")") (call name ts).
Proof. intros name open args ts H1 H2. unfold call. apply lexed_app; [exact H1|]. apply lexed_app; [exact H2|reflexivity]. Qed.

Lemma lexed_string : forall s v, string_value s = Some v -> lexed (s_ """" ++ s ++ s_ """") [TStr v].
Proof.
  intros s v H. apply string_value_run in H. unfold lexed.
  rewrite (run_app (s_ """") _ L0 [] (LStr []) eq_refl), emit_nil. rewrite (run_app s _ _ [] (LStr v) H), emit_nil. reflexivity.
Qed.

Lemma lexed_int : forall n ch, In ch [41; 44]%N -> run L0 (dec n ++ [ch]) = Some ([TInt n; if (ch =? 41)%N then TClose else TComma], L0).
Proof.
  intros n ch I. rewrite (run_app (dec n) [ch] L0 [] (LInt n) (run_dec n)), emit_nil. destruct I as [<-|[<-|[]]]; reflexivity.
Qed.

Lemma lexed_mcode : forall es es' , Forall2 (fun e e' => exists ts, lexed (expr2code e) ts /\ evaluates ts e') es es' ->
  exists tss, lexed (mcode es) (commas tss) /\ Forall2 evaluates tss es'.
Proof.
  intros es es' H. induction H as [|e e' es es' (ts & L & E) H (tss & Ls & Es)]; [exists []; split; [reflexivity|constructor]|].
  exists (ts :: tss). split; [|constructor; assumption]. destruct H as [|e2 e2' es es' H2 H].
  - inversion Es; subst. exact L.
  - inversion Es; subst. cbn [mcode commas]. apply lexed_app; [exact L|]. apply lexed_app; [reflexivity|exact Ls].
Qed.

Lemma lexed_bounds : forall rs, Forall (fun r => char_ok (fst r) /\ char_ok (snd r)) rs -> rs <> [] ->
  lexed (bounds2code [] rs) (TComma :: commas (map range_arg rs)).
Proof.
  intros rs F. induction F as [|[f t] rs [C1 C2] F IH]; intro N; [contradiction|]. cbn [fst snd] in C1, C2. cbn [bounds2code map].
  assert (H : lexed (s_ ", from '" ++ [f] ++ s_ "', to '" ++ [t] ++ s_ "' ") (TComma :: range_arg (f, t))).
  { change (s_ ", from '") with (s_ ", from " ++ [ch_quote]). change (s_ "', to '") with ([ch_quote] ++ s_ ", to " ++ [ch_quote]).
    change (s_ "' ") with ([ch_quote] ++ s_ " "). rewrite <- !app_assoc.
    change (TComma :: range_arg (f, t)) with ([TComma; TId (s_ "from")] ++ [TChar f] ++ [TComma; TId (s_ "to")] ++ [TChar t] ++ []).
    apply lexed_app; [reflexivity|]. rewrite (app_assoc [f]), (app_assoc [ch_quote]). apply lexed_app; [exact (run_char f C1)|].
    apply lexed_app; [reflexivity|]. rewrite (app_assoc [t]), (app_assoc [ch_quote]). apply lexed_app; [exact (run_char t C2)|]. reflexivity. }
  destruct rs as [|r rs].
  - cbn [bounds2code map commas]. rewrite app_nil_r. exact H.
  - change (commas (range_arg (f, t) :: map range_arg (r :: rs))) with (range_arg (f, t) ++ TComma :: commas (map range_arg (r :: rs))).
    rewrite app_comm_cons. specialize (IH ltac:(discriminate)). pose proof (lexed_app _ _ _ _ H IH) as X. rewrite <- !app_assoc in X. exact X.
Qed.

Lemma map_opt_Forall2 : forall A B (f : A -> option B) l l', map_opt f l = Some l' -> Forall2 (fun x y => f x = Some y) l l'.
Proof.
  induction l as [|x l IH]; intros l' H; [injection H as <-; constructor|]. rewrite map_opt_cons in H.
  destruct (f x) as [y|] eqn:E; [|discriminate]. destruct (map_opt f l) as [ys|]; [|discriminate]. injection H as <-.
  constructor; [exact E|]. apply IH. reflexivity.
Qed.

Lemma code_evaluates : forall e e', denote e = Some e' -> exists ts, lexed (expr2code e) ts /\ evaluates ts e'.
Proof.
  induction e as [a|es IH|es IH|e IH|e mn mx IH|n] using expr_ind'; intros e' D; cbn [denote] in D.
  - destruct a as [s|cs rs|s| |]; cbn [expr2code atom2code].
    + destruct (string_value (replace_esc s)) as [v|] eqn:V; [|discriminate]. injection D as <-. eexists. split; [|apply ev_lit].
      change (s_ "lit!(""") with (s_ "lit!(" ++ s_ """"). change (s_ """)") with (s_ """" ++ s_ ")").
      rewrite <- app_assoc, (app_assoc (replace_esc s)), (app_assoc (s_ """")). apply lexed_call; [reflexivity|]. exact (lexed_string _ _ V).
    + destruct rs as [|r rs]; [discriminate|]. destruct (raw_okb cs) eqn:R; cbn [andb] in D; [|discriminate].
      destruct (forallb _ (r :: rs)) eqn:F; [|discriminate]. injection D as <-. eexists. split; [|apply ev_ematch]. unfold match_rules2code.
      assert (F' : Forall (fun r => char_ok (fst r) /\ char_ok (snd r)) (r :: rs)).
      { rewrite forallb_forall in F. apply Forall_forall. intros x I. specialize (F x I). apply andb_true_iff in F. destruct F. split; apply char_okb_ok; assumption. }
      change (s_ "ematch!(chlist r#""") with (s_ "ematch!(" ++ s_ "chlist " ++ s_ "r#"""). change (s_ """#  ") with (s_ """#" ++ s_ "  ").
      rewrite <- !app_assoc. rewrite (app_assoc cs), (app_assoc (s_ "r#""")).
      change (call "ematch" ([TId (s_ "chlist"); TStr cs; TComma] ++ commas (map range_arg (r :: rs))))
        with ([TId (s_ "ematch"); TBang; TOpen] ++ [TId (s_ "chlist")] ++ [TStr cs] ++ [] ++ (TComma :: commas (map range_arg (r :: rs))) ++ [TClose]).
      apply lexed_app; [reflexivity|].
      apply lexed_app; [reflexivity|]. apply lexed_app; [exact (raw_okb_run cs R)|]. apply lexed_app; [reflexivity|].
      apply lexed_app; [|reflexivity]. apply lexed_bounds; [exact F'|discriminate].
    + destruct (string_value (replace_esc s)) as [v|] eqn:V; [|discriminate]. injection D as <-. eexists. split; [|apply ev_error].
      change (s_ "error!(""") with (s_ "error!(" ++ s_ """"). change (s_ """)") with (s_ """" ++ s_ ")").
      rewrite <- app_assoc, (app_assoc (replace_esc s)), (app_assoc (s_ """")). apply lexed_call; [reflexivity|]. exact (lexed_string _ _ V).
    + injection D as <-. eexists. split; [|apply ev_dot]. reflexivity.
    + discriminate.
  - destruct (map_opt denote es) as [es'|] eqn:M; [|discriminate]. injection D as <-. apply map_opt_Forall2 in M.
    destruct (lexed_mcode es es') as (tss & L & E).
    { clear - IH M. induction M as [|x y l l' H M IHM]; [constructor|]. inversion IH; subst. constructor; [exact (H2 y H)|]. apply IHM. assumption. }
    eexists. split; [|apply ev_and; exact E]. rewrite code_and. apply lexed_call; [reflexivity|exact L].
  - destruct (map_opt denote es) as [es'|] eqn:M; [|discriminate]. injection D as <-. apply map_opt_Forall2 in M.
    destruct (lexed_mcode es es') as (tss & L & E).
    { clear - IH M. induction M as [|x y l l' H M IHM]; [constructor|]. inversion IH; subst. constructor; [exact (H2 y H)|]. apply IHM. assumption. }
    eexists. split; [|apply ev_or; exact E]. rewrite code_or. apply lexed_call; [reflexivity|exact L].
  - destruct (denote e) as [x|]; [|discriminate]. injection D as <-. destruct (IH x eq_refl) as (ts & L & E).
    eexists. split; [|apply ev_not; exact E]. apply lexed_call; [reflexivity|exact L].
  - destruct (denote e) as [x|]; [|discriminate]. injection D as <-. destruct (IH x eq_refl) as (ts & L & E). cbn [expr2code].
    destruct mx as [m|].
    + eexists. split; [|apply ev_rep_max; exact E]. unfold call. rewrite <- !app_assoc. apply lexed_app; [reflexivity|]. apply lexed_app; [exact L|].
      change ([TComma; TInt mn; TComma; TInt m] ++ [TClose]) with ([TComma] ++ [] ++ [TInt mn; TComma] ++ [] ++ [TInt m; TClose]).
      change (s_ ", ") with ([44%N] ++ s_ " "). rewrite <- !app_assoc, (app_assoc (dec mn)).
      apply lexed_app; [reflexivity|]. apply lexed_app; [reflexivity|].
      apply lexed_app; [exact (lexed_int mn 44%N ltac:(cbn; tauto))|]. apply lexed_app; [reflexivity|]. exact (lexed_int m 41%N ltac:(cbn; tauto)).
    + eexists. split; [|apply ev_rep; exact E]. unfold call. rewrite <- !app_assoc. apply lexed_app; [reflexivity|]. apply lexed_app; [exact L|].
      change ([TComma; TInt mn] ++ [TClose]) with ([TComma] ++ [TInt mn; TClose]). apply lexed_app; [reflexivity|].
      exact (lexed_int mn 41%N ltac:(cbn; tauto)).
  - destruct (raw_okb n) eqn:R; [|discriminate]. injection D as <-. eexists. split; [|apply ev_ref_rule]. cbn [expr2code].
    change (s_ "ref_rule!(r#""") with (s_ "ref_rule!(" ++ s_ "r#"""). change (s_ """#)") with (s_ """#" ++ s_ ")").
    rewrite <- app_assoc, (app_assoc n), (app_assoc (s_ "r#""")). apply lexed_call; [reflexivity|]. exact (raw_okb_run n R).
Qed.

(* ---- rule sets --------------------------------------------------------------------------- *)

Definition denote_entry (p : str * expr) : option (str * expr) :=
  if raw_okb (fst p) then option_map (fun e => (fst p, e)) (denote (snd p)) else None.

Lemma code_entry : forall p p', denote_entry p = Some p' -> exists ts, lexed (rule2code (fst p) (snd p)) ts /\ entry ts p'.
Proof.
  intros [n e] p' H. unfold denote_entry in H. cbn [fst snd] in *. destruct (raw_okb n) eqn:R; [|discriminate].
  destruct (denote e) as [e'|] eqn:D; [|discriminate]. injection H as <-. destruct (code_evaluates e e' D) as (ts & L & E).
  eexists. split; [|apply entry_intro; exact E]. unfold rule2code. change (s_ """# => ") with (s_ """#" ++ s_ " => ").
  rewrite <- app_assoc, (app_assoc n), (app_assoc (s_ "r#""")). change ([TStr n; TArrow] ++ ts) with ([TStr n] ++ [TArrow] ++ ts).
  apply lexed_app; [exact (raw_okb_run n R)|]. apply lexed_app; [reflexivity|exact L].
Qed.

Lemma add_rule_nonempty : forall acc r, add_rule acc r <> [].
Proof. intros [|c acc] r H; discriminate H. Qed.

Lemma rules_code_acc : forall l l' acc ts, Forall2 (fun p p' => denote_entry p = Some p') l l' -> acc <> [] -> lexed acc ts ->
  exists tss, lexed (fold_left (fun acc p => add_rule acc (rule2code (fst p) (snd p))) l acc) (ts ++ flat_map (fun t => TComma :: t) tss) /\
    Forall2 entry tss l'.
Proof.
  intros l l' acc ts H. revert acc ts. induction H as [|p p' l l' D H IH]; intros acc ts A L.
  - exists []. split; [rewrite app_nil_r; exact L|constructor].
  - cbn [fold_left]. destruct (code_entry p p' D) as (t & Lt & Et).
    assert (L2 : lexed (add_rule acc (rule2code (fst p) (snd p))) (ts ++ [TComma] ++ t)).
    { unfold add_rule. destruct acc as [|c acc]; [contradiction|]. apply lexed_app; [exact L|].
      change ([TComma] ++ t) with ([] ++ [] ++ [TComma] ++ t). apply lexed_app; [reflexivity|]. apply lexed_app; [reflexivity|]. apply lexed_app; [reflexivity|exact Lt]. }
    destruct (IH _ _ (add_rule_nonempty _ _) L2) as (tss & Ls & Es). exists (t :: tss). split; [|constructor; assumption].
    cbn [flat_map]. rewrite <- !app_assoc in Ls. exact Ls.
Qed.

Lemma commas_flat : forall x l, commas (x :: l) = x ++ flat_map (fun t => TComma :: t) l.
Proof.
  intros x l. revert x. induction l as [|y l IH]; intro x; [cbn; rewrite app_nil_r; reflexivity|].
  change (commas (x :: y :: l)) with (x ++ TComma :: commas (y :: l)). rewrite (IH y). reflexivity.
Qed.

(** The code generated from the entries, in any order, lists what they denote. *)
Lemma code_reads : forall l l', map_opt denote_entry l = Some l' -> rust_rules (rust_from_rules l) l'.
Proof.
  intros l l' H. apply map_opt_Forall2 in H. destruct H as [|p p' l l' D H]; [exists [], []; repeat split; constructor|].
  destruct (code_entry p p' D) as (t & Lt & Et). unfold rust_from_rules. cbn [fold_left].
  assert (L : lexed (add_rule [] (rule2code (fst p) (snd p))) t).
  { unfold add_rule. change t with ([] ++ [] ++ [] ++ [] ++ t). repeat (apply lexed_app; [reflexivity|]). exact Lt. }
  destruct (rules_code_acc l l' _ t H (add_rule_nonempty _ _) L) as (tss & Ls & Es). exists (commas (t :: tss)), (t :: tss).
  split; [|split; [reflexivity|constructor; assumption]]. unfold tokens. rewrite Ls, commas_flat. reflexivity.
Qed.

(* ---- a text reads in one way ------------------------------------------------------------- *)

Section EvInd.
Variable P : list tok -> expr -> Prop.
Hypothesis Hlit : forall s, P (call "lit" [TStr s]) (Simple (Literal s)).
Hypothesis Herr : forall s, P (call "error" [TStr s]) (Simple (AError s)).
Hypothesis Hdot : P (call "dot" []) (Simple Dot).
Hypothesis Hmat : forall cs r rs, P (call "ematch" ([TId (s_ "chlist"); TStr cs; TComma] ++ commas (map range_arg (r :: rs)))) (Simple (Match cs (r :: rs))).
Hypothesis Hand : forall tss es, Forall2 (fun t e => evaluates t e /\ P t e) tss es -> P (call "and" (commas tss)) (And es).
Hypothesis Hor : forall tss es, Forall2 (fun t e => evaluates t e /\ P t e) tss es -> P (call "or" (commas tss)) (Or es).
Hypothesis Hnot : forall ts e, P ts e -> P (call "not" ts) (Not e).
Hypothesis Hrep : forall ts e mn, P ts e -> P (call "rep" (ts ++ [TComma; TInt mn])) (Repeat e mn None).
Hypothesis Hrep2 : forall ts e mn mx, P ts e -> P (call "rep" (ts ++ [TComma; TInt mn; TComma; TInt mx])) (Repeat e mn (Some mx)).
Hypothesis Href : forall n, P (call "ref_rule" [TStr n]) (RuleName n).

Fixpoint evaluates_ind' ts e (H : evaluates ts e) {struct H} : P ts e :=
  let fix all tss es (F : Forall2 evaluates tss es) {struct F} : Forall2 (fun t e => evaluates t e /\ P t e) tss es :=
    match F with
    | Forall2_nil _ => Forall2_nil _
    | Forall2_cons t e1 H1 F1 => Forall2_cons t e1 (conj H1 (evaluates_ind' t e1 H1)) (all _ _ F1)
    end in
  match H with
  | ev_lit s => Hlit s
  | ev_error s => Herr s
  | ev_dot => Hdot
  | ev_ematch cs r rs => Hmat cs r rs
  | ev_and tss es F => Hand tss es (all tss es F)
  | ev_or tss es F => Hor tss es (all tss es F)
  | ev_not ts e1 H1 => Hnot ts e1 (evaluates_ind' ts e1 H1)
  | ev_rep ts e1 mn H1 => Hrep ts e1 mn (evaluates_ind' ts e1 H1)
  | ev_rep_max ts e1 mn mx H1 => Hrep2 ts e1 mn mx (evaluates_ind' ts e1 H1)
  | ev_ref_rule n => Href n
  end.
End EvInd.

Section Unique.
Context {A : Type} (R : list tok -> A -> Prop).
Definition prefix_free ts a := forall ts' a' r r', R ts' a' -> ts ++ r = ts' ++ r' -> a = a' /\ r = r'.

Lemma commas_unique : forall z z',
  (forall ts a, R ts a -> exists t u, ts = t :: u /\ hd_error z <> Some t /\ hd_error z' <> Some t) ->
  hd_error z <> Some TComma -> hd_error z' <> Some TComma ->
  forall tss l, Forall2 (fun ts a => R ts a /\ prefix_free ts a) tss l ->
  forall tss' l', Forall2 R tss' l' -> commas tss ++ z = commas tss' ++ z' -> l = l' /\ z = z'.
Proof.
  intros z z' Hd Z Z' tss l F. 
  assert (T : forall tss l, Forall2 (fun ts a => R ts a /\ prefix_free ts a) tss l -> forall tss' l', Forall2 R tss' l' ->
    flat_map (fun t => TComma :: t) tss ++ z = flat_map (fun t => TComma :: t) tss' ++ z' -> l = l' /\ z = z').
  { clear tss l F. intros tss l F. induction F as [|ts a tss l [Ra Pa] F IH]; intros tss' l' F' E.
    - destruct F' as [|ts' a' tss' l' R' F']; [split; [reflexivity|exact E]|]. cbn in E. rewrite E in Z. contradiction Z. reflexivity.
    - destruct F' as [|ts' a' tss' l' R' F']; [cbn in E; rewrite <- E in Z'; contradiction Z'; reflexivity|].
      cbn [flat_map app] in E. injection E as E. rewrite <- !app_assoc in E. destruct (Pa _ _ _ _ R' E) as [-> E2].
      destruct (IH _ _ F' E2) as [-> Ez]. split; [reflexivity|exact Ez]. }
  destruct F as [|ts a tss l [Ra Pa] F]; intros tss' l' F' E; destruct F' as [|ts' a' tss' l' R' F'].
  - split; [reflexivity|exact E].
  - destruct (Hd _ _ R') as (t & u & -> & N & _). rewrite commas_flat in E. cbn in E. rewrite E in N. contradiction N. reflexivity.
  - destruct (Hd _ _ Ra) as (t & u & -> & _ & N). rewrite commas_flat in E. cbn in E. rewrite <- E in N. contradiction N. reflexivity.
  - rewrite !commas_flat, <- !app_assoc in E. destruct (Pa _ _ _ _ R' E) as [-> E2]. destruct (T _ _ F _ _ F' E2) as [-> Ez].
    split; [reflexivity|exact Ez].
Qed.
End Unique.

Lemma call_inj : forall n n' a a' r r', call n a ++ r = call n' a' ++ r' -> s_ n = s_ n' /\ a ++ TClose :: r = a' ++ TClose :: r'.
Proof.
  unfold call. intros n n' a a' r r' H. cbn [app] in H. injection H as E H. rewrite <- !app_assoc in H. split; [exact E|exact H].
Qed.

Lemma range_prefix : forall r, prefix_free (fun ts r => ts = range_arg r) (range_arg r) r.
Proof. intros [f t] ts' [f' t'] r r' -> E. cbn in E. injection E as -> -> ->. split; reflexivity. Qed.

Lemma ranges_R : forall rs, Forall2 (fun ts r => ts = range_arg r) (map range_arg rs) rs.
Proof. induction rs; constructor; [reflexivity|assumption]. Qed.

Lemma ev_head : forall z ts e, hd_error z = Some TClose -> evaluates ts e -> exists t u, ts = t :: u /\ hd_error z <> Some t.
Proof. intros z ts e Z H. destruct H; unfold call; cbn [app]; do 2 eexists; (split; [reflexivity|]); rewrite Z; discriminate. Qed.

Lemma evaluates_prefix : forall ts e, evaluates ts e -> prefix_free evaluates ts e.
Proof.
  apply evaluates_ind'.
  - intros s ts' e' r r' H E. destruct H; apply call_inj in E; destruct E as [N E]; try discriminate N. cbn in E. injection E as -> ->. split; reflexivity.
  - intros s ts' e' r r' H E. destruct H; apply call_inj in E; destruct E as [N E]; try discriminate N. cbn in E. injection E as -> ->. split; reflexivity.
  - intros ts' e' r r' H E. destruct H; apply call_inj in E; destruct E as [N E]; try discriminate N. cbn in E. injection E as ->. split; reflexivity.
  - intros cs r0 rs ts' e' r r' H E. destruct H as [ | | |cs' r0' rs'| | | | | | ]; apply call_inj in E; destruct E as [N E]; try discriminate N.
    rewrite <- !app_assoc in E. cbn [app] in E. injection E as -> E.
    destruct (commas_unique (fun ts r => ts = range_arg r) (TClose :: r) (TClose :: r')) with (tss := map range_arg (r0 :: rs)) (l := r0 :: rs)
      (tss' := map range_arg (r0' :: rs')) (l' := r0' :: rs') as [El Ez].
    + intros ts a ->. do 2 eexists. split; [reflexivity|]. split; discriminate.
    + discriminate.
    + discriminate.
    + clear. induction (r0 :: rs) as [|x l IH]; constructor; [|exact IH]. split; [reflexivity|apply range_prefix].
    + apply ranges_R.
    + exact E.
    + injection El as -> ->. injection Ez as ->. split; reflexivity.
  - intros tss es F ts' e' r r' H E. destruct H as [ | | | |tss' es' F'| | | | | ]; apply call_inj in E; destruct E as [N E]; try discriminate N.
    destruct (commas_unique evaluates (TClose :: r) (TClose :: r')) with (tss := tss) (l := es) (tss' := tss') (l' := es') as [-> Ez]; try assumption; try discriminate.
    + intros ts a Ra. destruct (ev_head (TClose :: r) ts a eq_refl Ra) as (t & u & -> & X). do 2 eexists. split; [reflexivity|]. split; exact X.
    + injection Ez as ->. split; reflexivity.
  - intros tss es F ts' e' r r' H E. destruct H as [ | | | | |tss' es' F'| | | | ]; apply call_inj in E; destruct E as [N E]; try discriminate N.
    destruct (commas_unique evaluates (TClose :: r) (TClose :: r')) with (tss := tss) (l := es) (tss' := tss') (l' := es') as [-> Ez]; try assumption; try discriminate.
    + intros ts a Ra. destruct (ev_head (TClose :: r) ts a eq_refl Ra) as (t & u & -> & X). do 2 eexists. split; [reflexivity|]. split; exact X.
    + injection Ez as ->. split; reflexivity.
  - intros ts e IH ts' e' r r' H E. destruct H as [ | | | | | |ts' e' H| | | ]; apply call_inj in E; destruct E as [N E]; try discriminate N.
    destruct (IH _ _ _ _ H E) as [-> X]. injection X as ->. split; reflexivity.
  - intros ts e mn IH ts' e' r r' H E. destruct H as [ | | | | | | |ts' e' mn' H|ts' e' mn' mx' H| ]; apply call_inj in E; destruct E as [N E]; try discriminate N.
    + rewrite <- !app_assoc in E. destruct (IH _ _ _ _ H E) as [-> X]. cbn in X. injection X as -> ->. split; reflexivity.
    + rewrite <- !app_assoc in E. destruct (IH _ _ _ _ H E) as [-> X]. discriminate X.
  - intros ts e mn mx IH ts' e' r r' H E. destruct H as [ | | | | | | |ts' e' mn' H|ts' e' mn' mx' H| ]; apply call_inj in E; destruct E as [N E]; try discriminate N.
    + rewrite <- !app_assoc in E. destruct (IH _ _ _ _ H E) as [-> X]. discriminate X.
    + rewrite <- !app_assoc in E. destruct (IH _ _ _ _ H E) as [-> X]. cbn in X. injection X as -> -> ->. split; reflexivity.
  - intros n ts' e' r r' H E. destruct H; apply call_inj in E; destruct E as [N E]; try discriminate N. cbn in E. injection E as -> ->. split; reflexivity.
Qed.

Lemma entry_prefix : forall ts p, entry ts p -> prefix_free entry ts p.
Proof.
  intros ts p [n t e H] ts' p' r r' [n' t' e' H'] E. cbn [app] in E. injection E as -> E.
  destruct (evaluates_prefix t e H _ _ _ _ H' E) as [-> ->]. split; reflexivity.
Qed.

Lemma rust_rules_unique : forall s l l', rust_rules s l -> rust_rules s l' -> l = l'.
Proof.
  intros s l l' (ts & tss & T & -> & F) (ts' & tss' & T' & -> & F'). rewrite T in T'. injection T' as E.
  destruct (commas_unique entry [] []) with (tss := tss) (l := l) (tss' := tss') (l' := l') as [X _]; try discriminate; try assumption.
  - intros t p [n u e H]. do 2 eexists. split; [reflexivity|]. split; discriminate.
  - clear - F. induction F as [|t p tss l H F IH]; constructor; [|exact IH]. split; [exact H|exact (entry_prefix t p H)].
  - rewrite !app_nil_r. exact E.
Qed.

(* ---- the round trip ---------------------------------------------------------------------- *)

Lemma codable_reads : forall l, Forall (fun p => raw_ok (fst p) /\ codable (snd p)) l -> rust_rules (rust_from_rules l) l.
Proof.
  intros l F. apply code_reads. apply map_opt_some. rewrite Forall_forall in *. intros [n e] I. destruct (F _ I) as [R C]. cbn [fst snd] in *.
  unfold denote_entry. cbn [fst snd]. rewrite (raw_ok_b n R), (codable_denote e C). reflexivity.
Qed.

Lemma get_in : forall m n e, rules_get m n = Some e -> In (n, e) m.
Proof.
  induction m as [|[k x] m IH]; intros n e H; [discriminate|]. cbn [rules_get] in H. destruct (str_eqb k n) eqn:E.
  - apply str_eqb_eq in E. subst k. injection H as <-. left. reflexivity.
  - right. exact (IH n e H).
Qed.

Lemma in_get : forall m n e, unique_names m -> In (n, e) m -> rules_get m n = Some e.
Proof.
  induction m as [|[k x] m IH]; intros n e U I; [contradiction|]. cbn [rules_get]. inversion U as [|k' m' NI U']; subst. destruct I as [I|I].
  - injection I as -> ->. rewrite (proj2 (str_eqb_eq n n) eq_refl). reflexivity.
  - destruct (str_eqb k n) eqn:E; [|exact (IH n e U' I)]. apply str_eqb_eq in E. subst k. contradiction NI. apply (in_map fst) in I. exact I.
Qed.

Lemma get_permutation : forall m m' n, unique_names m -> Permutation m' m -> rules_get m' n = rules_get m n.
Proof.
  intros m m' n U P. assert (U' : unique_names m') by (eapply Permutation_NoDup; [apply Permutation_map, Permutation_sym, P|exact U]).
  destruct (rules_get m n) as [e|] eqn:E.
  - apply in_get; [exact U'|]. apply get_in in E. exact (Permutation_in _ (Permutation_sym P) E).
  - destruct (rules_get m' n) as [e|] eqn:E'; [|reflexivity]. apply get_in in E'. apply (Permutation_in _ P) in E'. apply (in_get m n e U) in E'. congruence.
Qed.

Lemma macro_get : forall l n, unique_names l -> rules_get (rules_macro l) n = rules_get l n.
Proof.
  intros l n U. pose proof (proj1 (macro_laws l) n) as L. destruct (rules_get (rules_macro l) n) as [e|] eqn:E.
  - symmetry. apply last_binding_unique; assumption.
  - destruct (rules_get l n) as [e|] eqn:E'; [|reflexivity]. exfalso. apply get_in in E'. apply (in_map fst) in E'. exact (L E').
Qed.

Lemma reads_back : forall m entries, unique_names m -> Permutation entries m -> Forall (fun p => raw_ok (fst p) /\ codable (snd p)) m ->
  exists l, rust_rules (rust_from_rules entries) l /\ forall n, rules_get (rules_macro l) n = rules_get m n.
Proof.
  intros m entries U P F. exists entries. split.
  - apply codable_reads. exact (Permutation_Forall (Permutation_sym P) F).
  - intro n. rewrite macro_get; [apply get_permutation; assumption|].
    unfold unique_names in *. eapply Permutation_NoDup; [apply Permutation_map, Permutation_sym, P|exact U].
Qed.

(** The generated code may denote other rules than it was generated from. *)
Lemma reads_as_other : forall m t entries, unique_names m ->
  Forall (fun p => exists e, denote_entry p = Some (fst p, e) /\ rules_get t (fst p) = Some e) m ->
  (forall n e, rules_get t n = Some e -> In n (map fst m)) -> Permutation entries m ->
  exists l, rust_rules (rust_from_rules entries) l /\ forall n, rules_get (rules_macro l) n = rules_get t n.
Proof.
  intros m t entries U F T P.
  assert (F' : Forall (fun p => exists e, denote_entry p = Some (fst p, e) /\ rules_get t (fst p) = Some e) entries) by exact (Permutation_Forall (Permutation_sym P) F).
  assert (U' : unique_names entries) by (eapply Permutation_NoDup; [apply Permutation_map, Permutation_sym, P|exact U]).
  assert (X : exists l, map_opt denote_entry entries = Some l /\ map fst l = map fst entries /\ Forall (fun p => rules_get t (fst p) = Some (snd p)) l).
  { clear - F'. induction F' as [|p l (e & D & G) F' (l' & M & N & A)]; [exists []; repeat split; constructor|].
    exists ((fst p, e) :: l'). split; [rewrite map_opt_cons, D, M; reflexivity|]. split; [cbn [map]; rewrite N; reflexivity|]. constructor; assumption. }
  destruct X as (l & M & N & A). exists l. split; [exact (code_reads entries l M)|]. intro n.
  rewrite macro_get by (unfold unique_names; rewrite N; exact U'). destruct (rules_get t n) as [e|] eqn:G.
  - pose proof (T n e G) as I. assert (I' : In n (map fst l)).
    { rewrite N. eapply Permutation_in; [apply Permutation_map, Permutation_sym, P|exact I]. }
    apply in_map_iff in I'. destruct I' as ([n' e'] & En & I'). cbn in En. subst n'. rewrite Forall_forall in A. specialize (A _ I'). cbn [fst snd] in A.
    rewrite G in A. injection A as ->. apply in_get; [unfold unique_names; rewrite N; exact U'|exact I'].
  - destruct (rules_get l n) as [e|] eqn:G'; [|reflexivity]. exfalso. apply get_in in G'. rewrite Forall_forall in A. specialize (A _ G'). cbn [fst snd] in A. congruence.
Qed.
