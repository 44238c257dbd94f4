(** Generated code reads back only if every rule is codable (C33). *)
From Verif Require Import Base ModelAst ModelParser ModelGcode SpecRust SpecAst ProofParser ProofEngine ProofAst ProofGcode.

(* ---- the tokens of an expression --------------------------------------------------------- *)

Fixpoint toks (e : expr) : list tok :=
  match e with
  | Simple (Literal s) => call "lit" [TStr s]
  | Simple (AError s) => call "error" [TStr s]
  | Simple (Match cs rs) => call "ematch" ([TId (s_ "chlist"); TStr cs; TComma] ++ commas (map range_arg rs))
  | Simple Dot => call "dot" []
  | Simple AEOF => []
  | And es => call "and" (commas (map toks es))
  | Or es => call "or" (commas (map toks es))
  | Not e1 => call "not" (toks e1)
  | Repeat e1 mn None => call "rep" (toks e1 ++ [TComma; TInt mn])
  | Repeat e1 mn (Some mx) => call "rep" (toks e1 ++ [TComma; TInt mn; TComma; TInt mx])
  | RuleName n => call "ref_rule" [TStr n]
  end.

Definition evaluable (e : expr) : Prop := exists ts, evaluates ts e.

Lemma evaluates_toks : forall ts e, evaluates ts e -> ts = toks e.
Proof.
  apply evaluates_ind'; try reflexivity.
  - intros tss es F. cbn [toks]. f_equal. f_equal. induction F as [|t e tss es [_ H] F IH]; [reflexivity|]. cbn [map]. rewrite <- IH, <- H. reflexivity.
  - intros tss es F. cbn [toks]. f_equal. f_equal. induction F as [|t e tss es [_ H] F IH]; [reflexivity|]. cbn [map]. rewrite <- IH, <- H. reflexivity.
  - intros ts e ->. reflexivity.
  - intros ts e mn ->. reflexivity.
  - intros ts e mn mx ->. reflexivity.
Qed.

Lemma evaluable_inv : forall e, evaluable e ->
  match e with
  | Simple (Match _ rs) => rs <> []
  | Simple AEOF => False
  | And es | Or es => Forall evaluable es
  | Not e1 | Repeat e1 _ _ => evaluable e1
  | _ => True
  end.
Proof.
  intros e [ts H]. destruct H as [ | | | |tss es F|tss es F|ts e H|ts e mn H|ts e mn mx H| ]; try exact I; try (exists ts; exact H); try discriminate.
  - induction F; constructor; [eexists; eassumption|assumption].
  - induction F; constructor; [eexists; eassumption|assumption].
Qed.

Lemma codable_lexed : forall e, codable e -> lexed (expr2code e) (toks e).
Proof.
  intros e C. destruct (code_evaluates e e (codable_denote e C)) as (ts & L & E). rewrite <- (evaluates_toks ts e E). exact L.
Qed.

(** Reading on after a text that was read. *)
Lemma run_skip : forall a z ta ts st, lexed a ta -> run L0 (a ++ z) = Some (ta ++ ts, st) -> run L0 z = Some (ts, st).
Proof.
  intros a z ta ts st L H. rewrite (run_app a z L0 ta L0 L) in H. destruct (run L0 z) as [[t s]|]; [|discriminate].
  cbn in H. injection H as E ->. apply app_inv_head in E. subst t. reflexivity.
Qed.

(* ---- where quotes occur ------------------------------------------------------------------ *)

(** The first double quote, if any, follows an opening parenthesis, a hash or a single quote. *)
Definition fq (z : str) : Prop :=
  ~ In ch_dquote z \/ exists u q w, z = u ++ q :: ch_dquote :: w /\ ~ In ch_dquote u /\ In q [40; 35; 39]%N.

Lemma fq_app : forall a z, fq a -> fq z -> fq (a ++ z).
Proof.
  intros a z [NA|(u & q & w & -> & NU & Q)] Z.
  - destruct Z as [NZ|(u & q & w & -> & NU & Q)].
    + left. intro I. apply in_app_or in I. tauto.
    + right. exists (a ++ u), q, w. split; [rewrite app_assoc; reflexivity|]. split; [|exact Q]. intro I. apply in_app_or in I. tauto.
  - right. exists u, q, (w ++ z). split; [rewrite <- app_assoc; reflexivity|]. split; assumption.
Qed.

Lemma fq_app_l : forall a z, fq a -> In ch_dquote a -> fq (a ++ z).
Proof.
  intros a z [NA|(u & q & w & -> & NU & Q)] I; [contradiction|]. right. exists u, q, (w ++ z). split; [rewrite <- app_assoc; reflexivity|]. split; assumption.
Qed.

Lemma fq_no : forall s, forallb (fun c => negb (c =? ch_dquote)%N) s = true -> fq s.
Proof.
  intros s H. left. intro I. rewrite forallb_forall in H. specialize (H _ I). rewrite N.eqb_refl in H. discriminate.
Qed.

Lemma fq_open : forall u q z, forallb (fun c => negb (c =? ch_dquote)%N) u = true -> In q [40; 35; 39]%N -> fq (u ++ [q; ch_dquote] ++ z).
Proof.
  intros u q z H Q. right. exists u, q, z. split; [reflexivity|]. split; [|exact Q].
  intro I. rewrite forallb_forall in H. specialize (H _ I). rewrite N.eqb_refl in H. discriminate.
Qed.

Lemma fq_char : forall f, fq ([ch_quote] ++ [f] ++ [ch_quote]).
Proof.
  intro f. destruct (N.eq_dec f ch_dquote) as [->|D].
  - apply (fq_open [] 39%N [ch_quote]); [reflexivity|cbn; tauto].
  - left. cbn. intros [X|[X|[X|[]]]]; [discriminate|congruence|discriminate].
Qed.

Lemma fq_bounds : forall rs, fq (bounds2code [] rs).
Proof.
  induction rs as [|[f t] rs IH]; [apply fq_no; reflexivity|]. cbn [bounds2code].
  change (s_ ", from '") with (s_ ", from " ++ [ch_quote]). change (s_ "', to '") with ([ch_quote] ++ s_ ", to " ++ [ch_quote]).
  change (s_ "' ") with ([ch_quote] ++ s_ " "). rewrite <- !app_assoc. apply fq_app; [apply fq_no; reflexivity|].
  rewrite (app_assoc [f]), (app_assoc [ch_quote]). apply fq_app; [apply fq_char|]. apply fq_app; [apply fq_no; reflexivity|].
  rewrite (app_assoc [t]), (app_assoc [ch_quote]). apply fq_app; [apply fq_char|]. apply fq_app; [apply fq_no; reflexivity|]. exact IH.
Qed.

Lemma dec_no_quote : forall n, fq (dec n).
Proof.
  intro n. left. unfold dec. assert (H : forall f k acc, ~ In ch_dquote acc -> ~ In ch_dquote (dec_aux f k acc)).
  { induction f as [|f IH]; intros k acc N; [exact N|]. cbn [dec_aux].
    assert (N' : ~ In ch_dquote (dec_digit (k mod 10) :: acc)).
    { intros [X|X]; [|exact (N X)]. unfold dec_digit, ch_dquote in X. lia. }
    destruct (k / 10 =? 0); [exact N'|apply IH; exact N']. }
  apply H. intros [].
Qed.

Lemma fq_mcode : forall es, Forall (fun e => fq (expr2code e)) es -> fq (mcode es).
Proof.
  intros es F. induction F as [|e es H F IH]; [apply fq_no; reflexivity|]. destruct F as [|e2 es H2 F]; [exact H|].
  change (mcode (e :: e2 :: es)) with (expr2code e ++ s_ ", " ++ mcode (e2 :: es)). apply fq_app; [exact H|]. apply fq_app; [apply fq_no; reflexivity|exact IH].
Qed.

Lemma fq_code : forall e, fq (expr2code e).
Proof.
  induction e as [a|es IH|es IH|e IH|e mn mx IH|n] using expr_ind'.
  - destruct a as [s|cs rs|s| |]; cbn [expr2code atom2code].
    + apply (fq_open (s_ "lit!") 40%N); [reflexivity|cbn; tauto].
    + apply (fq_open (s_ "ematch!(chlist r") 35%N); [reflexivity|cbn; tauto].
    + apply (fq_open (s_ "error!") 40%N); [reflexivity|cbn; tauto].
    + apply fq_no. reflexivity.
    + apply fq_no. reflexivity.
  - rewrite code_and. apply fq_app; [apply fq_no; reflexivity|]. apply fq_app; [apply fq_mcode; exact IH|apply fq_no; reflexivity].
  - rewrite code_or. apply fq_app; [apply fq_no; reflexivity|]. apply fq_app; [apply fq_mcode; exact IH|apply fq_no; reflexivity].
  - cbn [expr2code]. apply fq_app; [apply fq_no; reflexivity|]. apply fq_app; [exact IH|apply fq_no; reflexivity].
  - cbn [expr2code]. apply fq_app; [apply fq_no; reflexivity|]. apply fq_app; [exact IH|]. apply fq_app; [apply fq_no; reflexivity|].
    apply fq_app; [apply dec_no_quote|]. apply fq_app; [|apply fq_no; reflexivity].
    destruct mx as [m|]; [|apply fq_no; reflexivity]. apply fq_app; [apply fq_no; reflexivity|apply dec_no_quote].
  - cbn [expr2code]. apply (fq_open (s_ "ref_rule!(r") 35%N); [reflexivity|cbn; tauto].
Qed.

(* ---- string literals --------------------------------------------------------------------- *)

(** The lexer is in a string, with [acc] read so far, and [w] chars pending. *)
Inductive in_str : lstate -> str -> nat -> Prop :=
| is_str acc : in_str (LStr acc) acc 0
| is_esc acc : in_str (LEsc acc) acc 1
| is_hex acc ds : in_str (LHex acc ds) acc 1
| is_uni acc o : in_str (LUni acc o) acc 1.

Lemma in_str_step : forall st acc w c, in_str st acc w -> 
  step st c = None \/
  (exists st' acc' w', step st c = Some ([], st') /\ in_str st' acc' w' /\ (acc' = acc \/ exists v, acc' = acc ++ [v]) /\
     (In c [40; 35; 39]%N -> acc' = acc ++ [c] /\ w' = 0)) \/
  (c = ch_dquote /\ st = LStr acc /\ step st c = Some ([TStr acc], L0)).
Proof.
  intros st acc w c H. destruct H as [acc|acc|acc ds|acc o]; cbn [step].
  - destruct (N.eqb_spec c ch_cr) as [->|N1]; [left; reflexivity|]. destruct (N.eqb_spec c ch_dquote) as [->|N2]; [right; right; repeat split|].
    right; left. destruct (N.eqb_spec c ch_bslash) as [->|N3].
    + do 3 eexists. split; [reflexivity|]. split; [constructor|]. split; [left; reflexivity|]. cbn. intros [X|[X|[X|[]]]]; discriminate.
    + do 3 eexists. split; [reflexivity|]. split; [constructor|]. split; [right; eexists; reflexivity|]. intros _. split; reflexivity.
  - destruct (simple_escape c) as [v|] eqn:S.
    + right; left. do 3 eexists. split; [reflexivity|]. split; [constructor|]. split; [right; eexists; reflexivity|].
      cbn. intros [X|[X|[X|[]]]]; subst c; vm_compute in S; try discriminate. injection S as <-. split; reflexivity.
    + destruct (N.eqb_spec c 120) as [->|N1].
      * right; left. do 3 eexists. split; [reflexivity|]. split; [constructor|]. split; [left; reflexivity|]. cbn. intros [X|[X|[X|[]]]]; discriminate.
      * destruct (N.eqb_spec c 117) as [->|N2]; [|left; reflexivity].
        right; left. do 3 eexists. split; [reflexivity|]. split; [constructor|]. split; [left; reflexivity|]. cbn. intros [X|[X|[X|[]]]]; discriminate.
  - destruct (hex_val c) as [v|] eqn:S; [|left; destruct ds; reflexivity].
    assert (Q : ~ In c [40; 35; 39]%N) by (intros [X|[X|[X|[]]]]; subst c; vm_compute in S; discriminate).
    destruct ds as [|d [|d2 ds]]; [|right; left|left; reflexivity].
    + destruct (v <? 8)%N; [right; left|left; reflexivity]. do 3 eexists. split; [reflexivity|]. split; [constructor|]. split; [left; reflexivity|]. contradiction.
    + do 3 eexists. split; [reflexivity|]. split; [constructor|]. split; [right; eexists; reflexivity|]. contradiction.
  - destruct o as [ds|].
    + destruct (hex_val c) as [v|] eqn:S.
      * assert (Q : ~ In c [40; 35; 39]%N) by (intros [X|[X|[X|[]]]]; subst c; vm_compute in S; discriminate).
        destruct (length ds <? 6); [right; left|left; reflexivity]. do 3 eexists. split; [reflexivity|]. split; [constructor|]. split; [left; reflexivity|]. contradiction.
      * destruct ds as [|d ds]; [left; reflexivity|]. destruct (N.eqb_spec c 125) as [->|N1]; [|left; reflexivity]. cbn [andb].
        match goal with |- context [if ?b then _ else _] => destruct b end; [right; left|left; reflexivity].
        do 3 eexists. split; [reflexivity|]. split; [constructor|]. split; [right; eexists; reflexivity|]. cbn. intros [X|[X|[X|[]]]]; discriminate.
    + destruct (N.eqb_spec c 123) as [->|N1]; [right; left|left; reflexivity].
      do 3 eexists. split; [reflexivity|]. split; [constructor|]. split; [left; reflexivity|]. cbn. intros [X|[X|[X|[]]]]; discriminate.
Qed.

(** The value of the string extends what was read. *)
Lemma in_str_prefix : forall s st acc w x ts st', in_str st acc w -> run st s = Some (TStr x :: ts, st') -> exists u, x = acc ++ u.
Proof.
  induction s as [|c s IH]; intros st acc w x ts st' H E; cbn [run] in E; [discriminate|].
  destruct (in_str_step st acc w c H) as [N|[(s1 & a1 & w1 & N & H1 & X & _)|(-> & -> & N)]]; rewrite N in E.
  - discriminate.
  - rewrite emit_nil in E. destruct (IH _ _ _ _ _ _ H1 E) as [u ->]. destruct X as [->|[v ->]]; [exists u; reflexivity|].
    exists ([v] ++ u). rewrite <- app_assoc. reflexivity.
  - destruct (run L0 s) as [[t s0]|]; [|discriminate]. cbn in E. injection E as -> _ _. exists []. rewrite app_nil_r. reflexivity.
Qed.

(** Without double quotes the string goes on. *)
Lemma in_str_no_quote : forall u st acc w, in_str st acc w -> ~ In ch_dquote u ->
  run st u = None \/ exists st' acc' w', run st u = Some ([], st') /\ in_str st' acc' w'.
Proof.
  induction u as [|c u IH]; intros st acc w H N; [right; exists st, acc, w; split; [reflexivity|exact H]|]. cbn [run].
  assert (N' : ~ In ch_dquote u) by (intro X; apply N; right; exact X).
  destruct (in_str_step st acc w c H) as [E|[(s1 & a1 & w1 & E & H1 & _)|(-> & _)]].
  - rewrite E. left. reflexivity.
  - rewrite E, emit_nil. exact (IH s1 a1 w1 H1 N').
  - exfalso. apply N. left. reflexivity.
Qed.

(** A string that runs into the following code ends with the char before the next quote there. *)
Lemma fq_run : forall z acc x ts st, fq z -> run (LStr acc) z = Some (TStr x :: ts, st) -> exists y q, x = y ++ [q] /\ In q [40; 35; 39]%N.
Proof.
  intros z acc x ts st [N|(u & q & w & -> & N & Q)] E.
  - destruct (in_str_no_quote z _ _ _ (is_str acc) N) as [X|(s1 & a1 & w1 & X & _)]; rewrite X in E; discriminate.
  - destruct (in_str_no_quote u _ _ _ (is_str acc) N) as [X|(s1 & a1 & w1 & X & H1)].
    + exfalso. clear - X E. revert X E. generalize (LStr acc). induction u as [|c u IH]; intros s0 X E; cbn [run app] in *; [discriminate|].
      destruct (step s0 c) as [[t s2]|]; [|discriminate]. destruct (run s2 u) as [[t2 s3]|] eqn:R; [discriminate|].
      destruct (run s2 (u ++ q :: ch_dquote :: w)) as [[t3 s4]|] eqn:R2; [|discriminate]. 
      assert (forall a b s5, run s5 a = None -> run s5 (a ++ b) = None) as NA.
      { clear. induction a as [|c a IH]; intros b s5 H; [discriminate|]. cbn [run app] in *. destruct (step s5 c) as [[t s6]|]; [|reflexivity].
        destruct (run s6 a) as [[? ?]|] eqn:R; [discriminate|]. rewrite (IH b s6 R). reflexivity. }
      rewrite (NA _ _ _ R) in R2. discriminate.
    + rewrite (run_app u _ _ [] s1 X), emit_nil in E. cbn [run] in E.
      destruct (in_str_step s1 a1 w1 q H1) as [Y|[(s2 & a2 & w2 & Y & H2 & _ & QQ)|(-> & _)]]; [rewrite Y in E; discriminate| |].
      2: { destruct Q as [Q|[Q|[Q|[]]]]; discriminate. }
      rewrite Y, emit_nil in E. destruct (QQ Q) as [-> ->]. inversion H2; subst. cbn [step] in E. change ((ch_dquote =? ch_cr)%N) with false in E.
      rewrite N.eqb_refl in E. destruct (run L0 w) as [[t s3]|]; [|discriminate]. cbn in E. injection E as <- _ _. exists a1, q. split; [reflexivity|exact Q].
Qed.

(** Reading the escaped content of a literal gives at most one char per char of the content, unless the string
    runs into the following code. *)
Lemma escaped_bound : forall s st acc w z x ts st', in_str st acc w -> fq z ->
  run st (flat_map esc1 s ++ ch_dquote :: z) = Some (TStr x :: ts, st') ->
  length x <= length acc + w + length s \/
  ((exists y q, x = y ++ [q] /\ In q [40; 35; 39]%N) /\ ((s = [] /\ exists a, st = LEsc a) \/ exists s0, s = s0 ++ [ch_bslash])).
Proof.
  induction s as [|c s IH]; intros st acc w z x ts st' H Z E.
  - cbn [flat_map app run] in E. destruct H as [acc|acc|acc ds|acc o]; cbn [step] in E.
    + change ((ch_dquote =? ch_cr)%N) with false in E. rewrite N.eqb_refl in E. destruct (run L0 z) as [[t s3]|]; [|discriminate].
      cbn in E. injection E as <- _ _. left. cbn. lia.
    + change (simple_escape ch_dquote) with (Some ch_dquote) in E. cbn iota beta in E. rewrite emit_nil in E. right.
      split; [exact (fq_run z _ x ts st' Z E)|]. left. split; [reflexivity|]. eexists. reflexivity.
    + destruct ds; discriminate.
    + destruct o as [[|d ds]|]; discriminate.
  - assert (NEXT : forall st2 acc2 w2, in_str st2 acc2 w2 -> length acc2 + w2 <= length acc + w + 1 -> (forall a, st2 = LEsc a -> c = ch_bslash) ->
      run st2 (flat_map esc1 s ++ ch_dquote :: z) = Some (TStr x :: ts, st') ->
      length x <= length acc + w + length (c :: s) \/
      ((exists y q, x = y ++ [q] /\ In q [40; 35; 39]%N) /\ ((c :: s = [] /\ exists a, st = LEsc a) \/ exists s0, c :: s = s0 ++ [ch_bslash]))).
    { intros st2 acc2 w2 H2 L B E2. destruct (IH _ _ _ _ _ _ _ H2 Z E2) as [X|[X [[-> [a Y]]|[s0 ->]]]].
      - left. cbn [length]. lia.
      - right. split; [exact X|]. right. exists []. rewrite (B a Y). reflexivity.
      - right. split; [exact X|]. right. exists (c :: s0). reflexivity. }
    cbn [flat_map] in E. rewrite <- app_assoc in E. unfold esc1 in E at 1.
    assert (PAIR : forall d, In d [110; 114; 116; 34]%N -> run st ([ch_bslash; d] ++ flat_map esc1 s ++ ch_dquote :: z) = Some (TStr x :: ts, st') ->
      length x <= length acc + w + length (c :: s) \/
      ((exists y q, x = y ++ [q] /\ In q [40; 35; 39]%N) /\ ((c :: s = [] /\ exists a, st = LEsc a) \/ exists s0, c :: s = s0 ++ [ch_bslash]))).
    { intros d D E2. cbn [app run] in E2. destruct H as [acc|acc|acc ds|acc o]; cbn [step] in E2.
      - change ((ch_bslash =? ch_cr)%N) with false in E2. change ((ch_bslash =? ch_dquote)%N) with false in E2. rewrite N.eqb_refl in E2.
        rewrite emit_nil in E2. cbn [step] in E2. destruct (simple_escape d) as [v|] eqn:S.
        + rewrite emit_nil in E2. refine (NEXT _ _ _ (is_str _) _ _ E2); [rewrite app_length; cbn; lia|discriminate].
        + exfalso. destruct D as [<-|[<-|[<-|[<-|[]]]]]; vm_compute in S; discriminate.
      - change (simple_escape ch_bslash) with (Some ch_bslash) in E2. cbn iota beta in E2. rewrite emit_nil in E2. cbn [step] in E2.
        destruct D as [<-|[<-|[<-|[<-|[]]]]].
        1-3: change ((_ =? ch_cr)%N) with false in E2; change ((_ =? ch_dquote)%N) with false in E2; change ((_ =? ch_bslash)%N) with false in E2;
          cbn iota beta in E2; rewrite emit_nil in E2; refine (NEXT _ _ _ (is_str _) _ _ E2); [rewrite !app_length; cbn; lia|discriminate].
        change ((34 =? ch_cr)%N) with false in E2. change ((34 =? ch_dquote)%N) with true in E2. cbn iota beta in E2.
        destruct (run L0 (flat_map esc1 s ++ ch_dquote :: z)) as [[t s3]|]; [|discriminate]. cbn in E2. injection E2 as <- _ _.
        left. rewrite app_length. cbn. lia.
      - destruct ds; discriminate.
      - destruct o as [[|d0 ds]|]; discriminate. }
    destruct (N.eqb_spec c ch_nl) as [C|N1]; [exact (PAIR 110%N ltac:(cbn; tauto) E)|].
    destruct (N.eqb_spec c ch_cr) as [C|N2]; [exact (PAIR 114%N ltac:(cbn; tauto) E)|].
    destruct (N.eqb_spec c ch_tab) as [C|N3]; [exact (PAIR 116%N ltac:(cbn; tauto) E)|].
    destruct (N.eqb_spec c ch_dquote) as [C|N4]; [exact (PAIR 34%N ltac:(cbn; tauto) E)|]. clear PAIR.
    cbn [app run] in E. destruct (in_str_step st acc w c H) as [Y|[(s2 & a2 & w2 & Y & H2 & X & _)|(-> & _)]]; [rewrite Y in E; discriminate| |contradiction].
    rewrite Y, emit_nil in E. destruct H as [acc|acc|acc ds|acc o].
    + cbn [step] in Y. apply N.eqb_neq in N2, N4. rewrite N2, N4 in Y. destruct (N.eqb_spec c ch_bslash) as [->|N5]; injection Y as <-; inversion H2; subst.
      * refine (NEXT _ _ _ (is_esc _) _ _ E); [lia|reflexivity].
      * refine (NEXT _ _ _ (is_str _) _ _ E); [rewrite app_length; cbn; lia|discriminate].
    + assert (NE : forall a, s2 <> LEsc a).
      { intros a ->. cbn [step] in Y. destruct (simple_escape c); [discriminate|]. destruct ((c =? 120)%N); [discriminate|]. destruct ((c =? 117)%N); discriminate. }
      refine (NEXT _ _ _ H2 _ _ E); [|intros a Ya; contradiction (NE a Ya)]. inversion H2; subst; destruct X as [->|[v ->]]; rewrite ?app_length; cbn; lia.
    + assert (NE : forall a, s2 <> LEsc a).
      { intros a ->. cbn [step] in Y. destruct (hex_val c); destruct ds as [|d [|d2 ds]]; try discriminate. destruct ((n <? 8)%N); discriminate. }
      refine (NEXT _ _ _ H2 _ _ E); [|intros a Ya; contradiction (NE a Ya)]. inversion H2; subst; destruct X as [->|[v ->]]; rewrite ?app_length; cbn; lia.
    + assert (NE : forall a, s2 <> LEsc a).
      { intros a ->. cbn [step] in Y. destruct o as [ds|]; [|destruct ((c =? 123)%N); discriminate]. destruct (hex_val c); [destruct (length ds <? 6); discriminate|].
        destruct ds; [discriminate|]. cbn zeta in Y. match type of Y with context [if ?b then _ else _] => destruct b end; discriminate. }
      refine (NEXT _ _ _ H2 _ _ E); [|intros a Ya; contradiction (NE a Ya)]. inversion H2; subst; destruct X as [->|[v ->]]; rewrite ?app_length; cbn; lia.
Qed.

Lemma first_bslash : forall s, In ch_bslash s -> exists a b, s = a ++ ch_bslash :: b /\ ~ In ch_bslash a.
Proof.
  induction s as [|c s IH]; intro I; [contradiction|]. destruct (N.eq_dec c ch_bslash) as [->|N].
  - exists [], s. split; [reflexivity|intros []].
  - destruct I as [I|I]; [congruence|]. destruct (IH I) as (a & b & -> & NA). exists (c :: a), b. split; [reflexivity|].
    intros [X|X]; [congruence|contradiction].
Qed.

Lemma string_exact : forall s z ts st, fq z -> run (LStr []) (flat_map esc1 s ++ ch_dquote :: z) = Some (TStr s :: ts, st) -> ~ In ch_bslash s.
Proof.
  intros s z ts st Z E I. destruct (first_bslash s I) as (a & b & Es & NA). rewrite Es in E at 1. rewrite flat_map_app in E.
  change (ch_bslash :: b) with ([ch_bslash] ++ b) in E. rewrite flat_map_app in E. change (flat_map esc1 [ch_bslash]) with [ch_bslash] in E. rewrite <- !app_assoc in E.
  rewrite (run_app _ _ _ [] (LStr a) (run_escaped a [] NA)), emit_nil in E. cbn [app] in E.
  rewrite (run_cons ch_bslash _ (LStr a) [] (LEsc a) eq_refl), emit_nil in E. destruct b as [|c b].
  - cbn [flat_map app] in E. rewrite (run_cons ch_dquote _ (LEsc a) [] (LStr (a ++ [ch_dquote])) eq_refl), emit_nil in E.
    destruct (in_str_prefix _ _ _ _ _ _ _ (is_str _) E) as [u X]. rewrite Es, <- app_assoc in X. apply app_inv_head in X. discriminate.
  - cbn [flat_map] in E. rewrite <- app_assoc in E. unfold esc1 in E at 1.
    destruct (N.eqb_spec c ch_nl) as [C|N1].
    { rewrite (run_app (s_ "\n") _ (LEsc a) [] (LStr (a ++ [ch_bslash] ++ [110%N]))) in E by (rewrite app_assoc; reflexivity). rewrite emit_nil in E.
      destruct (in_str_prefix _ _ _ _ _ _ _ (is_str _) E) as [u X]. rewrite Es, <- !app_assoc in X. apply app_inv_head in X. injection X as X _. rewrite C in X. discriminate X. }
    destruct (N.eqb_spec c ch_cr) as [C|N2].
    { rewrite (run_app (s_ "\r") _ (LEsc a) [] (LStr (a ++ [ch_bslash] ++ [114%N]))) in E by (rewrite app_assoc; reflexivity). rewrite emit_nil in E.
      destruct (in_str_prefix _ _ _ _ _ _ _ (is_str _) E) as [u X]. rewrite Es, <- !app_assoc in X. apply app_inv_head in X. injection X as X _. rewrite C in X. discriminate X. }
    destruct (N.eqb_spec c ch_tab) as [C|N3].
    { rewrite (run_app (s_ "\t") _ (LEsc a) [] (LStr (a ++ [ch_bslash] ++ [116%N]))) in E by (rewrite app_assoc; reflexivity). rewrite emit_nil in E.
      destruct (in_str_prefix _ _ _ _ _ _ _ (is_str _) E) as [u X]. rewrite Es, <- !app_assoc in X. apply app_inv_head in X. injection X as X _. rewrite C in X. discriminate X. }
    destruct (N.eqb_spec c ch_dquote) as [C|N4].
    { rewrite (run_app [ch_bslash; ch_dquote] _ (LEsc a) [TStr (a ++ [ch_bslash])] L0 eq_refl) in E.
      destruct (run L0 (flat_map esc1 b ++ ch_dquote :: z)) as [[t s3]|]; [|discriminate]. cbn in E. injection E as X _ _. rewrite Es in X.
      apply app_inv_head in X. discriminate. }
    cbn [app run] in E. destruct (in_str_step _ _ _ c (is_esc a)) as [Y|[(s2 & a2 & w2 & Y & H2 & X & _)|(-> & _)]]; [rewrite Y in E; discriminate| |contradiction].
    rewrite Y, emit_nil in E.
    assert (NE : forall a0, s2 <> LEsc a0).
    { intros a0 ->. cbn [step] in Y. destruct (simple_escape c); [discriminate|]. destruct ((c =? 120)%N); [discriminate|]. destruct ((c =? 117)%N); discriminate. }
    destruct (escaped_bound b _ _ _ _ _ _ _ H2 Z E) as [L|[(y & q & Ex & Q) [[-> [a0 Y0]]|[s0 ->]]]].
    + rewrite Es, app_length in L. cbn [length] in L. cbn [step] in Y.
      assert (W : length a2 + w2 <= length a + 1).
      { destruct (simple_escape c); [injection Y as <-; inversion H2; subst; rewrite app_length; cbn; lia|].
        destruct ((c =? 120)%N); [injection Y as <-; inversion H2; subst; lia|]. destruct ((c =? 117)%N); [injection Y as <-; inversion H2; subst; lia|discriminate]. }
      lia.
    + exact (NE a0 Y0).
    + rewrite Es in Ex. change (a ++ ch_bslash :: c :: s0 ++ [ch_bslash]) with (a ++ (ch_bslash :: c :: s0) ++ [ch_bslash]) in Ex.
      rewrite app_assoc in Ex. apply app_inj_tail in Ex. destruct Ex as [_ <-]. destruct Q as [Q|[Q|[Q|[]]]]; discriminate.
Qed.

(* ---- raw strings and chars --------------------------------------------------------------- *)

Lemma raw_exact : forall s acc z ts st,
  (run (LRaw acc) (s ++ [ch_dquote; 35%N] ++ z) = Some (TStr (acc ++ s) :: ts, st) -> raw_ok s) /\
  (run (LRawQ acc) (s ++ [ch_dquote; 35%N] ++ z) = Some (TStr (acc ++ [ch_dquote] ++ s) :: ts, st) -> raw_ok s /\ forall t, s <> 35%N :: t).
Proof.
  assert (NIL : raw_ok []).
  { split; [intros []|]. intros pre post E. destruct pre; discriminate. }
  assert (CONS : forall c s, c <> ch_cr -> (c = ch_dquote -> forall t, s <> 35%N :: t) -> raw_ok s -> raw_ok (c :: s)).
  { intros c s N Q [CR NH]. split; [intros [X|X]; [congruence|exact (CR X)]|]. intros [|p pre] post E; cbn in E.
    - injection E as E1 E2. exact (Q E1 _ E2).
    - injection E as _ E2. exact (NH pre post E2). }
  induction s as [|c s IH]; intros acc z ts st.
  - split; intro E; [exact NIL|]. split; [exact NIL|discriminate].
  - split; intro E; cbn [app run step] in E.
    + destruct (N.eqb_spec c ch_cr) as [->|N1]; [discriminate|]. destruct (N.eqb_spec c ch_dquote) as [->|N2]; rewrite emit_nil in E.
      * destruct (proj2 (IH acc z ts st) E) as [H1 H2]. apply CONS; [exact N1|intros _; exact H2|exact H1].
      * change (c :: s) with ([c] ++ s) in E. rewrite app_assoc in E. apply CONS; [exact N1|contradiction|]. exact (proj1 (IH (acc ++ [c]) z ts st) E).
    + destruct (N.eqb_spec c ch_cr) as [->|N1]; [discriminate|]. destruct (N.eqb_spec c 35) as [->|N3].
      { exfalso. match type of E with emit _ ?r = _ => destruct r as [[t s3]|]; [|discriminate] end. cbn in E. injection E as X _ _.
        apply (f_equal (@length char)) in X. rewrite app_length in X. cbn in X. lia. }
      destruct (N.eqb_spec c ch_dquote) as [->|N2]; rewrite emit_nil in E.
      * change (ch_dquote :: ch_dquote :: s) with ([ch_dquote] ++ [ch_dquote] ++ s) in E. rewrite (app_assoc acc) in E.
        destruct (proj2 (IH (acc ++ [ch_dquote]) z ts st) E) as [H1 H2].
        split; [apply CONS; [exact N1|intros _; exact H2|exact H1]|]. intros t X. discriminate.
      * change (ch_dquote :: c :: s) with ([ch_dquote; c] ++ s) in E. rewrite (app_assoc acc) in E.
        split; [|intros t X; injection X as X _; contradiction]. apply CONS; [exact N1|contradiction|]. exact (proj1 (IH (acc ++ [ch_dquote; c]) z ts st) E).
Qed.

Lemma raw_string_exact : forall s z ts st, run L0 ((s_ "r#""" ++ s ++ s_ """#") ++ z) = Some (TStr s :: ts, st) -> raw_ok s.
Proof.
  intros s z ts st E. rewrite <- !app_assoc in E. rewrite (run_app (s_ "r#""") _ L0 [] (LRaw []) eq_refl), emit_nil in E. exact (proj1 (raw_exact s [] z ts st) E).
Qed.

Lemma char_exact : forall c d z t ts st, d <> ch_quote -> run L0 ([ch_quote] ++ [c] ++ [ch_quote] ++ d :: z) = Some (t :: ts, st) -> char_ok c.
Proof.
  intros c d z t ts st D E. cbn [app] in E. rewrite (run_cons ch_quote _ L0 [] LCh eq_refl), emit_nil in E. cbn [run step] in E.
  unfold char_ok. cbn [In]. intro I.
  destruct (N.eqb_spec c ch_quote) as [->|N1]; [discriminate|]. destruct (N.eqb_spec c ch_nl) as [->|N2]; [discriminate|].
  destruct (N.eqb_spec c ch_cr) as [->|N3]; [discriminate|]. destruct (N.eqb_spec c ch_tab) as [->|N4]; [discriminate|].
  destruct (N.eqb_spec c ch_bslash) as [->|N5].
  - cbn [orb] in E. rewrite emit_nil in E. cbn [step] in E. change (simple_escape ch_quote) with (Some ch_quote) in E. cbn iota beta in E. rewrite emit_nil in E.
    cbn [step] in E. apply N.eqb_neq in D. rewrite D in E. discriminate.
  - destruct I as [I|[I|[I|[I|[I|[]]]]]]; congruence.
Qed.

Lemma bounds_exact : forall rs z ts st, run L0 (bounds2code [] rs ++ z) = Some (flat_map (fun r => TComma :: range_arg r) rs ++ ts, st) ->
  Forall (fun r => char_ok (fst r) /\ char_ok (snd r)) rs.
Proof.
  induction rs as [|[f t] rs IH]; intros z ts st E; [constructor|]. pose proof E as E0. cbn [bounds2code flat_map] in E.
  change (s_ ", from '") with (s_ ", from " ++ [ch_quote]) in E. change (s_ "', to '") with ([ch_quote] ++ s_ ", to " ++ [ch_quote]) in E.
  change (s_ "' ") with ([ch_quote] ++ s_ " ") in E. rewrite <- !app_assoc in E.
  change (TComma :: range_arg (f, t)) with ([TComma; TId (s_ "from")] ++ [TChar f] ++ [TComma; TId (s_ "to")] ++ [TChar t]) in E. rewrite <- !app_assoc in E.
  apply run_skip in E; [|reflexivity]. pose proof (char_exact f 44%N _ _ _ _ ltac:(discriminate) E) as CF.
  rewrite (app_assoc [f]), (app_assoc [ch_quote]) in E. apply run_skip in E; [|exact (run_char f CF)].
  apply run_skip in E; [|reflexivity]. pose proof (char_exact t 32%N _ _ _ _ ltac:(discriminate) E) as CT.
  rewrite (app_assoc [t]), (app_assoc [ch_quote]) in E. apply run_skip in E; [|exact (run_char t CT)].
  apply (run_skip (s_ " ") _ []) in E; [|reflexivity]. constructor; [split; assumption|]. exact (IH z ts st E).
Qed.

(* ---- expressions ------------------------------------------------------------------------- *)

Lemma commas_ranges : forall rs, rs <> [] -> TComma :: commas (map range_arg rs) = flat_map (fun r => TComma :: range_arg r) rs.
Proof.
  intros [|r rs] N; [contradiction|]. cbn [map]. rewrite commas_flat. cbn [flat_map]. rewrite <- app_comm_cons. f_equal. f_equal.
  clear N. induction rs as [|x rs IH]; [reflexivity|]. cbn [map flat_map]. rewrite IH. reflexivity.
Qed.

Definition exact_at (e : expr) : Prop := forall z ts st, evaluable e -> fq z -> run L0 (expr2code e ++ z) = Some (toks e ++ ts, st) -> codable e.

Lemma mcode_exact : forall es z ts st, Forall exact_at es -> Forall evaluable es -> fq z ->
  run L0 (mcode es ++ z) = Some (commas (map toks es) ++ ts, st) -> Forall codable es /\ lexed (mcode es) (commas (map toks es)).
Proof.
  induction es as [|e es IH]; intros z ts st X V Z E; [split; [constructor|reflexivity]|].
  inversion X as [|? ? Xe Xs]; subst. inversion V as [|? ? Ve Vs]; subst. destruct es as [|e2 es].
  - pose proof (Xe z ts st Ve Z E) as C. split; [constructor; [exact C|constructor]|]. exact (codable_lexed e C).
  - change (mcode (e :: e2 :: es)) with (expr2code e ++ s_ ", " ++ mcode (e2 :: es)) in *.
    change (commas (map toks (e :: e2 :: es))) with (toks e ++ [TComma] ++ commas (map toks (e2 :: es))) in *. rewrite <- !app_assoc in E.
    assert (C : codable e).
    { refine (Xe _ _ st Ve _ E). apply fq_app; [apply fq_no; reflexivity|]. apply fq_app; [|exact Z]. apply fq_mcode. apply Forall_forall. intros; apply fq_code. }
    apply run_skip in E; [|exact (codable_lexed e C)]. apply run_skip in E; [|reflexivity]. destruct (IH z ts st Xs Vs Z E) as [CS L].
    split; [constructor; assumption|]. apply lexed_app; [exact (codable_lexed e C)|]. apply lexed_app; [reflexivity|exact L].
Qed.

Lemma expr_exact : forall e, exact_at e.
Proof.
  induction e as [a|es IH|es IH|e IH|e mn mx IH|n] using expr_ind'; intros z ts st V Z E.
  - destruct a as [s|cs rs|s| |]; cbn [expr2code atom2code toks codable] in *.
    + change (s_ "lit!(""") with (s_ "lit!(" ++ s_ """") in E. change (s_ """)") with (ch_dquote :: s_ ")") in E. unfold call in E. rewrite <- !app_assoc in E.
      apply run_skip in E; [|reflexivity]. rewrite (run_app (s_ """") _ L0 [] (LStr []) eq_refl), emit_nil, replace_esc_flat in E.
      refine (string_exact s (s_ ")" ++ z) _ st _ E). apply fq_app; [apply fq_no; reflexivity|exact Z].
    + pose proof (evaluable_inv _ V) as N. cbn in N.
      change (s_ "ematch!(chlist r#""") with (s_ "ematch!(" ++ s_ "chlist " ++ s_ "r#""") in E. change (s_ """#  ") with (s_ """#" ++ s_ "  ") in E.
      unfold match_rules2code in E. change (s_ "ematch!(chlist r#""") with (s_ "ematch!(" ++ s_ "chlist " ++ s_ "r#""") in E.
      change (s_ """#  ") with (s_ """#" ++ s_ "  ") in E. rewrite <- !app_assoc in E. rewrite (app_assoc cs), (app_assoc (s_ "r#""")) in E.
      change (call "ematch" ([TId (s_ "chlist"); TStr cs; TComma] ++ commas (map range_arg rs)) ++ ts)
        with ([TId (s_ "ematch"); TBang; TOpen] ++ [TId (s_ "chlist")] ++ [TStr cs] ++ [] ++ ((TComma :: commas (map range_arg rs)) ++ [TClose]) ++ ts) in E.
      rewrite (commas_ranges rs N), <- !app_assoc in E. rewrite (app_assoc cs), (app_assoc (s_ "r#""")) in E.
      apply run_skip in E; [|reflexivity]. apply run_skip in E; [|reflexivity]. pose proof (raw_string_exact cs _ _ _ E) as RO.
      apply run_skip in E; [|exact (run_raw_string cs RO)]. apply run_skip in E; [|reflexivity].
      split; [exact RO|]. split; [exact N|]. exact (bounds_exact rs _ _ _ E).
    + change (s_ "error!(""") with (s_ "error!(" ++ s_ """") in E. change (s_ """)") with (ch_dquote :: s_ ")") in E. unfold call in E. rewrite <- !app_assoc in E.
      apply run_skip in E; [|reflexivity]. rewrite (run_app (s_ """") _ L0 [] (LStr []) eq_refl), emit_nil, replace_esc_flat in E.
      refine (string_exact s (s_ ")" ++ z) _ st _ E). apply fq_app; [apply fq_no; reflexivity|exact Z].
    + exact I.
    + exact (evaluable_inv _ V).
  - pose proof (evaluable_inv _ V) as VS. cbn in VS. rewrite code_and in E. cbn [toks] in E. unfold call in E. rewrite <- !app_assoc in E.
    apply run_skip in E; [|reflexivity]. cbn [codable]. apply codable_list.
    refine (proj1 (mcode_exact es _ _ st IH VS _ E)). apply fq_app; [apply fq_no; reflexivity|exact Z].
  - pose proof (evaluable_inv _ V) as VS. cbn in VS. rewrite code_or in E. cbn [toks] in E. unfold call in E. rewrite <- !app_assoc in E.
    apply run_skip in E; [|reflexivity]. cbn [codable]. apply codable_list.
    refine (proj1 (mcode_exact es _ _ st IH VS _ E)). apply fq_app; [apply fq_no; reflexivity|exact Z].
  - pose proof (evaluable_inv _ V) as V1. cbn in V1. cbn [expr2code toks codable] in *. unfold call in E. rewrite <- !app_assoc in E.
    apply run_skip in E; [|reflexivity]. refine (IH _ _ st V1 _ E). apply fq_app; [apply fq_no; reflexivity|exact Z].
  - pose proof (evaluable_inv _ V) as V1. cbn in V1. cbn [codable]. cbn [expr2code] in E.
    assert (FZ : fq (s_ ", " ++ dec mn ++ match mx with Some m => s_ ", " ++ dec m | None => [] end ++ s_ ")" ++ z)).
    { apply fq_app; [apply fq_no; reflexivity|]. apply fq_app; [apply dec_no_quote|].
      apply fq_app; [destruct mx as [m|]; [apply fq_app; [apply fq_no; reflexivity|apply dec_no_quote]|apply fq_no; reflexivity]|].
      apply fq_app; [apply fq_no; reflexivity|exact Z]. }
    assert (ET : exists t, toks (Repeat e mn mx) = [TId (s_ "rep"); TBang; TOpen] ++ toks e ++ t).
    { destruct mx as [m|]; cbn [toks]; unfold call; rewrite <- !app_assoc; eexists; reflexivity. }
    destruct ET as [t ET]. rewrite ET in E. rewrite <- !app_assoc in E. apply run_skip in E; [|reflexivity].
    refine (IH _ _ st V1 FZ _). destruct mx as [m|]; rewrite <- ?app_assoc in *; exact E.
  - cbn [expr2code toks codable] in *. change (s_ "ref_rule!(r#""") with (s_ "ref_rule!(" ++ s_ "r#""") in E. change (s_ """#)") with (s_ """#" ++ s_ ")") in E.
    unfold call in E. rewrite <- !app_assoc in E. apply run_skip in E; [|reflexivity]. rewrite (app_assoc n), (app_assoc (s_ "r#""")) in E.
    exact (raw_string_exact n _ _ _ E).
Qed.

(* ---- rule sets --------------------------------------------------------------------------- *)

Definition sep : str := [ch_nl] ++ s_ "       " ++ s_ ", ".
Definition entry_toks (p : str * expr) : list tok := [TStr (fst p); TArrow] ++ toks (snd p).

Lemma rules_text_acc : forall l acc, acc <> [] ->
  fold_left (fun acc p => add_rule acc (rule2code (fst p) (snd p))) l acc = acc ++ flat_map (fun p => sep ++ rule2code (fst p) (snd p)) l.
Proof.
  induction l as [|p l IH]; intros acc A; cbn [fold_left flat_map]; [rewrite app_nil_r; reflexivity|].
  rewrite IH by apply add_rule_nonempty. unfold add_rule, sep. destruct acc; [contradiction|]. rewrite <- !app_assoc. reflexivity.
Qed.

Lemma rules_text : forall p l, rust_from_rules (p :: l) =
  ([ch_nl] ++ s_ "       " ++ s_ "  ") ++ rule2code (fst p) (snd p) ++ flat_map (fun p => sep ++ rule2code (fst p) (snd p)) l.
Proof. intros p l. unfold rust_from_rules. cbn [fold_left]. rewrite rules_text_acc by apply add_rule_nonempty. unfold add_rule. rewrite <- !app_assoc. reflexivity. Qed.

Lemma fq_rule : forall p, fq (rule2code (fst p) (snd p)).
Proof. intro p. apply (fq_open (s_ "r") 35%N); [reflexivity|cbn; tauto]. Qed.

Lemma fq_rules : forall l, fq (flat_map (fun p => sep ++ rule2code (fst p) (snd p)) l).
Proof.
  induction l as [|p l IH]; [apply fq_no; reflexivity|]. cbn [flat_map]. apply fq_app; [|exact IH]. apply fq_app; [apply fq_no; reflexivity|apply fq_rule].
Qed.

Lemma rule_exact : forall p z ts st, evaluable (snd p) -> fq z -> run L0 (rule2code (fst p) (snd p) ++ z) = Some (entry_toks p ++ ts, st) ->
  (raw_ok (fst p) /\ codable (snd p)) /\ run L0 z = Some (ts, st).
Proof.
  intros [n e] z ts st V Z E. unfold rule2code, entry_toks in E. cbn [fst snd] in *. change (s_ """# => ") with (s_ """#" ++ s_ " => ") in E.
  change ([TStr n; TArrow] ++ toks e) with ([TStr n] ++ [TArrow] ++ toks e) in E. rewrite <- !app_assoc in E. rewrite (app_assoc n), (app_assoc (s_ "r#""")) in E.
  pose proof (raw_string_exact n _ _ _ E) as R. apply run_skip in E; [|exact (run_raw_string n R)]. apply run_skip in E; [|reflexivity].
  pose proof (expr_exact e _ _ _ V Z E) as C. apply run_skip in E; [|exact (codable_lexed e C)]. split; [split; assumption|exact E].
Qed.

Lemma rules_exact : forall l ts st, Forall (fun p => evaluable (snd p)) l ->
  run L0 (flat_map (fun p => sep ++ rule2code (fst p) (snd p)) l) = Some (flat_map (fun p => TComma :: entry_toks p) l ++ ts, st) ->
  Forall (fun p => raw_ok (fst p) /\ codable (snd p)) l.
Proof.
  induction l as [|p l IH]; intros ts st V E; [constructor|]. inversion V as [|? ? Ve Vs]; subst. cbn [flat_map] in E.
  change (TComma :: entry_toks p) with ([TComma] ++ entry_toks p) in E. rewrite <- !app_assoc in E. apply run_skip in E; [|reflexivity].
  destruct (rule_exact p _ _ _ Ve (fq_rules l) E) as [C E2]. constructor; [exact C|]. exact (IH ts st Vs E2).
Qed.

Lemma reads_back_only : forall l, rust_rules (rust_from_rules l) l -> Forall (fun p => raw_ok (fst p) /\ codable (snd p)) l.
Proof.
  intros l (ts & tss & T & -> & F). destruct l as [|p l]; [constructor|].
  assert (V : Forall (fun p => evaluable (snd p)) (p :: l)).
  { clear - F. induction F as [|t q tss l' [n u e H] F IH]; constructor; [exists u; exact H|exact IH]. }
  assert (EQ : tss = map entry_toks (p :: l)).
  { clear - F. induction F as [|t q tss l' [n u e H] F IH]; [reflexivity|]. cbn [map]. rewrite <- IH, (evaluates_toks u e H). reflexivity. }
  subst tss. cbn [map] in T. rewrite commas_flat in T. rewrite flat_map_concat_map, map_map, <- flat_map_concat_map in T.
  assert (R : exists ts st, run L0 (rust_from_rules (p :: l)) = Some ((entry_toks p ++ flat_map (fun x => TComma :: entry_toks x) l) ++ ts, st)).
  { unfold tokens in T. destruct (run L0 (rust_from_rules (p :: l))) as [[t s]|]; [|discriminate].
    assert (LAST : exists y, entry_toks p ++ flat_map (fun x => TComma :: entry_toks x) l = y ++ [TClose]).
    { assert (LE : forall q, evaluable (snd q) -> exists y, entry_toks q = y ++ [TClose]).
      { intros [n e] [u H]. unfold entry_toks. cbn [fst snd]. rewrite <- (evaluates_toks u e H). destruct H; unfold call; rewrite !app_assoc; eexists; reflexivity. }
      clear - V LE. revert p V. induction l as [|q l IH]; intros p V; inversion V as [|? ? Vp Vl]; subst.
      - destruct (LE p Vp) as [y ->]. exists y. cbn. apply app_nil_r.
      - destruct (IH q Vl) as [y E]. exists (entry_toks p ++ [TComma] ++ y). cbn [flat_map]. rewrite <- !app_assoc, <- E. reflexivity. }
    destruct LAST as [y LAST]. destruct s; try discriminate; injection T as T.
    - exists [], L0. rewrite app_nil_r. f_equal. f_equal. exact T.
    - exfalso. pose proof (eq_trans T LAST) as T'. apply app_inj_tail in T'. destruct T' as [_ T']. discriminate.
    - exfalso. pose proof (eq_trans T LAST) as T'. apply app_inj_tail in T'. destruct T' as [_ T']. discriminate. }
  destruct R as (ts & st & R). rewrite rules_text in R.
  inversion V as [|? ? Ve Vs]; subst. apply (run_skip ([ch_nl] ++ s_ "       " ++ s_ "  ") _ []) in R; [|reflexivity].
  rewrite <- app_assoc in R. destruct (rule_exact p _ _ _ Ve (fq_rules l) R) as [C E2]. constructor; [exact C|]. exact (rules_exact l ts st Vs E2).
Qed.
