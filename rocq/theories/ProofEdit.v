(** Proofs: exchanging a piece of a tree. *)
From Verif Require Import Base ModelAst ModelParser SpecPeg SpecPos SpecApi SpecWf SpecBnf SpecPower SpecPieces SpecEdit.
From Verif Require Import ProofParser ProofEngine ProofApi ProofWf ProofBnf ProofPower ProofPieces.

Lemma exchanged_app : forall u v ts us k l', exchanged u v k (ts ++ us) l' ->
  (exists ts', exchanged u v k ts ts' /\ l' = ts' ++ us) \/ (exists us' j, k = length (flat_map leaves ts) + j /\ exchanged u v j us us' /\ l' = ts ++ us').
Proof.
  intros u v ts us. induction ts as [|t ts IH]; intros k l' H; [right; exists l', k; auto|]. cbn [app] in H.
  remember (t :: ts ++ us) as z eqn:Z. destruct H as [l|k n kids kids' l H|k t0 l l0 H].
  - injection Z as -> ->. left. exists (v :: ts). split; [constructor|reflexivity].
  - injection Z as <- ->. left. exists (Rule n kids' :: ts). split; [constructor; exact H|reflexivity].
  - injection Z as -> ->. destruct (IH k l0 H) as [(ts' & E & ->)|(us' & j & -> & E & ->)].
    + left. exists (t :: ts'). split; [constructor; exact E|reflexivity].
    + right. exists us', j. split; [cbn [flat_map]; rewrite app_length; lia|]. split; [exact E|reflexivity].
Qed.

Lemma exchanged_text : forall u v k l l', exchanged u v k l l' -> exists a b, flat_map leaves l = a ++ leaves u ++ b /\ flat_map leaves l' = a ++ leaves v ++ b /\ length a = k.
Proof.
  intros u v k l l' H. induction H as [l|k n kids kids' l H IH|k t l l' H IH].
  - exists [], (flat_map leaves l). auto.
  - destruct IH as (a & b & E1 & E2 & L). exists a, (b ++ flat_map leaves l). cbn [flat_map leaves]. rewrite E1, E2, !app_assoc. auto.
  - destruct IH as (a & b & E1 & E2 & L). exists (leaves t ++ a), b. cbn [flat_map]. rewrite E1, E2, !app_assoc, app_length. auto.
Qed.

Lemma exchanged_edit : forall u v k l l', exchanged u v k l l' -> flat_map leaves l' = edit (flat_map leaves l) k (length (leaves u)) (leaves v).
Proof.
  intros u v k l l' H. destruct (exchanged_text u v k l l' H) as (a & b & E1 & E2 & L). unfold edit. rewrite E1, E2, <- L.
  rewrite firstn_app, firstn_all, Nat.sub_diag, firstn_O, app_nil_r. f_equal. f_equal. symmetry.
  rewrite app_assoc, <- app_length, skipn_app, skipn_all, Nat.sub_diag. reflexivity.
Qed.

Lemma piece_exchanged : forall u k l, piece k u l -> forall v, exists l', exchanged u v k l l'.
Proof.
  intros u k l H v. induction H as [nd l|k nd n kids l H [l' IH]|k nd t l H [l' IH]]; eexists.
  - constructor.
  - constructor. exact IH.
  - constructor. exact IH.
Qed.

Section Derives.
Variable G : str -> option expr.

Lemma derives_exchanged : forall e w ts, derives G e w ts -> forall n us vs k ts' x, derives G (RuleName n) x [Rule n vs] ->
  exchanged (Rule n us) (Rule n vs) k ts ts' -> exists w', derives G e w' ts'.
Proof.
  intros e w ts D. induction D; intros m us0 vs k ts' x X Q.
  1-4: exfalso; remember [Val _] as z eqn:Z in Q; destruct Q as [|? ? ? ? ? Q|? ? ? ? Q]; try discriminate; injection Z as -> ->; inversion Q.
  - inversion Q.
  - apply exchanged_app in Q. destruct Q as [(ts1 & Q & ->)|(us1 & j & _ & Q & ->)].
    + destruct (IHD1 _ _ _ _ _ _ X Q) as [w' W]. eexists. apply d_and_cons; eassumption.
    + destruct (IHD2 _ _ _ _ _ _ X Q) as [w' W]. eexists. apply d_and_cons; eassumption.
  - destruct (IHD _ _ _ _ _ _ X Q) as [w' W]. eexists. eapply d_or; eassumption.
  - inversion Q.
  - inversion Q.
  - apply exchanged_app in Q. destruct Q as [(ts1 & Q & ->)|(us1 & j & _ & Q & ->)].
    + destruct (IHD1 _ _ _ _ _ _ X Q) as [w' W]. eexists. apply d_rep_more; eassumption.
    + destruct (IHD2 _ _ _ _ _ _ X Q) as [w' W]. eexists. apply d_rep_more; eassumption.
  - remember [Rule n ts] as z eqn:Z in Q. destruct Q as [l|k n0 kids kids' l Q|k t l l' Q].
    + injection Z as <- <- ->. eexists. exact X.
    + injection Z as -> -> ->. destruct (IHD _ _ _ _ _ _ X Q) as [w' W]. eexists. eapply d_rule; eassumption.
    + injection Z as -> ->. inversion Q.
Qed.

Lemma derives_piece : forall e w ts, derives G e w ts -> forall k n us, piece k (Rule n us) ts -> exists x, derives G (RuleName n) x [Rule n us].
Proof.
  intros e w ts D. induction D; intros k m us0 P.
  1-4: exfalso; remember [Val _] as z eqn:Z in P; remember (Rule m us0) as y eqn:Y; destruct P as [? ?|? ? ? ? ? P|? ? ? ? P]; subst; try discriminate; injection Z as -> ->; inversion P.
  - inversion P.
  - apply piece_app in P. destruct P as [P|(j & _ & P)]; eauto.
  - eauto.
  - inversion P.
  - inversion P.
  - apply piece_app in P. destruct P as [P|(j & _ & P)]; eauto.
  - remember [Rule n ts] as z eqn:Z in P. remember (Rule m us0) as y eqn:Y. destruct P as [nd l|k nd n0 kids l P|k nd t l P].
    + rewrite Y in Z. injection Z as -> -> ->. eexists. rewrite Y. eapply d_rule; eassumption.
    + injection Z as -> -> ->. subst. eauto.
    + injection Z as -> ->. inversion P.
Qed.

Lemma derives_spell : (forall n e, G n = Some e -> ~ has_atom AEOF e) -> forall e w ts, derives G e w ts -> ~ has_atom AEOF e -> flat_map leaves ts = w.
Proof.
  intros NG e w ts D. induction D; intro N; cbn [flat_map leaves app]; try reflexivity.
  - apply app_nil_r.
  - exfalso. apply N. constructor.
  - rewrite flat_map_app, IHD1, IHD2; [reflexivity| |]; intro X; apply N; [inversion X; subst; econstructor; [right; eassumption|assumption]|econstructor; [left; reflexivity|exact X]].
  - apply IHD. intro X. apply N. econstructor; eassumption.
  - rewrite flat_map_app, IHD1, IHD2; [reflexivity| |]; intro X; apply N; [inversion X; subst; constructor; assumption|constructor; exact X].
  - rewrite app_nil_r. apply IHD. exact (NG n e H).
Qed.

End Derives.

Lemma derives_move : forall G G', (forall n, n <> main -> G' n = G n) -> (forall n e, n <> main -> G n = Some e -> ~ has_ref main e) ->
  forall e w ts, derives G' e w ts -> ~ has_ref main e -> derives G e w ts.
Proof.
  intros G G' GG NG e w ts D. induction D; intro N; try (constructor; fail).
  - constructor; assumption.
  - constructor; [apply IHD1|apply IHD2]; intro X; apply N; [econstructor; [left; reflexivity|exact X]|inversion X; subst; econstructor; [right; eassumption|assumption]].
  - econstructor; [eassumption|]. apply IHD. intro X. apply N. econstructor; eassumption.
  - constructor; [assumption|apply IHD1|apply IHD2]; intro X; apply N; [constructor; exact X|inversion X; subst; constructor; assumption].
  - assert (M : n <> main) by (intros ->; apply N; constructor). rewrite (GG n M) in H. econstructor; [exact H|]. apply IHD. exact (NG n e M H).
Qed.

Section Edit.
Variable rs : rules.
Hypothesis SR : sane_rules rs.
Hypothesis NE : no_eof_atom rs.
Hypothesis WF : well_formed (grammar_of rs).
Hypothesis PG : predictive_grammar (grammar_of rs).

Lemma parsed_ascii : forall fuel s d ast, parse_with_debug fuel s rs d = Ok ast -> ascii s.
Proof. intros fuel s d ast P. pose proof (parse_sound fuel s rs d SR) as H. rewrite P in H. tauto. Qed.

Lemma main_no_eof : ~ has_atom AEOF (RuleName main).
Proof. intro X. inversion X. Qed.

Lemma parsed_spell : forall fuel s d ast, parse_with_debug fuel s rs d = Ok ast -> flat_map leaves [ast] = s.
Proof. intros fuel s d ast P. exact (derives_spell _ NE _ _ _ (accepted_derives rs fuel s d ast SR P) main_no_eof). Qed.

(** The core: a piece for which something else is known to be derived. *)
Lemma edit_derived : forall fuel s d d' ast, parse_with_debug fuel s rs d = Ok ast ->
  forall n us vs k ast' x, derives (grammar_of rs) (RuleName n) x [Rule n vs] -> ascii (flat_map leaves vs) -> exchanged (Rule n us) (Rule n vs) k [ast] [ast'] ->
  exists fuel', parse_with_debug fuel' (edit s k (length (flat_map leaves us)) (flat_map leaves vs)) rs d' = Ok ast'.
Proof.
  intros fuel s d d' ast P n us vs k ast' x X AV H. pose proof (parsed_ascii _ _ _ _ P) as A. pose proof (parsed_spell _ _ _ _ P) as SP.
  destruct (derives_exchanged _ _ _ _ (accepted_derives rs fuel s d ast SR P) _ _ _ _ _ _ X H) as [w' W].
  pose proof (derives_spell _ NE _ _ _ W main_no_eof) as E. rewrite (exchanged_edit _ _ _ _ _ H), SP in E. cbn [leaves] in E.
  assert (A' : ascii (edit s k (length (flat_map leaves us)) (flat_map leaves vs))).
  { unfold edit, ascii. apply Forall_app. split; [|apply Forall_app; split; [exact AV|]].
    - rewrite <- (firstn_skipn k s) in A. apply Forall_app in A. apply A.
    - rewrite <- (firstn_skipn (k + length (flat_map leaves us)) s) in A. apply Forall_app in A. apply A. }
  rewrite E in *. exists (depth_factor rs * (length w' + 1)). apply (predictive_parse rs w' d' _ _ SR WF PG A' (le_n _)). exact W.
Qed.

Lemma edit_pieces : forall fuel s d ast fuel2 s2 d2 ast2, parse_with_debug fuel s rs d = Ok ast -> parse_with_debug fuel2 s2 rs d2 = Ok ast2 ->
  forall n us vs k k2 ast', exchanged (Rule n us) (Rule n vs) k [ast] [ast'] -> piece k2 (Rule n vs) [ast2] ->
  forall d', exists fuel', parse_with_debug fuel' (edit s k (length (flat_map leaves us)) (flat_map leaves vs)) rs d' = Ok ast'.
Proof.
  intros fuel s d ast fuel2 s2 d2 ast2 P P2 n us vs k k2 ast' H Q2 d'.
  destruct (derives_piece _ _ _ _ (accepted_derives rs fuel2 s2 d2 ast2 SR P2) _ _ _ Q2) as [x X].
  refine (edit_derived fuel s d d' ast P n us vs k ast' x X _ H).
  destruct (piece_exchanged _ _ _ Q2 (Rule n vs)) as [l2 H2]. destruct (exchanged_text _ _ _ _ _ H2) as (a & b & E & _ & _).
  pose proof (parsed_ascii _ _ _ _ P2) as A2. rewrite <- (parsed_spell _ _ _ _ P2), E in A2. apply Forall_app in A2. destruct A2 as [_ A2]. apply Forall_app in A2. apply A2.
Qed.

Hypothesis MS : main_is_start rs.

Lemma edit_text : forall fuel s d ast, parse_with_debug fuel s rs d = Ok ast ->
  forall n us vs k fuel2 w d2, n <> main -> parse_with_debug fuel2 w (with_main rs (ref_rule n)) d2 = Ok (Rule main [Rule n vs]) ->
  forall ast', exchanged (Rule n us) (Rule n vs) k [ast] [ast'] ->
  forall d', exists fuel', parse_with_debug fuel' (edit s k (length (flat_map leaves us)) w) rs d' = Ok ast'.
Proof.
  intros fuel s d ast P n us vs k fuel2 w d2 M P2 ast' H d'. assert (SR2 : sane_rules (with_main rs (ref_rule n))) by (apply with_sane; [exact SR|exact Logic.I]).
  pose proof (accepted_derives _ _ _ _ _ SR2 P2) as D. inversion D as [| | | | | | | | | |? e ? ? E D']; subst. unfold grammar_of in E. rewrite get_main in E. injection E as <-.
  assert (D2 : derives (grammar_of rs) (RuleName n) w [Rule n vs]).
  { refine (derives_move _ _ _ _ _ _ _ D' _).
    - intros m X. unfold grammar_of. apply get_other. exact X.
    - intros m e _ E. exact (MS m e E).
    - intro X. inversion X. congruence. }
  pose proof (derives_spell _ NE _ _ _ D2 ltac:(intro X; inversion X)) as SP. cbn [flat_map leaves] in SP. rewrite app_nil_r in SP.
  rewrite <- SP. refine (edit_derived fuel s d d' ast P n us vs k ast' w D2 _ H). rewrite SP.
  pose proof (parse_sound fuel2 w (with_main rs (ref_rule n)) d2 SR2) as X. rewrite P2 in X. tauto.
Qed.
End Edit.
