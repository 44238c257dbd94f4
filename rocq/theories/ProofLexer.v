(** Cutting a text into tokens: proofs. *)
From Verif Require Import Base ModelAst ModelParser SpecPeg SpecPos SpecApi SpecAst SpecReport SpecHang SpecStuck SpecPower SpecLines SpecLexer.
From Verif Require Import PegTools ProofParser ProofAst ProofEngine ProofSim ProofApi ProofReport ProofPower ProofLook ProofStuck ProofLines.
From Coq Require Import Permutation.

(** * The semantics *)

Section Cuts.
Variable G : str -> option expr.
Variable ns : list str.

Notation choice_ := (Or (map ref_rule ns)).
Notation loop := (Repeat choice_ 0 None).

Lemma or_cons : forall e es s r, peg G (Or (e :: es)) s r -> (peg G e s r /\ r <> PFail) \/ (peg G e s PFail /\ peg G (Or es) s r).
Proof.
  intros e es s r D. inversion D as [| | | | | | | | | | | | |e0 es0 s0 r0 D1 N1 E1 E2|e0 es0 s0 r0 D1 D2 E1 E2| | | | | | | | |]; subst; [left; split; assumption|right; split; assumption].
Qed.
Lemma or_nil : forall s r, peg G (Or []) s r -> r = PFail.
Proof. intros s r D. inversion D. reflexivity. Qed.

Lemma choice_inv : forall l s r, peg G (Or (map ref_rule l)) s r -> (no_token G l s /\ r = PFail) \/ exists n, picks G l s n r.
Proof.
  induction l as [|n l IH]; intros s r D.
  - left. split; [intros n []|exact (or_nil s r D)].
  - cbn [map] in D. destruct (or_cons _ _ _ _ D) as [[D1 N1]|[D1 D2]].
    + right. exists n, [], l. split; [reflexivity|]. split; [intros m []|]. split; assumption.
    + destruct (IH s r D2) as [[N ->]|(m & a & b & E & F & P & NF)].
      * left. split; [|reflexivity]. intros m [<-|I]; [exact D1|exact (N m I)].
      * right. exists m, (n :: a), b. split; [cbn; rewrite E; reflexivity|]. split; [intros x [<-|I]; [exact D1|exact (F x I)]|]. split; assumption.
Qed.
Lemma choice_none : forall l s, no_token G l s -> peg G (Or (map ref_rule l)) s PFail.
Proof.
  induction l as [|n l IH]; intros s N; [apply peg_or_nil|]. cbn [map]. apply peg_or_next; [apply N; left; reflexivity|]. apply IH. intros m I. apply N. right. exact I.
Qed.
Lemma choice_picks : forall l s n r, picks G l s n r -> peg G (Or (map ref_rule l)) s r.
Proof.
  intros l s n r (a & b & -> & F & P & NF). induction a as [|m a IH]; cbn [app map].
  - apply peg_or_first; assumption.
  - apply peg_or_next; [apply F; left; reflexivity|]. apply IH. intros x I. apply F. right. exact I.
Qed.

Lemma picks_shape : forall s n ts rest, picks G ns s n (PMatch ts rest) -> exists ks w, ts = [Rule n ks] /\ s = w ++ rest.
Proof.
  intros s n ts rest (a & b & _ & _ & P & _). destruct (peg_suffix G _ _ _ P) as [w E]. 
  inversion P as [| | | | | | | | | | | | | | | | | | | | | |m e s0 r0 E0 D E1 E2 E3|]; subst. destruct r0 as [us rest0| |]; cbn in E3; try discriminate.
  injection E3 as <- <-. exists us, w. split; [reflexivity|reflexivity].
Qed.

Lemma choice_det : forall s r r', peg G choice_ s r -> peg G choice_ s r' -> r = r'.
Proof. intros s r r' D D'. exact (peg_det G choice_ s r D r' D'). Qed.

(** How the loop ends. *)
Definition ends_at (rest : str) (r : presult) (toks : list token) : Prop :=
  (no_token G ns rest /\ r = PMatch (map token_node toks) rest) \/
  (exists n m rest', picks G ns rest n (PAbort m rest') /\ r = PAbort m rest').

Lemma loop_inv : forall e s r, peg G e s r -> e = loop -> exists toks rest, lexes G ns s toks rest /\ ends_at rest r toks.
Proof.
  induction 1; intro E; try discriminate.
  - injection E as -> -> ->. specialize (IHpeg2 eq_refl). clear IHpeg1. destruct IHpeg2 as (toks & rest & L & N).
    destruct (choice_inv _ _ _ H0) as [[_ X]|[n P]]; [discriminate|]. destruct (picks_shape _ _ _ _ P) as (ks & w & -> & ->).
    assert (W : w <> []).
    { intros ->. cbn [app] in *. inversion L as [s0|n' ks' w' s0 toks' rest' P' W' L']; subst.
      - destruct N as [[N _]|(n' & m & rest' & P' & _)].
        + pose proof (choice_det _ _ _ H0 (choice_none ns _ N)). discriminate.
        + pose proof (choice_det _ _ _ H0 (choice_picks ns _ _ _ P')). discriminate.
      - pose proof (choice_det _ _ _ H0 (choice_picks ns _ _ _ P')) as X. injection X as _ _ X. symmetry in X.
        apply (f_equal (@length _)) in X. rewrite app_length in X. destruct w'; [exact (W' eq_refl)|cbn in X; lia]. }
    exists (Token n ks w :: toks), rest. split; [apply lx_next; assumption|]. destruct N as [[N ->]|(n' & m & rest' & P' & ->)].
    + left. split; [exact N|]. reflexivity.
    + right. exists n', m, rest'. split; [exact P'|reflexivity].
  - injection E as -> ->. destruct (choice_inv _ _ _ H0) as [[N _]|[n (a & b & _ & _ & _ & X)]]; [|destruct (X eq_refl)].
    exists [], s. split; [apply lx_stop|]. left. split; [exact N|reflexivity].
  - injection E as -> -> ->. lia.
  - injection E as -> -> ->. destruct (choice_inv _ _ _ H0) as [[_ X]|[n P]]; [discriminate|].
    exists [], s. split; [apply lx_stop|]. right. exists n, m, rest. split; [exact P|reflexivity].
Qed.

Lemma loop_of : forall s toks rest, lexes G ns s toks rest -> forall r, peg G loop rest r -> peg G loop s (prepend (map token_node toks) r).
Proof.
  induction 1 as [s|n ks w s toks rest P W L IH]; intros r D; [destruct r; exact D|].
  pose proof (peg_rep_more G choice_ 0 None _ _ _ _ ltac:(discriminate) (choice_picks ns _ _ _ P) (IH r D)) as Q. destruct r; exact Q.
Qed.

Lemma loop_ends : forall rest r toks, ends_at rest r toks -> exists r0, peg G loop rest r0 /\ r = prepend (map token_node toks) r0.
Proof.
  intros rest r toks [[N ->]|(n & m & rest' & P & ->)].
  - exists (PMatch [] rest). split; [apply peg_rep_done; [discriminate|exact (choice_none ns _ N)]|]. cbn. rewrite app_nil_r. reflexivity.
  - exists (PAbort m rest'). split; [apply peg_rep_abort; [discriminate|exact (choice_picks ns _ _ _ P)]|reflexivity].
Qed.

Lemma loop_iff : forall s r, peg G loop s r <-> exists toks rest, lexes G ns s toks rest /\ ends_at rest r toks.
Proof.
  intros s r. split; [intro D; exact (loop_inv _ s r D eq_refl)|]. intros (toks & rest & L & N). destruct (loop_ends _ _ _ N) as (r0 & D & ->). exact (loop_of _ _ _ L _ D).
Qed.

(** Tokens are determined. *)
Lemma picks_det : forall s n r n' r', picks G ns s n r -> picks G ns s n' r' -> n = n' /\ r = r'.
Proof.
  intros s n r n' r' P P'. pose proof (choice_det _ _ _ (choice_picks ns _ _ _ P) (choice_picks ns _ _ _ P')) as X. split; [|exact X]. subst r'.
  destruct P as (a & b & E & F & D & NF). destruct P' as (a' & b' & E' & F' & D' & _). rewrite E in E'. clear E.
  revert a' E' F'. induction a as [|x a IH]; intros [|x' a'] E' F'; cbn in E'; injection E' as E0 E'.
  - exact E0.
  - subst x'. pose proof (peg_det G _ _ _ D _ (F' n (or_introl eq_refl))). contradiction.
  - subst x. pose proof (peg_det G _ _ _ D' _ (F n' (or_introl eq_refl))). contradiction.
  - apply (IH (fun m I => F m (or_intror I)) a' E' (fun m I => F' m (or_intror I))).
Qed.

Definition final (rest : str) : Prop := no_token G ns rest \/ exists n m rest', picks G ns rest n (PAbort m rest').

Lemma final_stuck : forall s, final s -> forall n ts rest, picks G ns s n (PMatch ts rest) -> False.
Proof.
  intros s [N|(n' & m & rest' & P')] n ts rest P; pose proof (choice_picks ns _ _ _ P) as D.
  - pose proof (choice_det _ _ _ D (choice_none ns _ N)). discriminate.
  - pose proof (choice_det _ _ _ D (choice_picks ns _ _ _ P')). discriminate.
Qed.

Lemma lexes_det : forall s toks rest, lexes G ns s toks rest -> final rest -> forall toks' rest', lexes G ns s toks' rest' -> final rest' -> toks = toks' /\ rest = rest'.
Proof.
  induction 1 as [s|n ks w s toks rest P W L IH]; intros FI toks' rest' L' FI'.
  - inversion L' as [|n' ks' w' s' toks0 rest0 P' W' L0]; subst; [split; reflexivity|]. destruct (final_stuck _ FI _ _ _ P').
  - inversion L' as [|n' ks' w' s' toks0 rest0 P' W' L0 X Y]; subst; [destruct (final_stuck _ FI' _ _ _ P)|].
    rewrite X in P'. destruct (picks_det _ _ _ _ _ P P') as [<- E]. injection E as <- <-. apply app_inv_tail in X. subst w'.
    destruct (IH FI _ _ L0 FI') as [-> ->]. split; reflexivity.
Qed.

Lemma no_way_out : forall s toks rest, lexes G ns s toks rest -> forall n ks, picks G ns rest n (PMatch [Rule n ks] rest) ->
  forall toks' rest', lexes G ns s toks' rest' -> final rest' -> False.
Proof.
  induction 1 as [s|n ks w s toks rest P W L IH]; intros n0 ks0 P0 toks' rest' L' FI.
  - inversion L' as [|n' ks' w' s' toks0 rest0 P' W' L0]; subst; [exact (final_stuck _ FI _ _ _ P0)|].
    destruct (picks_det _ _ _ _ _ P0 P') as [_ Z]. injection Z as _ _ Z. apply (f_equal (@length _)) in Z. rewrite app_length in Z. destruct w'; [exact (W' eq_refl)|cbn in Z; lia].
  - inversion L' as [|n' ks' w' s' toks0 rest0 P' W' L0 X Y]; subst; [exact (final_stuck _ FI _ _ _ P)|].
    rewrite X in P'. destruct (picks_det _ _ _ _ _ P P') as [_ Z]. injection Z as _ _ <-. exact (IH _ _ P0 _ _ L0 FI).
Qed.

Lemma lexes_text : forall s toks rest, lexes G ns s toks rest -> s = flat_map t_text toks ++ rest.
Proof. induction 1 as [s|n ks w s toks rest P W L IH]; [reflexivity|]. cbn [flat_map t_text]. rewrite <- app_assoc, <- IH. reflexivity. Qed.

Lemma lexes_in : forall s toks rest, lexes G ns s toks rest -> forall t, In t toks -> In (t_name t) ns /\ t_text t <> [].
Proof.
  induction 1 as [s|n ks w s toks rest P W L IH]; intros t I; [destruct I|]. destruct I as [<-|I]; [|exact (IH t I)]. split; [|exact W].
  destruct P as (a & b & -> & _). cbn. apply in_or_app. right. left. reflexivity.
Qed.
End Cuts.

(** Rules in another order. *)
Lemma picks_order : forall G ns ns' s n r, Permutation ns ns' -> picks G ns s n r -> (forall m, In m ns -> m <> n -> peg G (RuleName m) s PFail) -> picks G ns' s n r.
Proof.
  intros G ns ns' s n r PE P F. assert (I : In n ns') by (destruct P as (a & b & -> & _); refine (Permutation_in _ PE _); apply in_or_app; right; left; reflexivity).
  destruct P as (_ & _ & _ & _ & D & NF).
  assert (X : exists a b, ns' = a ++ n :: b /\ ~ In n a).
  { clear - I. induction ns' as [|m l IH]; [destruct I|]. destruct (str_eqb m n) eqn:E.
    - apply str_eqb_eq in E. subst m. exists [], l. split; [reflexivity|intros []].
    - destruct I as [->|I]; [rewrite (proj2 (str_eqb_eq n n) eq_refl) in E; discriminate|]. destruct (IH I) as (a & b & -> & N). exists (m :: a), b. split; [reflexivity|].
      intros [->|J]; [rewrite (proj2 (str_eqb_eq n n) eq_refl) in E; discriminate|exact (N J)]. }
  destruct X as (a & b & E & NI). exists a, b. split; [exact E|]. split; [|split; assumption].
  intros m J. apply F; [|intros ->; exact (NI J)]. apply (Permutation_in _ (Permutation_sym PE)). rewrite E. apply in_or_app. left. exact J.
Qed.

(** * The parser *)

Section Lexer.
Variable rs : rules.
Variable ns : list str.
Hypothesis SR : sane_rules rs.
Hypothesis MU : main_unused rs (map ref_rule ns).

Notation choice_ := (Or (map ref_rule ns)).
Notation loop := (Repeat choice_ 0 None).
Notation L := (lexer_rules rs ns).
Notation G := (grammar_of L).
Notation G0 := (grammar_of rs).

Lemma not_main : ~ In main ns.
Proof.
  intro I. destruct MU as [_ F]. apply (proj1 (Forall_forall _ _) F (RuleName main)); [apply in_map; exact I|constructor].
Qed.

Lemma no_ref_choice : ~ has_ref main choice_.
Proof.
  intro H. inversion H as [| |e es I X| |]; subst. apply in_map_iff in I. destruct I as (n & <- & I). inversion X; subst. exact (not_main I).
Qed.

Lemma sane_lexer : sane_rules L.
Proof.
  apply with_sane; [exact SR|]. cbn. split; [|exact I]. clear SR MU. induction ns as [|n l IH]; [exact I|]. cbn. split; [exact I|exact IH].
Qed.

Lemma other : forall n, n <> main -> G n = G0 n.
Proof. intros n N. unfold grammar_of, lexer_rules. rewrite get_other by exact N. reflexivity. Qed.

Lemma inward : forall n s r, In n ns -> peg G (RuleName n) s r <-> peg G0 (RuleName n) s r.
Proof.
  intros n s r I. assert (N : ~ has_ref main (RuleName n)) by (intro H; inversion H; subst; exact (not_main I)). split; intro D.
  - refine (peg_agree G G0 other _ _ _ _ D N). intros m e M E. rewrite (other m M) in E. exact (proj1 MU m e M E).
  - refine (peg_agree G0 G (fun m M => eq_sym (other m M)) _ _ _ _ D N). intros m e M E. exact (proj1 MU m e M E).
Qed.

Lemma picks_inward : forall s n r, picks G ns s n r <-> picks G0 ns s n r.
Proof.
  intros s n r. split; intros (a & b & E & F & D & NF); exists a, b; (split; [exact E|]); (split; [|split; [|exact NF]]).
  - intros m I. apply inward; [rewrite E; apply in_or_app; left; exact I|exact (F m I)].
  - apply inward; [rewrite E; apply in_or_app; right; left; reflexivity|exact D].
  - intros m I. apply inward; [rewrite E; apply in_or_app; left; exact I|exact (F m I)].
  - apply inward; [rewrite E; apply in_or_app; right; left; reflexivity|exact D].
Qed.
Lemma none_inward : forall s, no_token G ns s <-> no_token G0 ns s.
Proof. intro s. split; intros N n I; apply (inward n s PFail I); exact (N n I). Qed.
Lemma lexes_inward : forall s toks rest, lexes G ns s toks rest <-> lexes G0 ns s toks rest.
Proof. intros s toks rest. split; (induction 1 as [s|n ks w s toks rest P W H IH]; [apply lx_stop|apply lx_next; [apply picks_inward; exact P|exact W|exact IH]]). Qed.

Lemma main_lexer : forall s r, peg_main L s (wrap main r) <-> peg G loop s r.
Proof.
  intros s r. split.
  - intro D. unfold peg_main in D. inversion D as [| | | | | | | | | | | | | | | | | | | | | |n e' s' r' E D' X Y Z|n s' E X Y Z]; subst; unfold grammar_of in E; unfold lexer_rules in E; rewrite get_main in E; [|discriminate].
    injection E as <-. destruct r, r'; cbn in Z; try discriminate; try exact D'; injection Z as -> ->; exact D'.
  - intro D. exact (peg_rule G main loop s r (get_main rs _) D).
Qed.

Lemma main_wrapped : forall s r, peg_main L s r -> exists r0, r = wrap main r0.
Proof. intros s r D. refine (wrapped L s r _ D). unfold lexer_rules. rewrite get_main. discriminate. Qed.

Lemma lexer_accepts : forall s d ast, ascii s -> (exists fuel, parse_with_debug fuel s L d = Ok ast) <->
  exists toks, lexes G0 ns s toks [] /\ no_token G0 ns [] /\ ast = Rule main (map token_node toks).
Proof.
  intros s d ast A. rewrite (parse_accepts_iff s L d sane_lexer A ast). split.
  - intro D. destruct (main_wrapped _ _ D) as [r E]. destruct r as [ts rest| |]; try discriminate. injection E as -> <-.
    apply (main_lexer s (PMatch ts [])) in D. apply loop_iff in D. destruct D as (toks & rest & H & [[N E]|(n & m & rest' & _ & E)]); [|discriminate].
    injection E as -> <-. exists toks. split; [apply lexes_inward; exact H|]. split; [apply none_inward; exact N|reflexivity].
  - intros (toks & H & N & ->). apply (main_lexer s (PMatch _ [])). apply loop_iff. exists toks, []. split; [apply lexes_inward; exact H|]. left. split; [apply none_inward; exact N|reflexivity].
Qed.

Lemma lexer_complains : forall s m k, ascii s -> complains L s m k <->
  exists toks rest n rest', lexes G0 ns s toks rest /\ picks G0 ns rest n (PAbort m rest') /\ k + length rest' = length s.
Proof.
  intros s m k A. unfold complains. rewrite (parse_abort_iff s L m k sane_lexer A). split.
  - intros (rest' & D & K). apply (main_lexer s (PAbort m rest')) in D. apply loop_iff in D. destruct D as (toks & rest & H & [[N E]|(n & m0 & rest0 & P & E)]); [discriminate|].
    injection E as <- <-. exists toks, rest, n, rest'. split; [apply lexes_inward; exact H|]. split; [apply picks_inward; exact P|exact K].
  - intros (toks & rest & n & rest' & H & P & K). exists rest'. split; [|exact K]. apply (main_lexer s (PAbort m rest')). apply loop_iff. exists toks, rest.
    split; [apply lexes_inward; exact H|]. right. exists n, m, rest'. split; [apply picks_inward; exact P|reflexivity].
Qed.

(** ** Errors *)

Lemma loop_report : forall s toks rest q, lexes G ns s toks rest -> pege G choice_ rest (EFail q) ->
  exists ts, pege G loop s (EMatch ts rest (Some (shift (flat_map names (map token_node toks)) q)) (flat_map names (map token_node toks))).
Proof.
  intros s toks rest q H P. induction H as [s|n ks w s toks rest Q W H IH].
  - exists []. destruct q as [d m tr]. apply ee_rep_done; [discriminate|exact P].
  - destruct (IH P) as [ts R]. destruct (peg_pege G choice_ _ _ (choice_picks G ns _ _ _ Q)) as (er & D0 & X).
    destruct er as [us rest0 p t0|q0|q0]; cbn in X; try discriminate. injection X as -> ->.
    assert (T : t0 = flat_map names [Rule n ks]) by exact (proj1 (proj1 (all_truthful G) _ _ _ D0)). subst t0.
    exists ([Rule n ks] ++ ts). pose proof (ee_rep_more G choice_ 0 None _ _ _ _ _ _ ltac:(discriminate) D0 R) as Y. cbn [after] in Y.
    unfold SpecReport.shift in *. cbn [map flat_map r_descr r_rest r_trail] in *. rewrite app_nil_r in Y. rewrite <- !app_assoc. exact Y.
Qed.

Lemma lexer_error : forall s toks rest debug, ascii s -> lexes G0 ns s toks rest -> no_token G0 ns rest -> rest <> [] ->
  exists p m d tr fuel, rest = p ++ m /\ parse_with_debug fuel s L debug =
    Err (PError (pos_of (flat_map t_text toks ++ p)) d (tail_after is_nl (flat_map t_text toks ++ p)) (until_eol m)
      (if debug then map (fun n => s_ "r:" ++ n) (main :: flat_map names (map token_node toks) ++ tr) else []) Normal).
Proof.
  intros s toks rest debug A H N Z. apply lexes_inward in H. apply none_inward in N.
  destruct (peg_pege G choice_ _ _ (choice_none G ns _ N)) as (er & D0 & X). destruct er as [us rest0 p t0|q|q]; cbn in X; try discriminate.
  destruct (loop_report _ _ _ _ H D0) as [ts D]. pose proof (proj1 (pege_stands G) _ _ _ D0) as S0. cbn in S0. destruct S0 as [p E]. destruct q as [d m tr]. cbn [r_rest] in E.
  destruct (proj2 (parse_report_iff s L debug (Err (error_at s debug Normal (shift (main :: flat_map names (map token_node toks)) (Report d m tr)))) sane_lexer A ltac:(discriminate))) as [fuel F].
  { eexists. split; [eapply ee_rule; [exact (get_main rs _)|exact D]|]. cbn [within option_map]. destruct rest as [|c rest]; [destruct (Z eq_refl)|].
    replace (shift (main :: flat_map names (map token_node toks)) (Report d m tr)) with (shift [main] (shift (flat_map names (map token_node toks)) (Report d m tr))) by reflexivity. apply an_pending. }
  exists p, m, d, tr, fuel. split; [exact E|]. rewrite F. f_equal. unfold error_at, SpecReport.shift. cbn [r_rest r_descr r_trail].
  pose proof (lexes_text G ns _ _ _ H) as T. rewrite E in T. rewrite T, before_lines. reflexivity.
Qed.

Lemma lexer_rejects : forall s debug, ascii s -> (exists fuel er, parse_with_debug fuel s L debug = Err er /\ e_priority er = Normal) <->
  exists toks rest, lexes G0 ns s toks rest /\ no_token G0 ns rest /\ rest <> [].
Proof.
  intros s debug A. split.
  - intros (fuel & er & E & P). pose proof (parse_sound fuel s L debug sane_lexer) as S0. rewrite E in S0. destruct S0 as [_ S0]. rewrite P in S0.
    assert (X : exists r0, peg G loop s r0 /\ (r0 = PFail \/ exists ts rest, r0 = PMatch ts rest /\ rest <> [])).
    { destruct S0 as [D|(ts & rest & D & [Z|Z])]; [| |destruct (Z A)].
      - exists PFail. split; [apply (main_lexer s PFail); exact D|left; reflexivity].
      - destruct (main_wrapped _ _ D) as [r0 Y]. destruct r0 as [us rest0| |]; try discriminate. injection Y as -> <-.
        exists (PMatch us rest). split; [apply (main_lexer s (PMatch us rest)); exact D|]. right. exists us, rest. split; [reflexivity|exact Z]. }
    destruct X as (r0 & D & X). apply loop_iff in D. destruct D as (toks & rest & H & Y). exists toks, rest. split; [apply lexes_inward; exact H|].
    destruct Y as [[N ->]|(n & m & rest' & Q & ->)]; destruct X as [X|(ts & rest0 & X & Z)]; try discriminate. injection X as _ <-. split; [apply none_inward; exact N|exact Z].
  - intros (toks & rest & H & N & Z). destruct (lexer_error s toks rest debug A H N Z) as (p & m & d & tr & fuel & _ & F). exists fuel. eexists. split; [exact F|reflexivity].
Qed.

(** ** What the tools make of the tree *)

Hypothesis NEOF : no_eof_atom rs.

Lemma leaves_of_token : forall w s n ks, picks G0 ns (w ++ s) n (PMatch [Rule n ks] s) -> flat_map leaves ks = w /\ Forall eof_free ks.
Proof.
  intros w s n ks (a & b & _ & _ & D & _). split.
  - pose proof (peg_leaves G0 _ _ _ D NEOF ltac:(intro H; inversion H) _ _ eq_refl) as E. cbn in E. rewrite app_nil_r in E. apply app_inv_tail in E. symmetry. exact E.
  - pose proof (peg_eof_free G0 _ _ _ D _ _ eq_refl) as F. inversion F as [|x l F1 _]; subst. cbn in F1. apply eof_free_list. exact F1.
Qed.

Lemma opened_list : forall l, Forall eof_free l -> (forall n, In n (flat_map names l) -> ~ In n ns) -> exists vs, spliced ns l (map Val vs) /\ concat vs = flat_map leaves l.
Proof.
  apply (forest_ind (fun l => Forall eof_free l -> (forall n, In n (flat_map names l) -> ~ In n ns) -> exists vs, spliced ns l (map Val vs) /\ concat vs = flat_map leaves l)).
  - intros _ _. exists []. split; [apply sp_nil|reflexivity].
  - intros v l IH F N. inversion F as [|? ? F1 F2]; subst. destruct (IH F2 N) as (vs & S1 & C1). exists (v :: vs). split; [apply sp_val; exact S1|cbn; rewrite C1; reflexivity].
  - intros l IH F N. inversion F as [|? ? F1 F2]; subst. destruct F1.
  - intros n k l IHk IHl F N. inversion F as [|? ? F1 F2]; subst. cbn in F1. apply eof_free_list in F1.
    destruct (IHk F1) as (vs & S1 & C1); [intros m I; apply N; right; apply in_or_app; left; exact I|].
    destruct (IHl F2) as (us & S2 & C2); [intros m I; apply N; right; apply in_or_app; right; exact I|].
    exists (vs ++ us). split; [|cbn [flat_map leaves]; rewrite concat_app, C1, C2; reflexivity]. rewrite map_app. apply sp_open; [apply N; left; reflexivity|exact S1|exact S2].
Qed.

Lemma tokens_tidied : forall s toks rest, lexes G0 ns s toks rest -> (forall t n, In t toks -> In n (flat_map names (t_kids t)) -> ~ In n ns) ->
  compact (pass_through_except ns (Rule main (map token_node toks))) = Rule main (map (fun t => Rule (t_name t) [Val (t_text t)]) toks).
Proof.
  intros s toks rest H N.
  assert (X : exists l, spliced ns (map token_node toks) l /\ compacted l (map (fun t => Rule (t_name t) [Val (t_text t)]) toks)).
  { induction H as [s|n ks w s toks rest P W H IH]; [exists []; split; [apply sp_nil|apply co_nil]|].
    destruct IH as (l & S1 & C1); [intros t m I; apply N; right; exact I|]. destruct (leaves_of_token _ _ _ _ P) as [E F].
    destruct (opened_list ks F (fun m I => N (Token n ks w) m (or_introl eq_refl) I)) as (vs & S2 & C2). rewrite E in C2.
    exists (Rule n (map Val vs) :: l). split.
    - cbn [map token_node t_name t_kids]. apply sp_keep; [destruct P as (a & b & -> & _); apply in_or_app; right; left; reflexivity|exact S2|exact S1].
    - cbn [map t_name t_text]. apply co_rule; [|exact C1]. rewrite <- C2, <- (app_nil_r (map Val vs)). apply co_run; [|intros (v & r & X); discriminate|apply co_nil].
      intros ->. apply W. symmetry. exact C2. }
  destruct X as (l & S1 & C1). rewrite (proj2 (pass_through_spec ns main _ l) S1). apply compact_spec. exact C1.
Qed.

Lemma tokens_listed : forall s toks rest, lexes G0 ns s toks rest -> (forall t n, In t toks -> In n (flat_map names (t_kids t)) -> ~ In n ns) ->
  flatten (compact (pass_through_except ns (Rule main (map token_node toks)))) = token_list toks.
Proof.
  intros s toks rest H N. rewrite (tokens_tidied s toks rest H N), flatten_rule. unfold token_list. f_equal. f_equal. unfold flat_of. clear.
  induction toks as [|t toks IH]; [reflexivity|]. cbn [map flat_map]. rewrite IH. reflexivity.
Qed.
End Lexer.

(** An empty token is taken again and again. *)
Lemma empty_token_hangs : forall rs ns s toks rest n ks fuel debug, sane_rules rs -> main_unused rs (map ref_rule ns) -> ascii s ->
  lexes (grammar_of rs) ns s toks rest -> picks (grammar_of rs) ns rest n (PMatch [Rule n ks] rest) ->
  parse_with_debug fuel s (lexer_rules rs ns) debug = Fuel.
Proof.
  intros rs ns s toks rest n ks fuel debug SR MU A H P. destruct (parse_with_debug fuel s (lexer_rules rs ns) debug) eqn:E; try reflexivity; exfalso.
  1-3: destruct (proj1 (parse_terminates_iff s (lexer_rules rs ns) debug (sane_lexer rs ns SR) A)) as [r D]; [exists fuel; rewrite E; discriminate|].
  1-3: destruct (main_wrapped rs ns _ _ D) as [r0 ->]; apply (main_lexer rs ns) in D; apply loop_iff in D; destruct D as (toks' & rest' & H' & X);
    apply (lexes_inward rs ns MU) in H; apply (picks_inward rs ns MU) in P.
  1-3: refine (no_way_out _ ns _ _ _ H _ _ P _ _ H' _); destruct X as [[N _]|(n' & m & r' & Q & _)]; [left; exact N|right; exists n', m, r'; exact Q].
Qed.
