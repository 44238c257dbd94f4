(** API-level consequences of the refinement and of the simulation lemma. *)
From Verif Require Import Base ModelAst ModelParser SpecPeg SpecPos SpecApi ProofParser ProofEngine ProofSim.

(* ------------------------------------------------------------------------------------------- *)
(** * The initial state and the final check *)

Lemma inv_init : forall s d, inv (status_init_debug s d).
Proof. intros s d. split; [exists []; split; reflexivity|]. intros er H. discriminate. Qed.

Lemma inv_init0 : forall s, inv (status_init s).
Proof. exact (fun s => inv_init s false). Qed.

Lemma parse_unfold : forall fuel s rs d,
  parse_with_debug fuel s rs d =
  (let? (st, ast) := expression_parse rs fuel (status_init_debug s d) in
   match pn (st_pos st) =? byte_len s, potential_error st with
   | true, _ => Ok ast
   | false, Some e => Err e
   | false, None => err_normal st (s_ "not consumed full input")
   end).
Proof. intros fuel s rs [|]; reflexivity. Qed.

(** [expression_parse] is the engine on [RuleName main], with one unit of fuel less. *)
Lemma expression_parse_expr : forall rs f st,
  parse_expr rs (S f) st (RuleName main) = (let? (st', nd) := expression_parse rs f st in Ok (st', [nd])).
Proof. reflexivity. Qed.

Lemma expression_parse_ok : forall rs f st,
  sane_rules rs -> inv st ->
  match expression_parse rs f st with
  | Ok (st', nd) => inv st' /\ adv st st' /\
      peg (rules_get rs) (RuleName main) (it_parsing st) (PMatch [nd] (it_parsing st'))
  | Err er => err_ok (text2parse st) (pn (st_pos st)) er /\
      match e_priority er with
      | Normal => peg (rules_get rs) (RuleName main) (it_parsing st) PFail
      | Critical => exists rest, peg (rules_get rs) (RuleName main) (it_parsing st) (PAbort (e_descr er) rest) /\
                      pn (e_pos er) + length rest = length (text2parse st)
      end
  | Panic => ~ ascii (text2parse st)
  | Fuel => True
  end.
Proof.
  intros rs f st SR I. destruct (parse_expr_ok rs SR (S f) st (RuleName main) Logic.I I) as [A B].
  rewrite expression_parse_expr in A, B.
  destruct (expression_parse rs f st) as [[st' nd]|er| |]; cbn in *; tauto.
Qed.

Lemma expression_parse_complete : forall rs st r,
  sane_rules rs -> inv st -> peg (rules_get rs) (RuleName main) (it_parsing st) r ->
  exists f, expression_parse rs f st <> Fuel.
Proof.
  intros rs st r SR I D. destruct (engine_complete rs st (RuleName main) r SR Logic.I I D) as (f & F & _).
  destruct f as [|f]; [exfalso; apply F; reflexivity|]. exists f. rewrite expression_parse_expr in F.
  intro E. rewrite E in F. apply F. reflexivity.
Qed.

Lemma final_check_pn : forall s st, inv st -> text2parse st = s ->
  (pn (st_pos st) =? byte_len s) = true <-> it_parsing st = [] /\ ascii s.
Proof.
  intros s st I T. pose proof (inv_pn st I) as P. rewrite T in P. pose proof (byte_len_ge s). rewrite Nat.eqb_eq. split.
  - intro E. assert (length (it_parsing st) = 0) by lia. split; [apply length_zero_iff_nil; assumption|].
    apply byte_len_eq_ascii. lia.
  - intros [E As]. rewrite E in P. cbn in P. rewrite byte_len_ascii by assumption. lia.
Qed.

(** Everything [parse] can return, in terms of the PEG semantics (sane bounds). *)
Lemma parse_sound : forall fuel s rs d, sane_rules rs ->
  match parse_with_debug fuel s rs d with
  | Ok ast => ascii s /\ peg_main rs s (PMatch [ast] [])
  | Err er =>
      err_ok s 0 er /\
      match e_priority er with
      | Critical => exists rest, peg_main rs s (PAbort (e_descr er) rest) /\ pn (e_pos er) + length rest = length s
      | Normal => peg_main rs s PFail \/
                  exists ts rest, peg_main rs s (PMatch ts rest) /\ (rest <> [] \/ ~ ascii s)
      end
  | Panic => ~ ascii s
  | Fuel => True
  end.
Proof.
  intros fuel s rs d SR. rewrite parse_unfold. unfold peg_main, grammar_of.
  pose proof (expression_parse_ok rs fuel (status_init_debug s d) SR (inv_init s d)) as H. cbn in H.
  destruct (expression_parse rs fuel (status_init_debug s d)) as [[st nd]|er| |]; cbn [bind].
  - destruct H as (I & AD & D). destruct AD as (T & R & c & E). cbn in T, R, E.
    pose proof (final_check_pn s st I T) as FC.
    destruct (pn (st_pos st) =? byte_len s) eqn:Q.
    + destruct FC as [FC _]. destruct (FC eq_refl) as [E0 As]. rewrite E0 in D. auto.
    + assert (N : it_parsing st <> [] \/ ~ ascii s).
      { destruct (it_parsing st) as [|c0 r0] eqn:E0; [right|left; discriminate].
        intro As. destruct FC as [_ FC]. discriminate FC. auto. }
      destruct (potential_error st) as [er|] eqn:PE.
      * destruct I as [_ I2]. destruct (I2 er PE) as [X Y]. rewrite T in X. split; [exact X|]. rewrite Y. right. eauto.
      * unfold err_normal, err_status.
        destruct (from_status st (s_ "not consumed full input") Normal) as [er|] eqn:F.
        -- apply from_status_ok in F; [|exact I]. destruct F as (F1 & F2 & _). rewrite T in F1. split.
           ++ eapply err_ok_weaken; [|exact F1]. lia.
           ++ rewrite F2. right. eauto.
        -- intro As. rewrite <- T in As. apply (from_status_ascii st (s_ "not consumed full input") Normal I As F).
  - destruct H as [H1 H2]. split; [exact H1|]. destruct (e_priority er); [left|]; exact H2.
  - exact H.
  - exact I.
Qed.

(** Termination of [parse] and existence of a PEG outcome are the same thing. *)
Lemma parse_terminates_iff : forall s rs d, sane_rules rs -> ascii s ->
  (exists fuel, parse_with_debug fuel s rs d <> Fuel) <-> (exists r, peg_main rs s r).
Proof.
  intros s rs d SR As. split.
  - intros [fuel F]. pose proof (parse_sound fuel s rs d SR) as H.
    destruct (parse_with_debug fuel s rs d) as [ast|er| |].
    + destruct H as [_ H]. eauto.
    + destruct H as [_ H]. destruct (e_priority er).
      * destruct H as [H|(ts & rest & H & _)]; eauto.
      * destruct H as (rest & H & _). eauto.
    + contradiction.
    + contradiction.
  - intros [r D]. destruct (expression_parse_complete rs (status_init_debug s d) r SR (inv_init s d) D) as [f F].
    exists f. rewrite parse_unfold. destruct (expression_parse rs f (status_init_debug s d)) as [[st nd]|er| |]; cbn [bind];
      try discriminate; [|contradiction].
    destruct (pn (st_pos st) =? byte_len s); [discriminate|]. destruct (potential_error st); [discriminate|].
    apply err_status_nofuel.
Qed.

Lemma parse_accepts_iff : forall s rs d, sane_rules rs -> ascii s ->
  forall ast, (exists fuel, parse_with_debug fuel s rs d = Ok ast) <-> peg_main rs s (PMatch [ast] []).
Proof.
  intros s rs d SR As ast. split.
  - intros [fuel F]. pose proof (parse_sound fuel s rs d SR) as H. rewrite F in H. tauto.
  - intro D. destruct (proj2 (parse_terminates_iff s rs d SR As) (ex_intro _ _ D)) as [fuel F]. exists fuel.
    pose proof (parse_sound fuel s rs d SR) as H.
    destruct (parse_with_debug fuel s rs d) as [ast'|er| |].
    + destruct H as [_ H]. pose proof (peg_det _ _ _ _ D _ H) as E. injection E as ->. reflexivity.
    + destruct H as [_ H]. exfalso. destruct (e_priority er).
      * destruct H as [H|(ts & rest & H & N)].
        -- pose proof (peg_det _ _ _ _ D _ H). discriminate.
        -- pose proof (peg_det _ _ _ _ D _ H) as E. injection E as _ <-. tauto.
      * destruct H as (rest & H & _). pose proof (peg_det _ _ _ _ D _ H). discriminate.
    + contradiction.
    + contradiction.
Qed.

Lemma peg_main_shape : forall rs s ts rest, peg_main rs s (PMatch ts rest) ->
  exists e kids, rules_get rs main = Some e /\ ts = [Rule main kids] /\
                 peg (grammar_of rs) e s (PMatch kids rest).
Proof.
  intros rs s ts rest D. unfold peg_main in D. inversion D; subst.
  match goal with H : wrap _ ?r = _ |- _ => destruct r; cbn in H; try discriminate; injection H as <- <- end.
  eauto.
Qed.

Lemma parse_accepts : forall s rs, sane_rules rs -> ascii s ->
  ((exists fuel ast, parse fuel s rs = Ok ast) <->
   (exists e trees, rules_get rs main = Some e /\ peg (grammar_of rs) e s (PMatch trees []))).
Proof.
  intros s rs SR As. split.
  - intros (fuel & ast & F). pose proof (parse_sound fuel s rs false SR) as H. unfold parse in F. rewrite F in H.
    destruct H as [_ H]. apply peg_main_shape in H. destruct H as (e & kids & H1 & _ & H3). eauto.
  - intros (e & trees & E & D).
    destruct (proj2 (parse_accepts_iff s rs false SR As (Rule main trees))) as [fuel F].
    + change (PMatch [Rule main trees] []) with (wrap main (PMatch trees [])).
      eapply peg_rule; eassumption.
    + exists fuel, (Rule main trees). exact F.
Qed.

Lemma parse_rejects : forall s rs, sane_rules rs -> ascii s ->
  ((exists fuel er, parse fuel s rs = Err er) <->
   ((exists r, peg_main rs s r) /\
    ~ exists e trees, rules_get rs main = Some e /\ peg (grammar_of rs) e s (PMatch trees []))).
Proof.
  intros s rs SR As. split.
  - intros (fuel & er & F). split.
    + apply (parse_terminates_iff s rs false SR As). exists fuel. unfold parse in F. congruence.
    + intro H. apply (parse_accepts s rs SR As) in H. destruct H as (f2 & ast & H).
      pose proof (parse_mono fuel (Nat.max fuel f2) s rs ltac:(lia)) as M1.
      pose proof (parse_mono f2 (Nat.max fuel f2) s rs ltac:(lia)) as M2.
      rewrite F in M1. rewrite H in M2. rewrite M1 in M2 by discriminate. discriminate M2. discriminate.
  - intros [H N]. apply (parse_terminates_iff s rs false SR As) in H. destruct H as [fuel F].
    pose proof (parse_sound fuel s rs false SR) as H.
    destruct (parse_with_debug fuel s rs false) as [ast|er| |] eqn:P.
    + exfalso. apply N. apply (parse_accepts s rs SR As). exists fuel, ast. exact P.
    + exists fuel, er. exact P.
    + contradiction.
    + contradiction.
Qed.

Lemma parse_tree : forall fuel s rs ast, sane_rules rs -> parse fuel s rs = Ok ast ->
  exists e kids, rules_get rs main = Some e /\ ast = Rule main kids /\
    peg (grammar_of rs) e s (PMatch kids []) /\
    forall kids' rest', peg (grammar_of rs) e s (PMatch kids' rest') -> kids' = kids /\ rest' = [].
Proof.
  intros fuel s rs ast SR F. pose proof (parse_sound fuel s rs false SR) as H. unfold parse in F. rewrite F in H.
  destruct H as [_ H]. apply peg_main_shape in H. destruct H as (e & kids & H1 & H2 & H3).
  exists e, kids. injection H2 as ->. repeat split; try assumption.
  - pose proof (peg_det _ _ _ _ H3 _ H) as E. injection E as <- _. reflexivity.
  - pose proof (peg_det _ _ _ _ H3 _ H) as E. injection E as _ <-. reflexivity.
Qed.

(* ------------------------------------------------------------------------------------------- *)
(** * Arbitrary bounds reduce to sane ones *)

Lemma has_atom_norm : forall a e, has_atom a (norm e) -> has_atom a e.
Proof.
  intros a e. induction e as [x|es IH|es IH|e IH|e mn mx IH|n] using expr_ind'; cbn; intro H; inversion H; subst; clear H.
  - constructor.
  - rewrite in_map_iff in *. match goal with H : exists _, _ |- _ => destruct H as (y & <- & Hy) end.
    rewrite Forall_forall in IH. eapply ha_and; eauto.
  - rewrite in_map_iff in *. match goal with H : exists _, _ |- _ => destruct H as (y & <- & Hy) end.
    rewrite Forall_forall in IH. eapply ha_or; eauto.
  - constructor; auto.
  - constructor; auto.
Qed.

Lemma no_eof_norm : forall rs, no_eof_atom rs -> no_eof_atom (norm_rules rs).
Proof.
  intros rs H n e E. rewrite norm_rules_get in E. destruct (rules_get rs n) as [e0|] eqn:E0; [|discriminate].
  injection E as <-. intro X. apply has_atom_norm in X. apply (H n e0 E0 X).
Qed.

(* ------------------------------------------------------------------------------------------- *)
(** * Leaves *)

Lemma leaves_app : forall a b, flat_map leaves (a ++ b) = flat_map leaves a ++ flat_map leaves b.
Proof. apply flat_map_app. Qed.

Lemma peg_leaves : forall G e s r, peg G e s r ->
  (forall n x, G n = Some x -> ~ has_atom AEOF x) -> ~ has_atom AEOF e ->
  forall ts rest, r = PMatch ts rest -> s = flat_map leaves ts ++ rest.
Proof.
  intros G e s r D NG. induction D; intros NE ts0 rest0 E; try discriminate; try (injection E as <- <-); cbn;
    rewrite ?app_nil_r; try reflexivity.
  - exfalso. apply NE. constructor.
  - destruct r as [us rest1| |]; cbn in E; try discriminate. injection E as <- <-.
    rewrite leaves_app, <- app_assoc. rewrite <- (IHD2) with (ts := us) (rest := rest1); [|intro X|reflexivity].
    + apply IHD1; [|reflexivity]. intro X. apply NE. eapply ha_and; [left; reflexivity|exact X].
    + apply NE. inversion X; subst. eapply ha_and; [right; eassumption|eassumption].
  - subst r. destruct H.
  - apply IHD; [|exact E]. intro X. apply NE. eapply ha_or; [left; reflexivity|exact X].
  - apply IHD2; [|exact E]. intro X. apply NE. inversion X; subst. eapply ha_or; [right; eassumption|eassumption].
  - destruct r as [us rest1| |]; cbn in E; try discriminate. injection E as <- <-.
    rewrite leaves_app, <- app_assoc. rewrite <- (IHD2) with (ts := us) (rest := rest1); [|intro X|reflexivity].
    + apply IHD1; [|reflexivity]. intro X. apply NE. constructor. exact X.
    + apply NE. inversion X; subst. constructor. assumption.
  - destruct r as [us rest1| |]; cbn in E; try discriminate. injection E as <- <-. cbn. rewrite app_nil_r.
    apply IHD; [|reflexivity]. eapply NG. eassumption.
Qed.

Lemma parse_leaves : forall fuel s rs ast, no_eof_atom rs -> parse fuel s rs = Ok ast -> leaves ast = s.
Proof.
  intros fuel s rs ast NE F. unfold parse in F. rewrite parse_with_debug_norm in F.
  pose proof (parse_sound fuel s (norm_rules rs) false (norm_rules_sane rs)) as H. rewrite F in H.
  destruct H as [_ H]. unfold peg_main in H.
  pose proof (peg_leaves _ _ _ _ H (no_eof_norm rs NE)) as L.
  rewrite (L) with (ts := [ast]) (rest := []) at 1; [|intro X; inversion X|reflexivity].
  cbn. rewrite !app_nil_r. reflexivity.
Qed.

Lemma eof_free_list : forall ns, fold_right (fun x P => eof_free x /\ P) True ns <-> Forall eof_free ns.
Proof.
  induction ns as [|e es IH]; cbn; split; intro H.
  - constructor.
  - exact I.
  - destruct H as [H1 H2]. constructor; [exact H1|]. apply IH. exact H2.
  - inversion H; subst. split; [assumption|]. apply IH. assumption.
Qed.

Lemma peg_eof_free : forall G e s r, peg G e s r -> forall ts rest, r = PMatch ts rest -> Forall eof_free ts.
Proof.
  intros G e s r D. induction D; intros ts0 rest0 E; try discriminate; try (injection E as <- <-);
    try (repeat constructor; fail).
  - destruct r as [us rest1| |]; cbn in E; try discriminate. injection E as <- <-. apply Forall_app. eauto.
  - subst r. destruct H.
  - eauto.
  - eauto.
  - destruct r as [us rest1| |]; cbn in E; try discriminate. injection E as <- <-. apply Forall_app. eauto.
  - destruct r as [us rest1| |]; cbn in E; try discriminate. injection E as <- <-.
    constructor; [|constructor]. cbn. apply eof_free_list. eauto.
Qed.

Lemma parse_eof_free : forall fuel s rs d ast, parse_with_debug fuel s rs d = Ok ast -> eof_free ast.
Proof.
  intros fuel s rs d ast F. rewrite parse_with_debug_norm in F.
  pose proof (parse_sound fuel s (norm_rules rs) d (norm_rules_sane rs)) as H. rewrite F in H.
  destruct H as [_ H]. pose proof (peg_eof_free _ _ _ _ H [ast] [] eq_refl) as X. inversion X; assumption.
Qed.

(* ------------------------------------------------------------------------------------------- *)
(** * Errors, panics, non-ASCII text *)

Lemma parse_err_pos : forall fuel s rs d er, parse_with_debug fuel s rs d = Err er ->
  exists pre post, s = pre ++ post /\ e_pos er = pos_of pre /\ e_line_after er = until_eol post /\
    (ascii s -> e_line_before er = tail_after is_nl pre).
Proof.
  intros fuel s rs d er F. rewrite parse_with_debug_norm in F.
  pose proof (parse_sound fuel s (norm_rules rs) d (norm_rules_sane rs)) as H. rewrite F in H.
  destruct H as [(pre & post & A & _ & B & C & D) _]. exists pre, post. auto.
Qed.

Lemma parse_no_panic : forall fuel s rs d, ascii s -> parse_with_debug fuel s rs d <> Panic.
Proof.
  intros fuel s rs d As F. rewrite parse_with_debug_norm in F.
  pose proof (parse_sound fuel s (norm_rules rs) d (norm_rules_sane rs)) as H. rewrite F in H. contradiction.
Qed.

Lemma parse_non_ascii : forall fuel s rs d ast, ~ ascii s -> parse_with_debug fuel s rs d <> Ok ast.
Proof.
  intros fuel s rs d ast As F. rewrite parse_with_debug_norm in F.
  pose proof (parse_sound fuel s (norm_rules rs) d (norm_rules_sane rs)) as H. rewrite F in H. tauto.
Qed.

Lemma parse_abort_iff : forall s rs msg n, sane_rules rs -> ascii s ->
  ((exists fuel er, parse fuel s rs = Err er /\ e_priority er = Critical /\ e_descr er = msg /\ pn (e_pos er) = n) <->
   (exists rest, peg_main rs s (PAbort msg rest) /\ n + length rest = length s)).
Proof.
  intros s rs msg n SR As. split.
  - intros (fuel & er & F & P & D & L). pose proof (parse_sound fuel s rs false SR) as H. unfold parse in F.
    rewrite F, P in H. destruct H as [_ (rest & H1 & H2)]. subst. eauto.
  - intros (rest & D & L). destruct (proj2 (parse_terminates_iff s rs false SR As) (ex_intro _ _ D)) as [fuel F].
    exists fuel. pose proof (parse_sound fuel s rs false SR) as H. unfold parse.
    destruct (parse_with_debug fuel s rs false) as [ast'|er| |].
    + destruct H as [_ H]. pose proof (peg_det _ _ _ _ D _ H). discriminate.
    + destruct H as [_ H]. exists er. split; [reflexivity|]. destruct (e_priority er).
      * exfalso. destruct H as [H|(ts & rest' & H & N)]; pose proof (peg_det _ _ _ _ D _ H); discriminate.
      * destruct H as (rest' & H & L'). pose proof (peg_det _ _ _ _ D _ H) as E. injection E as -> ->.
        repeat split. lia.
    + contradiction.
    + contradiction.
Qed.

Lemma parse_no_main : forall fuel s rs, rules_get rs main = None ->
  parse fuel s rs = Err (PError pos_init (s_ "Missing rule: main") [] (until_eol s) [] Critical).
Proof.
  intros fuel s rs H. unfold parse. rewrite parse_unfold. unfold expression_parse, parse_rule_name.
  cbn [trace_rules status_init_debug]. change (s_ "main") with main. rewrite H. unfold err_status, from_status.
  cbn [text2parse status_init_debug st_pos pos_init pn pstart_line it_parsing walking_rules].
  assert (E : slice s 0 0 = Some []) by (unfold slice; destruct s; reflexivity).
  rewrite E. cbn [bind]. f_equal. f_equal.
  apply take_until_eol.
Qed.

Lemma peg_abort_origin : forall G e s r, peg G e s r -> forall msg rest, r = PAbort msg rest ->
  (has_atom (AError msg) e \/ (exists n x, G n = Some x /\ has_atom (AError msg) x)) \/
  (exists n, msg = missing_rule_msg n /\ G n = None /\
     (has_ref n e \/ exists k x, G k = Some x /\ has_ref n x)).
Proof.
  intros G e s r D. induction D; intros msg0 rest0 E; try discriminate.
  - injection E as <- <-. left. left. constructor.
  - destruct r as [us rest1| |]; cbn in E; try discriminate. specialize (IHD2 _ _ E).
    destruct IHD2 as [[H|H]|(n & H1 & H2 & [H3|H3])].
    + left. left. inversion H; subst. eapply ha_and; [right; eassumption|eassumption].
    + left. right. exact H.
    + right. exists n. repeat split; try assumption. left. inversion H3; subst. eapply hr_and; [right; eassumption|eassumption].
    + right. exists n. repeat split; try assumption. right. exact H3.
  - destruct (IHD _ _ E) as [[H0|H0]|(n & H1 & H2 & [H3|H3])].
    + left. left. eapply ha_and; [left; reflexivity|eassumption].
    + left. right. exact H0.
    + right. exists n. repeat split; try assumption. left. eapply hr_and; [left; reflexivity|eassumption].
    + right. exists n. repeat split; try assumption. right. exact H3.
  - destruct (IHD _ _ E) as [[H0|H0]|(n & H1 & H2 & [H3|H3])].
    + left. left. eapply ha_or; [left; reflexivity|eassumption].
    + left. right. exact H0.
    + right. exists n. repeat split; try assumption. left. eapply hr_or; [left; reflexivity|eassumption].
    + right. exists n. repeat split; try assumption. right. exact H3.
  - specialize (IHD2 _ _ E).
    destruct IHD2 as [[H|H]|(n & H1 & H2 & [H3|H3])].
    + left. left. inversion H; subst. eapply ha_or; [right; eassumption|eassumption].
    + left. right. exact H.
    + right. exists n. repeat split; try assumption. left. inversion H3; subst. eapply hr_or; [right; eassumption|eassumption].
    + right. exists n. repeat split; try assumption. right. exact H3.
  - destruct r as [us rest1| |]; cbn in E; try discriminate. specialize (IHD2 _ _ E).
    destruct IHD2 as [[H0|H0]|(n & H1 & H2 & [H3|H3])].
    + left. left. inversion H0; subst. constructor; assumption.
    + left. right. exact H0.
    + right. exists n. repeat split; try assumption. left. inversion H3; subst. constructor; assumption.
    + right. exists n. repeat split; try assumption. right. exact H3.
  - destruct (IHD _ _ E) as [[H0|H0]|(n & H1 & H2 & [H3|H3])].
    + left. left. constructor; assumption.
    + left. right. exact H0.
    + right. exists n. repeat split; try assumption. left. constructor; assumption.
    + right. exists n. repeat split; try assumption. right. exact H3.
  - destruct r as [us rest1| |]; cbn in E; try discriminate. destruct (IHD _ _ E) as [[H0|H0]|(n1 & H1 & H2 & [H3|H3])].
    + left. right. eauto.
    + left. right. exact H0.
    + right. exists n1. repeat split; try assumption. right. eauto.
    + right. exists n1. repeat split; try assumption. right. exact H3.
  - injection E as <- <-. right. exists n. repeat split; try assumption. left. constructor.
Qed.

Lemma has_ref_norm : forall a e, has_ref a (norm e) -> has_ref a e.
Proof.
  intros a e. induction e as [x|es IH|es IH|e IH|e mn mx IH|n] using expr_ind'; cbn; intro H; inversion H; subst; clear H.
  - rewrite in_map_iff in *. match goal with H : exists _, _ |- _ => destruct H as (y & <- & Hy) end.
    rewrite Forall_forall in IH. eapply hr_and; eauto.
  - rewrite in_map_iff in *. match goal with H : exists _, _ |- _ => destruct H as (y & <- & Hy) end.
    rewrite Forall_forall in IH. eapply hr_or; eauto.
  - constructor; auto.
  - constructor; auto.
  - constructor.
Qed.

Lemma parse_critical_origin : forall fuel s rs d er,
  parse_with_debug fuel s rs d = Err er -> e_priority er = Critical ->
  (exists n x, rules_get rs n = Some x /\ has_atom (AError (e_descr er)) x) \/
  (exists n, e_descr er = missing_rule_msg n /\ rules_get rs n = None /\
     (n = main \/ exists k x, rules_get rs k = Some x /\ has_ref n x)).
Proof.
  intros fuel s rs d er F P. rewrite parse_with_debug_norm in F.
  pose proof (parse_sound fuel s (norm_rules rs) d (norm_rules_sane rs)) as H. rewrite F, P in H.
  destruct H as [_ (rest & H & _)]. unfold peg_main in H.
  assert (U : forall n x, grammar_of (norm_rules rs) n = Some x -> exists y, rules_get rs n = Some y /\ x = norm y).
  { intros n x E. unfold grammar_of in E. rewrite norm_rules_get in E. destruct (rules_get rs n) as [y|]; [|discriminate].
    injection E as <-. eauto. }
  destruct (peg_abort_origin _ _ _ _ H _ _ eq_refl) as [[X|(n & x & X1 & X2)]|(n & X1 & X2 & X3)].
  - inversion X.
  - left. destruct (U n x X1) as (y & Y1 & ->). exists n, y. split; [exact Y1|]. apply has_atom_norm. exact X2.
  - right. exists n. split; [exact X1|]. split.
    + unfold grammar_of in X2. rewrite norm_rules_get in X2. destruct (rules_get rs n); [discriminate|reflexivity].
    + destruct X3 as [X3|(k & x & X3 & X4)]; [left; inversion X3; reflexivity|]. right.
      destruct (U k x X3) as (y & Y1 & ->). exists k, y. split; [exact Y1|]. apply has_ref_norm. exact X4.
Qed.

(* ------------------------------------------------------------------------------------------- *)
(** * Simulations: debug mode, reachable rules, suffix determinism *)

Lemma has_ref_refs : forall n e, In n (refs e) <-> has_ref n e.
Proof.
  intros n e. induction e as [x|es IH|es IH|e IH|e mn mx IH|m] using expr_ind'; cbn.
  - split; intro H; [contradiction|inversion H].
  - rewrite Forall_forall in IH. rewrite in_flat_map. split.
    + intros (x & H1 & H2). eapply hr_and; [exact H1|]. apply IH; assumption.
    + intro H. inversion H; subst. exists e. split; [assumption|]. apply IH; assumption.
  - rewrite Forall_forall in IH. rewrite in_flat_map. split.
    + intros (x & H1 & H2). eapply hr_or; [exact H1|]. apply IH; assumption.
    + intro H. inversion H; subst. exists e. split; [assumption|]. apply IH; assumption.
  - rewrite IH. split; intro H; [constructor; exact H|inversion H; assumption].
  - rewrite IH. split; intro H; [constructor; exact H|inversion H; assumption].
  - split; intro H.
    + destruct H as [->|[]]. constructor.
    + inversion H. left. reflexivity.
Qed.

Lemma parse_reachable : forall fuel s rs1 rs2 d,
  (forall n, reachable rs1 n -> rules_get rs1 n = rules_get rs2 n) ->
  parse_with_debug fuel s rs1 d = parse_with_debug fuel s rs2 d.
Proof.
  intros fuel s rs1 rs2 d H. rewrite !parse_unfold.
  assert (X : Ro eq eq (expression_parse rs1 fuel (status_init_debug s d)) (expression_parse rs2 fuel (status_init_debug s d))).
  { apply (sim_main rs1 rs2 (reachable rs1)); try (intros; subst; reflexivity).
    - exact H.
    - intros n e m Hn E Hm. eapply reach_step; [exact Hn|exact E|]. apply has_ref_refs. exact Hm.
    - intros a b a' c b' c' -> E1 E2. congruence.
    - intros a b x p ->. destruct (from_status b x p); auto.
    - constructor. }
  destruct (expression_parse rs1 fuel (status_init_debug s d)) as [[a x]|x| |],
    (expression_parse rs2 fuel (status_init_debug s d)) as [[b y]|y| |]; cbn in X; try contradiction; try reflexivity.
  - destruct X as [-> ->]. reflexivity.
  - congruence.
Qed.

(** Equality up to the trace. *)
Definition Rdbg (a b : status) : Prop :=
  text2parse a = text2parse b /\ it_parsing a = it_parsing b /\ st_pos a = st_pos b /\
  option_map erase_rules (potential_error a) = option_map erase_rules (potential_error b).

Lemma parse_debug_sim : forall fuel s rs,
  map_err erase_rules (parse_debug fuel s rs) = map_err erase_rules (parse fuel s rs).
Proof.
  intros fuel s rs. unfold parse_debug, parse. rewrite !parse_unfold.
  assert (FS : forall a b d p, Rdbg a b ->
    match from_status a d p, from_status b d p with
    | Some x, Some y => erase_rules x = erase_rules y
    | None, None => True
    | _, _ => False
    end).
  { intros a b d p (T & E & P & PE). unfold from_status. rewrite T, E, P.
    destruct (slice (text2parse b) (pstart_line (st_pos b)) (pn (st_pos b))); [reflexivity|exact I]. }
  assert (X : Ro Rdbg (fun x y => erase_rules x = erase_rules y)
     (expression_parse rs fuel (status_init_debug s true)) (expression_parse rs fuel (status_init_debug s false))).
  { apply (sim_main rs rs (fun _ => True)); try (intros; reflexivity); try exact FS; try (intros; exact I).
    - intros a b H. apply H.
    - intros a b a' c b' c' (T & E & P & PE) H1 H2. unfold get_char in *. rewrite E in H1.
      destruct (it_parsing b) as [|ch rest]; [discriminate|]. injection H1 as <- _. injection H2 as <- _.
      repeat split; cbn; try assumption. rewrite P. reflexivity.
    - intros a b x y (T & E & P & PE) H. repeat split; cbn; try assumption. f_equal. exact H.
    - intros a b n _ H. destruct (trace_rules a), (trace_rules b); exact H.
    - intros x y H. change (e_priority x) with (e_priority (erase_rules x)). rewrite H. reflexivity.
    - intros x y x' y' H H'. change (e_pos x) with (e_pos (erase_rules x)). change (e_pos x') with (e_pos (erase_rules x')).
      rewrite H, H'. reflexivity.
    - repeat split. }
  destruct (expression_parse rs fuel (status_init_debug s true)) as [[a x]|x| |],
    (expression_parse rs fuel (status_init_debug s false)) as [[b y]|y| |]; cbn in X; try contradiction; try reflexivity.
  - destruct X as [R ->]. cbn [bind]. pose proof (FS a b (s_ "not consumed full input") Normal R) as F.
    destruct R as (T & E & P & PE). rewrite P.
    destruct (pn (st_pos b) =? byte_len s); [reflexivity|].
    destruct (potential_error a), (potential_error b); cbn in PE; try discriminate.
    + injection PE as PE. cbn. f_equal. unfold erase_rules. congruence.
    + unfold err_normal, err_status. destruct (from_status a _ _), (from_status b _ _); cbn; try contradiction; try reflexivity.
      f_equal. exact F.
  - cbn. f_equal. exact X.
Qed.

(** The trace itself. *)
Lemma parse_trace : forall fuel s rs d er, parse_with_debug fuel s rs d = Err er -> trace_ok rs d (e_parsing_rules er).
Proof.
  intros fuel s rs d er H. rewrite parse_unfold in H.
  set (P := fun st : status => trace_rules st = d /\ trace_ok rs d (walking_rules st) /\
              forall e, potential_error st = Some e -> trace_ok rs d (e_parsing_rules e)).
  assert (FS : forall a x p e, P a -> from_status a x p = Some e -> trace_ok rs d (e_parsing_rules e)).
  { intros a x p e (_ & PT & _) E. unfold from_status in E. destruct (slice _ _ _); [|discriminate].
    injection E as <-. exact PT. }
  assert (X : Ro (fun a b => a = b /\ P a) (fun x y => x = y /\ trace_ok rs d (e_parsing_rules x))
     (expression_parse rs fuel (status_init_debug s d)) (expression_parse rs fuel (status_init_debug s d))).
  { unfold expression_parse, parse_rule_name. cbn [trace_rules status_init_debug].
    set (st1 := if d then push_rule (status_init_debug s d) (s_ "r:" ++ s_ "main") else status_init_debug s d).
    assert (P1 : P st1).
    { subst st1. unfold P. destruct d; cbn; (split; [reflexivity|split; [|intros e E; discriminate]]); [|reflexivity].
      exists []. split; [reflexivity|constructor]. }
    assert (FS2 : forall a b x p, a = b /\ P a ->
      match from_status a x p, from_status b x p with
      | Some e, Some e' => e = e' /\ trace_ok rs d (e_parsing_rules e)
      | None, None => True
      | _, _ => False
      end).
    { intros a b x p [-> Pb]. destruct (from_status b x p) eqn:E; [|exact I]. split; [reflexivity|].
      eapply FS; eassumption. }
    destruct (rules_get rs (s_ "main")) as [e|] eqn:E.
    - assert (Y : Ro (fun a b => a = b /\ P a) (fun x y => x = y /\ trace_ok rs d (e_parsing_rules x))
          (parse_expr rs fuel st1 e) (parse_expr rs fuel st1 e)).
      { apply (sim_expr rs rs (reachable rs)); try exact FS2; try (intros; reflexivity).
        - intros n x m Hn Hx Hm. eapply reach_step; [exact Hn|exact Hx|]. apply has_ref_refs. exact Hm.
        - intros a b [-> _]. reflexivity.
        - intros a b a' c b' c' [-> (P2 & P3 & P4)] E1 E2. split; [congruence|].
          unfold get_char in E1. destruct (it_parsing b); [discriminate|]. injection E1 as <- _. repeat split; assumption.
        - intros a b x y [-> (P2 & P3 & P4)] [-> Hy]. split; [reflexivity|]. repeat split; try assumption.
          cbn. intros e0 E0. injection E0 as <-. exact Hy.
        - intros a b n Hn [-> (P2 & P3 & P4)]. split; [reflexivity|]. rewrite P2. destruct d; [|repeat split; assumption].
          split; [exact P2|]. split; [|exact P4]. cbn [walking_rules push_rule]. destruct P3 as (l' & L1 & L2).
          exists (l' ++ [s_ "r:" ++ n]). rewrite L1. split; [reflexivity|]. apply Forall_app. split; [exact L2|].
          constructor; [|constructor]. eauto.
        - intros x y [-> _]. reflexivity.
        - intros x y x' y' [-> _] [-> _]. reflexivity.
        - intros n Hn. eapply reach_step; [apply reach_main|exact E|]. apply has_ref_refs. exact Hn.
        - auto. }
      destruct (parse_expr rs fuel st1 e) as [[st' ns]|er'| |]; cbn in *; tauto.
    - unfold err_status. pose proof (FS2 st1 st1 (s_ "Missing rule: " ++ s_ "main") Critical (conj eq_refl P1)) as F.
      destruct (from_status st1 _ Critical); cbn; tauto. }
  destruct (expression_parse rs fuel (status_init_debug s d)) as [[a x]|x| |]; cbn in X, H; try discriminate.
  - destruct X as [[_ PA] _]. destruct (pn (st_pos a) =? byte_len s); [discriminate|].
    destruct (potential_error a) as [e|] eqn:PE.
    + injection H as <-. destruct PA as (_ & _ & PA). apply PA. exact PE.
    + unfold err_normal, err_status in H. destruct (from_status a _ Normal) eqn:F; [|discriminate].
      injection H as <-. eapply FS; eassumption.
  - injection H as <-. tauto.
Qed.

(** Two states with the same remaining text, after different (ASCII) prefixes. *)
Definition same_rest (k1 k2 : nat) (a b : status) : Prop :=
  it_parsing a = it_parsing b /\ coherent_pos a /\ coherent_pos b /\
  ascii (text2parse a) /\ ascii (text2parse b) /\
  pn (st_pos a) + k2 = pn (st_pos b) + k1.

Definition same_err (k1 k2 : nat) (x y : perror) : Prop :=
  e_descr x = e_descr y /\ e_priority x = e_priority y /\ e_line_after x = e_line_after y /\
  pn (e_pos x) + k2 = pn (e_pos y) + k1.

Lemma coherent_from : forall st d p, coherent_pos st -> ascii (text2parse st) -> exists lb,
  from_status st d p = Some (PError (st_pos st) d lb (until_eol (it_parsing st)) (walking_rules st) p).
Proof.
  intros st d p C As.
  set (st0 := Status (text2parse st) (it_parsing st) (st_pos st) None (trace_rules st) (walking_rules st)).
  assert (I : inv st0). { split; [exact C|]. intros er E. discriminate. }
  change (from_status st d p) with (from_status st0 d p).
  destruct (from_status st0 d p) as [er|] eqn:F.
  - exists (e_line_before er). pose proof F as F2. apply from_status_ok in F; [|exact I].
    unfold from_status in F2. destruct (slice _ _ _); [|discriminate]. injection F2 as F2. subst er. cbn. f_equal. f_equal.
    apply take_until_eol.
  - exfalso. apply (from_status_ascii st0 d p I As F).
Qed.

Lemma suffix_determinism : forall rs f e a b,
  it_parsing a = it_parsing b -> coherent_pos a -> coherent_pos b ->
  ascii (text2parse a) -> ascii (text2parse b) ->
  Ro (same_rest (pn (st_pos a)) (pn (st_pos b))) (same_err (pn (st_pos a)) (pn (st_pos b)))
     (parse_expr rs f a e) (parse_expr rs f b e).
Proof.
  intros rs f e a0 b0 E0 Ca Cb Aa Ab. set (k1 := pn (st_pos a0)). set (k2 := pn (st_pos b0)).
  apply (sim_expr rs rs (fun _ => True)); try (intros; reflexivity); try (intros; exact I).
  - intros a b H. apply H.
  - intros a b a' c b' c' (E & C1 & C2 & A1 & A2 & L) H1 H2. unfold get_char in *. rewrite E in H1.
    destruct (it_parsing b) as [|ch rest] eqn:Eb; [discriminate|]. injection H1 as <- _. injection H2 as <- _.
    destruct C1 as (p1 & T1 & P1). destruct C2 as (p2 & T2 & P2). rewrite E in T1. rewrite Eb in T2.
    assert (X : forall p pre, p = pos_of pre ->
      (if N.eqb ch ch_nl then Pos (pn p + 1) (prow p + 1) 0 (pn p + 1)
        else if N.eqb ch ch_cr then Pos (pn p + 1) (prow p) 0 (pstart_line p)
        else Pos (pn p + 1) (prow p) (pcol p + 1) (pstart_line p)) = pos_of (pre ++ [ch])).
    { intros p pre ->. rewrite pos_of_snoc. reflexivity. }
    unfold same_rest. cbn [it_parsing text2parse st_pos].
    split; [reflexivity|]. split; [|split; [|split; [exact A1|split; [exact A2|]]]].
    + exists (p1 ++ [ch]). cbn [it_parsing text2parse st_pos]. rewrite <- app_assoc. split; [exact T1|apply X; exact P1].
    + exists (p2 ++ [ch]). cbn [it_parsing text2parse st_pos]. rewrite <- app_assoc. split; [exact T2|apply X; exact P2].
    + destruct (N.eqb ch ch_nl), (N.eqb ch ch_cr); cbn; lia.
  - intros a b d p (E & C1 & C2 & A1 & A2 & L).
    destruct (coherent_from a d p C1 A1) as [l1 ->]. destruct (coherent_from b d p C2 A2) as [l2 ->].
    repeat split; cbn; try congruence. 
  - intros a b x y H _. exact H.
  - intros a b n _ H. destruct (trace_rules a), (trace_rules b); exact H.
  - intros x y H. apply H.
  - intros x y x' y' (_ & _ & _ & L) (_ & _ & _ & L').
    destruct (Nat.ltb_spec (pn (e_pos x')) (pn (e_pos x))), (Nat.ltb_spec (pn (e_pos y')) (pn (e_pos y))); lia.
  - unfold same_rest, k1, k2. repeat split; try assumption. lia.
Qed.

(** Consumption: the potential error of the starting state is irrelevant. *)
Lemma consumption : forall rs f e st st' ts,
  coherent_pos st -> parse_expr rs f st e = Ok (st', ts) ->
  exists c pre, text2parse st = pre ++ it_parsing st /\ it_parsing st = c ++ it_parsing st' /\
    text2parse st' = text2parse st /\ st_pos st' = pos_of (pre ++ c) /\
    pn (st_pos st') = pn (st_pos st) + length c.
Proof.
  intros rs f e st st' ts C H.
  set (st0 := Status (text2parse st) (it_parsing st) (st_pos st) None (trace_rules st) (walking_rules st)).
  assert (I0 : inv st0). { split; [exact C|]. intros er E. discriminate. }
  assert (X : Ro (fun a b => text2parse a = text2parse b /\ it_parsing a = it_parsing b /\ st_pos a = st_pos b /\
                    trace_rules a = trace_rules b /\ walking_rules a = walking_rules b) eq
                 (parse_expr rs f st e) (parse_expr rs f st0 e)).
  { apply (sim_expr rs rs (fun _ => True)); try (intros; reflexivity); try (intros; exact Logic.I).
    - tauto.
    - intros a b a' c b' c' (T & E & P & TR & W) H1 H2. unfold get_char in *. rewrite E in H1.
      destruct (it_parsing b) as [|ch rest]; [discriminate|]. injection H1 as <- _. injection H2 as <- _.
      repeat split; cbn; try assumption. rewrite P. reflexivity.
    - intros a b d p (T & E & P & TR & W). unfold from_status. rewrite T, E, P, W.
      destruct (slice (text2parse b) (pstart_line (st_pos b)) (pn (st_pos b))); [reflexivity|exact Logic.I].
    - intros a b x y H1 H2. exact H1.
    - intros a b n _ (T & E & P & TR & W). rewrite TR. destruct (trace_rules b) eqn:Q; repeat split; cbn; congruence.
    - congruence.
    - intros; congruence.
    - repeat split. }
  rewrite H in X. pose proof (parse_expr_good rs f st0 e I0) as GD.
  destruct (parse_expr rs f st0 e) as [[st0' ts0]|er| |]; cbn in X; try contradiction.
  destruct X as [(T & E & P & _) _]. destruct GD as [I1 (T1 & _ & c & Ec)]. cbn in T1, Ec.
  destruct C as (pre & Tp & Pp). exists c, pre. rewrite T, E, P, T1.
  pose proof (inv_pn _ I1) as L1. pose proof (inv_pn _ I0) as L0. rewrite T1 in L1. cbn in L0. rewrite Ec, app_length in L0.
  destruct I1 as [(pre1 & Tp1 & Pp1) _]. rewrite T1, Tp, Ec, app_assoc in Tp1. apply app_inv_tail in Tp1.
  repeat split; try assumption; [rewrite Tp1; exact Pp1|lia].
Qed.
