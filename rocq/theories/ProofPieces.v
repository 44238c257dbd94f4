(** Pieces of trees. *)
From Verif Require Import Base ModelAst ModelParser SpecPeg SpecPos SpecApi SpecWf SpecBnf SpecTable SpecPower SpecPieces.
From Verif Require Import PegTools ProofSim ProofParser ProofEngine ProofApi ProofWf ProofBnf ProofTable ProofPower Examples.

Lemma piece_app : forall ts us k nd, piece k nd (ts ++ us) -> piece k nd ts \/ exists j, k = length (flat_map leaves ts) + j /\ piece j nd us.
Proof.
  induction ts as [|t ts IH]; intros us k nd P; [right; exists k; split; [reflexivity|exact P]|]. cbn [app] in P. inversion P as [|? ? n kids ? Q|k' ? ? ? Q]; subst.
  - left. constructor.
  - left. constructor. exact Q.
  - destruct (IH us k' nd Q) as [H|(j & -> & H)]; [left; constructor; exact H|]. right. exists j. split; [|exact H]. cbn [flat_map]. rewrite app_length. lia.
Qed.

Lemma piece_in_val : forall k n kids v, piece k (Rule n kids) [Val v] -> False.
Proof. intros k n kids v P. inversion P as [| |? ? ? ? Q]; subst. inversion Q. Qed.

Lemma skip_app : forall (a b : str) k, skipn (length a + k) (a ++ b) = skipn k b.
Proof. induction a as [|c a IH]; intros b k; [reflexivity|]. cbn. apply IH. Qed.

(** A piece of a match of [e] is a match of its rule. *)
Lemma piece_match : forall G, (forall n x, G n = Some x -> ~ has_atom AEOF x) -> forall e s r, peg G e s r -> ~ has_atom AEOF e ->
  forall ts rest, r = PMatch ts rest -> forall k n kids, piece k (Rule n kids) ts ->
  exists rest', skipn k s = flat_map leaves kids ++ rest' /\ peg G (RuleName n) (skipn k s) (PMatch [Rule n kids] rest').
Proof.
  intros G NG e s r D. induction D; intros NE ts0 rest0 E k0 n0 kids0 P; try discriminate; try (injection E as <- <-);
    try (exfalso; exact (piece_in_val _ _ _ _ P)); try (inversion P; fail).
  - destruct r as [us rest1| |]; cbn in E; try discriminate. injection E as <- <-.
    assert (N1 : ~ has_atom AEOF e) by (intro X; apply NE; eapply ha_and; [left; reflexivity|exact X]).
    assert (N2 : ~ has_atom AEOF (And es)) by (intro X; apply NE; inversion X; subst; eapply ha_and; [right; eassumption|eassumption]).
    destruct (piece_app _ _ _ _ P) as [Q|(j & -> & Q)]; [exact (IHD1 N1 _ _ eq_refl _ _ _ Q)|].
    rewrite (peg_leaves _ _ _ _ D1 NG N1 _ _ eq_refl), skip_app. exact (IHD2 N2 _ _ eq_refl _ _ _ Q).
  - subst r. destruct H.
  - apply (IHD ltac:(intro X; apply NE; eapply ha_or; [left; reflexivity|exact X]) _ _ E _ _ _ P).
  - apply (IHD2 ltac:(intro X; apply NE; inversion X; subst; eapply ha_or; [right; eassumption|eassumption]) _ _ E _ _ _ P).
  - destruct r as [us rest1| |]; cbn in E; try discriminate. injection E as <- <-.
    assert (N1 : ~ has_atom AEOF e) by (intro X; apply NE; constructor; exact X).
    destruct (piece_app _ _ _ _ P) as [Q|(j & -> & Q)]; [exact (IHD1 N1 _ _ eq_refl _ _ _ Q)|].
    rewrite (peg_leaves _ _ _ _ D1 NG N1 _ _ eq_refl), skip_app. apply (IHD2 ltac:(intro X; apply NE; inversion X; subst; constructor; assumption) _ _ eq_refl _ _ _ Q).
  - destruct r as [us rest1| |]; cbn in E; try discriminate. injection E as <- <-.
    inversion P as [? ?|? ? ? ? ? Q|? ? ? ? Q]; subst.
    + exists rest1. cbn [skipn]. split; [exact (peg_leaves _ _ _ _ D NG (NG _ _ H) _ _ eq_refl)|]. exact (peg_rule G _ e s (PMatch _ rest1) H D).
    + exact (IHD (NG _ _ H) _ _ eq_refl _ _ _ Q).
    + inversion Q.
Qed.

Section Pieces.
Variable rs : rules.
Hypothesis SR : sane_rules rs.
Hypothesis NE : no_eof_atom rs.
Hypothesis MS : main_is_start rs.

Lemma skip_ascii : forall k s, ascii s -> ascii (skipn k s).
Proof. intros k s A. unfold ascii in *. rewrite Forall_forall in *. intros c IN. apply A. rewrite <- (firstn_skipn k s). apply in_or_app. right. exact IN. Qed.

Lemma rule_moves : forall x n s r, n <> main -> peg (grammar_of rs) (RuleName n) s r -> peg (grammar_of (with_main rs x)) (RuleName n) s r.
Proof.
  intros x n s r N D. refine (peg_agree _ _ _ _ _ s r D _).
  - intros m X. unfold grammar_of. rewrite get_other by exact X. reflexivity.
  - intros m e _. exact (MS m e).
  - intro R. inversion R. congruence.
Qed.

Lemma piece_rule : forall fuel s ast d, parse_with_debug fuel s rs d = Ok ast -> forall k n kids, piece k (Rule n kids) [ast] ->
  exists rest, skipn k s = flat_map leaves kids ++ rest /\ peg (grammar_of rs) (RuleName n) (skipn k s) (PMatch [Rule n kids] rest).
Proof.
  intros fuel s ast d P k n kids Q. pose proof (parse_sound fuel s rs d SR) as H. rewrite P in H. destruct H as [_ H].
  exact (piece_match _ NE _ _ _ H ltac:(intro X; inversion X) _ _ eq_refl _ _ _ Q).
Qed.

Lemma start_with_is : forall n s kids rest, n <> main -> peg (grammar_of rs) (RuleName n) s (PMatch [Rule n kids] rest) -> ascii s -> forall d,
  exists fuel, parse_with_debug fuel s (with_main rs (start_with n)) d = Ok (Rule main (Rule n kids :: by_chars rest)).
Proof.
  intros n s kids rest N D A d. assert (SE : sane (start_with n)) by (cbn; auto). apply (parse_accepts_iff s _ d (with_sane rs _ SR SE) A).
  refine (peg_rule _ main (start_with n) s (PMatch (Rule n kids :: by_chars rest) []) (get_main rs _) _).
  pose proof (peg_and_cons _ _ _ _ _ _ _ (rule_moves (start_with n) n s _ N D) (peg_and_cons _ _ [] _ _ _ _ (all_chars _ rest) (peg_and_nil _ []))) as X.
  cbn [prepend] in X. rewrite app_nil_r in X. exact X.
Qed.

Lemma piece_alone : forall fuel s ast debug, parse_with_debug fuel s rs debug = Ok ast -> forall k n kids, n <> main -> piece k (Rule n kids) [ast] ->
  exists rest, skipn k s = flat_map leaves kids ++ rest /\
    exists fuel', parse_with_debug fuel' (skipn k s) (with_main rs (start_with n)) debug = Ok (Rule main (Rule n kids :: by_chars rest)).
Proof.
  intros fuel s ast d P k n kids N Q. pose proof (parse_sound fuel s rs d SR) as H. rewrite P in H.
  destruct (piece_rule fuel s ast d P k n kids Q) as (rest & E & D). exists rest. split; [exact E|]. exact (start_with_is n _ kids rest N D (skip_ascii k s (proj1 H)) d).
Qed.

Lemma reach_start : forall lib n e m, (forall x, has_ref x e -> x = n) -> reachable (with_main lib e) m -> m = main \/ reachable (with_main lib (ref_rule n)) m.
Proof.
  intros lib n e m HE R. induction R as [|j y m R IH E HR]; [left; reflexivity|]. right. destruct (list_eq_dec N.eq_dec j main) as [->|X].
  - rewrite get_main in E. injection E as <-. rewrite (HE _ HR). eapply reach_step; [apply reach_main|apply get_main|constructor].
  - destruct IH as [IH|IH]; [contradiction|]. eapply reach_step; [exact IH| |exact HR]. rewrite get_other in * by exact X. exact E.
Qed.

Lemma piece_library : forall lib fuel s ast debug, parse_with_debug fuel s rs debug = Ok ast -> forall k n kids, n <> main -> agree_below n lib rs -> piece k (Rule n kids) [ast] ->
  exists rest, skipn k s = flat_map leaves kids ++ rest /\
    exists fuel', parse_with_debug fuel' (skipn k s) (with_main lib (start_with n)) debug = Ok (Rule main (Rule n kids :: by_chars rest)).
Proof.
  intros lib fuel s ast d P k n kids N AG Q. destruct (piece_alone fuel s ast d P k n kids N Q) as (rest & E & f & D). exists rest. split; [exact E|]. exists f.
  rewrite <- D. apply parse_reachable. intros m R.
  destruct (list_eq_dec N.eq_dec m main) as [->|X]; [rewrite !get_main; reflexivity|]. rewrite !get_other by exact X.
  destruct (reach_start lib n (start_with n) m) as [H|H]; [|exact R|contradiction|exact (AG m X H)].
  intros x HR. inversion HR as [|? ? IN HR'| | |]; subst. destruct IN as [<-|[<-|[]]]; inversion HR' as [| | | |? ? ? HR'']; subst; [reflexivity|inversion HR''].
Qed.

(** Cut out of the text. *)
Lemma piece_cut : forall fuel s ast debug, parse_with_debug fuel s rs debug = Ok ast -> forall k n kids, n <> main -> piece k (Rule n kids) [ast] ->
  let rs' := with_main rs (ref_rule n) in well_formed (grammar_of rs') -> predictive_grammar (grammar_of rs') ->
  exists fuel', parse_with_debug fuel' (flat_map leaves kids) rs' debug = Ok (Rule main [Rule n kids]).
Proof.
  intros fuel s ast d P k n kids N Q rs' WF PG. pose proof (parse_sound fuel s rs d SR) as H. rewrite P in H. destruct H as [A _].
  destruct (piece_rule fuel s ast d P k n kids Q) as (rest & E & D). apply (rule_moves (ref_rule n) n _ _ N) in D.
  destruct (peg_derives _ _ _ _ D _ _ eq_refl) as (w & E' & D'). rewrite E in E'. apply app_inv_tail in E'. subst w.
  assert (A' : ascii (flat_map leaves kids)).
  { pose proof (skip_ascii k s A) as A'. rewrite E in A'. unfold ascii in *. rewrite Forall_app in A'. exact (proj1 A'). }
  assert (SR' : sane_rules rs') by (apply with_sane; [exact SR|exact Logic.I]).
  exists (depth_factor rs' * (length (flat_map leaves kids) + 1)). apply (predictive_parse rs' _ d _ _ SR' WF PG A' (le_n _)).
  eapply d_rule; [apply get_main|exact D'].
Qed.
End Pieces.

Lemma main_start_all : forall rs : rules, Forall (fun p => existsb (str_eqb main) (refs (snd p)) = false) rs -> main_is_start rs.
Proof.
  intros rs F n e E R. apply has_ref_refs in R. induction F as [|[k x] rs H F IH]; cbn [rules_get] in E; [discriminate|].
  destruct (str_eqb k n); [|exact (IH E)]. injection E as <-. cbn [snd] in H.
  assert (X : existsb (str_eqb main) (refs x) = true) by (apply existsb_exists; exists main; split; [exact R|apply str_eqb_eq; reflexivity]). congruence.
Qed.
