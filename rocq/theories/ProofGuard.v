(** One parser that decides what another one does. *)
From Verif Require Import Base ModelAst ModelParser SpecPeg SpecPos SpecApi SpecWf SpecLang SpecPower SpecTiles SpecGuard SpecTable.
From Verif Require Import PegTools ProofParser ProofEngine ProofApi ProofWf ProofPower ProofTiles ProofDocs.

Lemma inv_or2 : forall G a b s r, peg G (Or [a; b]) s r -> peg G a s r /\ r <> PFail \/ peg G a s PFail /\ peg G b s r.
Proof.
  intros G a b s r H. inversion H; subst; [left; auto|right]. split; [assumption|].
  match goal with X : peg G (Or [b]) _ _ |- _ => inversion X; subst; [assumption|] end. match goal with X : peg G (Or []) _ _ |- _ => inversion X; subst; assumption end.
Qed.

Lemma endless_none : forall G s r, ~ peg G endless s r.
Proof.
  intros G s r D. remember endless as x eqn:E. revert E. unfold endless, rep0. induction D; intro E; try discriminate.
  - injection E as -> -> ->. exact (IHD2 eq_refl).
  - injection E as -> ->. inversion D; subst. match goal with X : forall rest, _ <> [] ++ rest |- _ => exact (X _ eq_refl) end.
  - injection E as -> -> ->. lia.
  - injection E as -> -> ->. inversion D.
Qed.

Section Guard.
Variable rs : rules.
Variable a : expr.
Hypothesis AK : asked rs a.

Let SR : sane_rules rs := proj1 AK.
Let SA : sane a := proj1 (proj2 AK).
Let MU : main_unused rs [a] := proj1 (proj2 (proj2 AK)).

Lemma any_noref : ~ has_ref main any_text.
Proof. intro R. inversion R as [| | | |? ? ? R']; subst. inversion R'. Qed.

Lemma mu2 : forall e, ~ has_ref main e -> main_unused rs [a; e].
Proof. intros e N. destruct MU as [U F]. inversion F; subst. split; [exact U|]. repeat constructor; assumption. Qed.

Lemma guard_noref : forall e, ~ has_ref main e -> ~ has_ref main (guarded a e).
Proof.
  intros e N R. inversion R as [| |? ? IN R'| |]; subst. destruct IN as [<-|[<-|[]]]; [|exact (any_noref R')]. exact (ref_both rs a e (mu2 e N) e N R').
Qed.

Lemma guard_sane : forall e, sane e -> sane (guarded a e).
Proof. intros e S. cbn. auto 9. Qed.

(** Under one grammar. *)
Lemma guard_yes : forall G e s ts r, peg G a s (PMatch ts []) -> peg G (guarded a e) s r -> peg G e s r /\ r <> PFail \/ peg G e s PFail.
Proof.
  intros G e s ts r DA D. apply inv_or2 in D. assert (X : forall q, peg G (both a e) s q -> peg G e s q).
  { intros q H. pose proof (peg_not_ok G _ s PFail (not_whole_yes a s G ts DA) Logic.I) as NN.
    inversion H; subst.
    - match goal with Y : peg G (Not (Not (whole a))) s (PMatch ?t ?s1) |- _ => pose proof (peg_det _ _ _ _ NN _ Y) as Q; injection Q as <- <- end.
      match goal with Y : peg G (And [e]) s ?q |- _ => inversion Y; subst end.
      + match goal with Y : peg G (And []) _ ?q |- _ => inversion Y; subst end. cbn [prepend app]. rewrite app_nil_r. assumption.
      + match goal with Y : stops ?q |- peg G e s (prepend [] ?q) => destruct q; try contradiction; assumption end.
    - match goal with Y : peg G (Not (Not (whole a))) s ?q, Z : stops ?q |- _ => pose proof (peg_det _ _ _ _ NN _ Y) as Q; subst q; contradiction end. }
  destruct D as [[D N]|[D _]]; [left; split; [apply X; exact D|exact N]|right; apply X; exact D].
Qed.

Lemma guard_passes : forall G e s ts r, peg G a s (PMatch ts []) -> peg G e s r -> r <> PFail -> peg G (guarded a e) s r.
Proof.
  intros G e s ts r DA D N. apply peg_or_first; [|exact N]. apply front_yes; [|exact D]. apply (peg_not_ok G _ s PFail (not_whole_yes a s G ts DA) Logic.I).
Qed.

Lemma guard_no : forall G e s r, peg G a s r -> (forall ts, r <> PMatch ts []) -> peg G (guarded a e) s (PMatch (by_chars s) []).
Proof.
  intros G e s r DA N. apply peg_or_next; [|apply mk_or1; apply all_chars]. apply peg_and_stop; [|exact Logic.I]. exact (peg_not_fail _ _ _ _ _ (not_whole_no a s G r DA N)).
Qed.

Lemma a_answers : forall s x, ascii s -> (takes (with_main rs a) s /\ exists ts, peg (grammar_of (with_main rs x)) a s (PMatch ts [])) \/
  (~ takes (with_main rs a) s /\ exists r, peg (grammar_of (with_main rs x)) a s r /\ forall ts, r <> PMatch ts []).
Proof.
  intros s x As. assert (NA : ~ has_ref main a) by (destruct MU as [_ F]; inversion F; assumption).
  destruct (proj1 (with_finishes rs a a s SR (mu2 a NA) As x a SA NA) (proj2 (proj2 (proj2 AK)) s As)) as [r D].
  pose proof (with_accepts rs a a s SR (mu2 a NA) As x a SA NA) as T. destruct (whole_or_not r) as [[ts ->]|N].
  - left. split; [apply T; exists ts; exact D|exists ts; exact D].
  - right. split; [|exists r; split; assumption]. intro K. apply T in K. destruct K as [ts D']. exact (N ts (peg_det _ _ _ _ D _ D')).
Qed.

Lemma not_taken_chars : forall e s, sane e -> ~ has_ref main e -> ascii s -> ~ takes (with_main rs a) s -> exists fuel, parse fuel s (with_main rs (guarded a e)) = Ok (Rule main (by_chars s)).
Proof.
  intros e s SE NE As NT. destruct (a_answers s (guarded a e) As) as [[T _]|(_ & r & D & N)]; [contradiction|].
  apply (with_ok rs a e s SR (mu2 e NE) As (guarded a e) (guarded a e) (guard_sane e SE) (guard_noref e NE)). eexists. split; [reflexivity|]. exact (guard_no _ e s r D N).
Qed.

Lemma endless_noref : ~ has_ref main endless.
Proof. intro R. inversion R as [| | | |? ? ? R']; subst. inversion R'. Qed.

Lemma guard_hangs : forall s, ascii s -> (forall fuel, parse fuel s (with_main rs (guarded a endless)) = Fuel) <-> takes (with_main rs a) s.
Proof.
  intros s As. assert (SE : sane endless) by (cbn; auto). split.
  - intro H. destruct (a_answers s a As) as [[T _]|(NT & _)]; [exact T|]. destruct (not_taken_chars endless s SE endless_noref As NT) as [f P]. rewrite H in P. discriminate.
  - intros T fuel. destruct (a_answers s (guarded a endless) As) as [(_ & ts & D)|[NT _]]; [|contradiction].
    assert (F : ~ finishes (with_main rs (guarded a endless)) s).
    { intro F. apply (with_finishes rs a endless s SR (mu2 _ endless_noref) As (guarded a endless) (guarded a endless) (guard_sane _ SE) (guard_noref _ endless_noref)) in F.
      destruct F as [r X]. apply (guard_yes _ _ _ _ _ D) in X. destruct X as [[X _]|X]; exact (endless_none _ _ _ X). }
    destruct (parse fuel s (with_main rs (guarded a endless))) eqn:P; [| | |reflexivity]; exfalso; apply F; exists fuel; rewrite P; discriminate.
Qed.

Lemma error_noref : forall m, ~ has_ref main (error_ m).
Proof. intros m R. inversion R. Qed.

Lemma guard_message : forall m s, ascii s ->
  (exists fuel er, parse fuel s (with_main rs (guarded a (error_ m))) = Err er /\ e_priority er = Critical /\ e_descr er = m /\ pn (e_pos er) = 0) <-> takes (with_main rs a) s.
Proof.
  intros m s As. assert (SE : sane (error_ m)) by exact Logic.I. pose proof (guard_sane _ SE) as SG. pose proof (with_sane rs (guarded a (error_ m)) SR SG) as SW. split.
  - intros (f & er & P & _). destruct (a_answers s a As) as [[T _]|(NT & _)]; [exact T|]. exfalso. destruct (not_taken_chars (error_ m) s SE (error_noref m) As NT) as [f' P'].
    unfold parse in P, P'. pose proof (ProofTable.parse_same _ _ _ _ _ _ _ SW As P P' ltac:(discriminate) ltac:(discriminate)). discriminate.
  - intro T. destruct (a_answers s (guarded a (error_ m)) As) as [(_ & ts & D)|[NT _]]; [|contradiction].
    assert (X : peg_main (with_main rs (guarded a (error_ m))) s (PAbort m s)).
    { refine (peg_rule _ main (guarded a (error_ m)) s (PAbort m s) (get_main rs _) _). apply (guard_passes _ _ _ _ _ D); [apply peg_error|discriminate]. }
    destruct (proj2 (parse_terminates_iff s _ false SW As) (ex_intro _ _ X)) as [f NF]. exists f. pose proof (parse_sound f s _ false SW) as Y.
    unfold parse. destruct (parse_with_debug f s (with_main rs (guarded a (error_ m))) false) as [t|er| |]; [| |contradiction|contradiction].
    + destruct Y as [_ Y]. pose proof (peg_det _ _ _ _ X _ Y). discriminate.
    + exists er. split; [reflexivity|]. destruct Y as [_ Y]. destruct (e_priority er).
      * exfalso. destruct Y as [Y|(us & rest & Y & _)]; pose proof (peg_det _ _ _ _ X _ Y); discriminate.
      * destruct Y as (rest & Y & L). pose proof (peg_det _ _ _ _ X _ Y) as Q. injection Q as E <-. split; [reflexivity|]. split; [congruence|lia].
Qed.

Lemma two_ways_needed : (forall s t, (exists f, parse f s (with_main rs (two_ways a)) = Ok t) <-> (exists f, parse f s (with_main rs (but_not a any_text)) = Ok t)) <->
  ~ exists s, takes (with_main rs a) s.
Proof.
  pose proof (mu2 _ any_noref) as M2. assert (SY : sane any_text) by (cbn; auto).
  assert (SB : sane (but_not a any_text)) by (apply sane_but_not; assumption).
  assert (NB : ~ has_ref main (but_not a any_text)) by (apply (ref_but_not rs a any_text M2)).
  assert (SW : sane (two_ways a)) by (cbn; auto 9).
  assert (NW : ~ has_ref main (two_ways a)).
  { intro R. inversion R as [| |? ? IN R'| |]; subst. destruct IN as [<-|[<-|[]]]; [exact (NB R')|exact (any_noref R')]. }
  assert (AA : forall f x s t, parse f s (with_main rs x) = Ok t -> ascii s).
  { intros f x s t P. destruct (Forall_dec ascii_char ascii_char_dec s) as [As|As]; [exact As|]. exfalso. exact (parse_non_ascii _ _ _ false _ As P). }
  assert (W : forall s, ascii s -> forall t, (exists f, parse f s (with_main rs (two_ways a)) = Ok t) <-> t = Rule main (by_chars s)).
  { intros s As t. rewrite (with_ok rs a any_text s SR M2 As a _ SW NW t). assert (D : peg (grammar_of (with_main rs a)) (two_ways a) s (PMatch (by_chars s) [])).
    { destruct (a_answers s a As) as [(_ & ts & D)|(_ & r & D & N)].
      - apply peg_or_next; [apply peg_and_stop; [exact (not_whole_yes a s _ ts D)|exact Logic.I]|]. apply mk_or1. apply all_chars.
      - apply mk_or1. apply front_yes; [exact (not_whole_no a s _ r D N)|apply all_chars]. }
    split; [intros (ts & -> & D'); pose proof (peg_det _ _ _ _ D _ D') as Q; injection Q as <-; reflexivity|intros ->; exists (by_chars s); auto]. }
  assert (C : forall s, ascii s -> forall t, (exists f, parse f s (with_main rs (but_not a any_text)) = Ok t) <-> ~ takes (with_main rs a) s /\ t = Rule main (by_chars s)).
  { intros s As t. apply (complement_ok rs a s SR SA MU As (proj2 (proj2 (proj2 AK)) s As)). }
  split.
  - intros H (s & f & t & P). pose proof (AA _ _ _ _ P) as As. pose proof (proj1 (H s _) (proj2 (W s As _) eq_refl)) as X. apply (C s As) in X. destruct X as [X _]. apply X. exists f, t. exact P.
  - intros N s t. split; intros [f P]; pose proof (AA _ _ _ _ P) as As.
    + apply (C s As). split; [intro T; apply N; exists s; exact T|]. apply (W s As). exists f. exact P.
    + apply (W s As). apply (C s As t). exists f. exact P.
Qed.

End Guard.

Lemma tile_with : forall P, with_main (tile_rules P) tile_main = tile_rules P.
Proof. reflexivity. Qed.

Lemma piece_noref : forall side nm Q k e, nm <> main -> In e (pieces side nm k Q) -> ~ has_ref main e.
Proof.
  intros side nm Q. induction Q as [|t Q IH]; intros k e N H; [destruct H|]. destruct H as [<-|H]; [|exact (IH _ _ N H)].
  intro R. inversion R as [|? ? IN R'| | |]; subst. destruct IN as [<-|[<-|[<-|[]]]]; inversion R'; subst. contradiction.
Qed.

Lemma column_noref : forall side nm P, nm <> main -> ~ has_ref main (column side nm P).
Proof.
  intros side nm P N R. inversion R as [| |? ? IN R'| |]; subst. apply in_app_or in IN. destruct IN as [IN|[<-|[]]]; [exact (piece_noref _ _ _ _ _ N IN R')|inversion R'].
Qed.

Lemma tile_main_noref : ~ has_ref main tile_main.
Proof.
  intro R. inversion R as [|? ? IN R'| | |]; subst. destruct IN as [<-|[<-|[<-|[]]]].
  - inversion R' as [| | |? X|]; subst. inversion X.
  - inversion R' as [| | |? X|]; subst. inversion X as [| | |? Y|]; subst. inversion Y as [|? ? IN Z| | |]; subst. destruct IN as [<-|[<-|[]]]; [inversion Z|]. inversion Z as [| | |? U|]; subst. inversion U.
  - inversion R'.
Qed.

Lemma tiles_asked : forall P, asked (tile_rules P) tile_main.
Proof.
  intro P. destruct (tiles_answered P) as (SR & _ & F). split; [exact SR|]. split; [cbn; auto 9|]. split; [split|].
  - intros n e N E. unfold tile_rules in E. cbn [rules_get] in E. destruct (str_eqb main n) eqn:E1; [apply str_eqb_eq in E1; congruence|].
    destruct (str_eqb nm_top n); [injection E as <-; apply column_noref; discriminate|]. destruct (str_eqb nm_bottom n); [injection E as <-; apply column_noref; discriminate|discriminate].
  - constructor; [exact tile_main_noref|constructor].
  - intros s _. rewrite tile_with. eexists. apply F. apply Nat.le_refl.
Qed.

Lemma tiles_hang : forall P, ascii_tiles P -> ((exists s, ascii s /\ forall fuel, parse fuel s (with_main (tile_rules P) (guarded tile_main endless)) = Fuel) <-> solvable P).
Proof.
  intros P A. rewrite <- (tiles_solve P A). split; intros [s H].
  - destruct H as [As H]. exists s. apply (guard_hangs _ _ (tiles_asked P) s As) in H. rewrite tile_with in H. exact H.
  - exists s. assert (As : ascii s). { destruct (Forall_dec ascii_char ascii_char_dec s) as [As|As]; [exact As|]. destruct H as (f & t & H). exfalso. exact (parse_non_ascii _ _ _ false _ As H). }
    split; [exact As|]. apply (guard_hangs _ _ (tiles_asked P) s As). rewrite tile_with. exact H.
Qed.

Lemma tiles_message : forall P m, ascii_tiles P -> ((exists s fuel er, ascii s /\ parse fuel s (with_main (tile_rules P) (guarded tile_main (error_ m))) = Err er /\ e_descr er = m) <-> solvable P).
Proof.
  intros P m A. rewrite <- (tiles_solve P A). split.
  - intros (s & f & er & As & H & E). exists s. rewrite <- (tile_with P). destruct (a_answers _ _ (tiles_asked P) s tile_main As) as [[T _]|(NT & _)]; [exact T|]. exfalso.
    destruct (not_taken_chars _ _ (tiles_asked P) (error_ m) s Logic.I (error_noref m) As NT) as [f' P'].
    assert (SW : sane_rules (with_main (tile_rules P) (guarded tile_main (error_ m)))) by (apply with_sane; [apply (tiles_asked P)|cbn; auto 12]).
    unfold parse in H, P'. pose proof (ProofTable.parse_same _ _ _ _ _ _ _ SW As H P' ltac:(discriminate) ltac:(discriminate)). discriminate.
  - intros [s T]. assert (As : ascii s). { destruct (Forall_dec ascii_char ascii_char_dec s) as [As|As]; [exact As|]. destruct T as (f & t & H). exfalso. exact (parse_non_ascii _ _ _ false _ As H). }
    rewrite <- (tile_with P) in T. apply (guard_message _ _ (tiles_asked P) m s As) in T. destruct T as (f & er & H & _ & E & _). exists s, f, er. auto.
Qed.

Lemma guard_refused : forall rs a, ~ well_formed (grammar_of (with_main rs (guarded a endless))).
Proof.
  intros rs a [_ N]. apply (N main (guarded a endless) (lit []) 0 None); [apply get_main| |left; reflexivity|constructor].
  apply (oc_or _ (both a endless)); [left; reflexivity|]. apply (oc_and _ endless); [right; left; reflexivity|]. constructor.
Qed.

Lemma guard_good : forall rs a, asked rs a -> (forall s, ascii s -> ~ takes (with_main rs a) s) ->
  forall s, ascii s -> exists fuel, parse fuel s (with_main rs (guarded a endless)) = Ok (Rule main (by_chars s)).
Proof. intros rs a AK N s As. apply not_taken_chars; [exact AK|cbn; auto|exact endless_noref|exact As|exact (N s As)]. Qed.

Lemma hang_or_chars : forall rs a, asked rs a -> forall s, ascii s ->
  ((forall fuel, parse fuel s (with_main rs (guarded a endless)) = Fuel) <-> takes (with_main rs a) s) /\
  ((exists fuel, parse fuel s (with_main rs (guarded a endless)) = Ok (Rule main (by_chars s))) <-> ~ takes (with_main rs a) s).
Proof.
  intros rs a AK s As. pose proof (guard_hangs rs a AK s As) as H. split; [exact H|]. split.
  - intros [f P] T. pose proof (proj2 H T f) as X. rewrite X in P. discriminate.
  - intro N. apply not_taken_chars; [exact AK|cbn; auto|exact endless_noref|exact As|exact N].
Qed.

Lemma complain_or_chars : forall rs a, asked rs a -> forall m s, ascii s ->
  ((exists fuel er, parse fuel s (with_main rs (guarded a (error_ m))) = Err er /\ e_priority er = Critical /\ e_descr er = m /\ pn (e_pos er) = 0) <->
     takes (with_main rs a) s) /\
  ((exists fuel, parse fuel s (with_main rs (guarded a (error_ m))) = Ok (Rule main (by_chars s))) <-> ~ takes (with_main rs a) s).
Proof.
  intros rs a AK m s As. pose proof (guard_message rs a AK m s As) as H. split; [exact H|]. split.
  - intros [f P] T. apply H in T. destruct T as (f' & er & P' & _). assert (SW : sane_rules (with_main rs (guarded a (error_ m)))).
    { destruct AK as (SR & SA & _). apply with_sane; [exact SR|cbn; auto 12]. }
    unfold parse in P, P'. pose proof (ProofTable.parse_same _ _ _ _ _ _ _ SW As P P' ltac:(discriminate) ltac:(discriminate)). discriminate.
  - intro N. apply not_taken_chars; [exact AK|exact Logic.I|exact (error_noref m)|exact As|exact N].
Qed.
