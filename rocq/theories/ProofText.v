(** Grammar texts put together, reordered, and printed in normal form. *)
From Verif Require Import Base ModelAst ModelParser ModelPegRules ModelPeg SpecPos SpecSyntax SpecPegApi SpecText.
From Verif Require Import ProofParser ProofConsume PegLeaf ProofAst ProofPegBuild ProofPegPrint ProofPegMeaning ProofPegApi.
From Coq Require Import Permutation.

(* ------------------------------------------------------------------------------------------- *)
(** * Concatenation *)

Lemma defs_app : forall t l, defs_text t l -> forall t' l', defs_text t' l' -> defs_text (t ++ t') (l ++ l').
Proof.
  intros t l H. induction H as [t d D|t d r l D H IH]; intros t' l' H'; cbn [app].
  - apply ds_more; assumption.
  - rewrite <- app_assoc. apply ds_more; [exact D|]. apply IH. exact H'.
Qed.

Lemma grammar_app : forall a la b lb, grammar_text a la -> grammar_text b lb -> grammar_text (a ++ b) (la ++ lb).
Proof.
  intros a la b lb (x & ra & Bx & Da & ->) (y & rb & By & Db & ->). exists x, ((ra ++ y) ++ rb). split; [exact Bx|].
  split; [|rewrite <- !app_assoc; reflexivity]. apply defs_app; [|exact Db]. apply (proj2 (defs_trail y By)). exact Da.
Qed.

Lemma fold_define : forall l env k,
  ((exists e, In (Def k e) l) -> fold_left define l env k = bindings l k) /\
  ((forall e, ~ In (Def k e) l) -> fold_left define l env k = match env k with Some e => Some e | None => bindings l k end).
Proof.
  intros l env k. induction l as [|d l [IH1 IH2]] using rev_ind.
  - split; [intros (e & [])|]. intros _. cbn. destruct (env k); reflexivity.
  - unfold bindings in *. rewrite !fold_left_app. cbn [fold_left]. destruct d as [n x|m b].
    + split; intro H; cbn [define].
      * destruct (str_eqb n k) eqn:Q; [reflexivity|]. apply IH1. destruct H as (e & I). apply in_app_iff in I.
        destruct I as [I|[I|[]]]; [exists e; exact I|]. injection I as -> _. rewrite str_eqb_same in Q. discriminate.
      * assert (Q : str_eqb n k = false).
        { destruct (str_eqb n k) eqn:Q; [|reflexivity]. apply str_eqb_eq in Q. subst n. exfalso. apply (H x). apply in_app_iff. right. left. reflexivity. }
        rewrite Q. apply IH2. intros e I. apply (H e). apply in_app_iff. left. exact I.
    + split; intro H; cbn [define].
      * rewrite IH1; [reflexivity|]. destruct H as (e & I). apply in_app_iff in I. destruct I as [I|[I|[]]]; [exists e; exact I|discriminate].
      * rewrite IH2 by (intros e I; apply (H e); apply in_app_iff; left; exact I). destruct (env k); reflexivity.
Qed.

Lemma bindings_app : forall la lb k,
  ((exists e, In (Def k e) lb) -> bindings (la ++ lb) k = bindings lb k) /\
  ((forall e, ~ In (Def k e) lb) -> bindings (la ++ lb) k = match bindings la k with Some e => Some e | None => bindings lb k end).
Proof.
  intros la lb k. assert (E : bindings (la ++ lb) k = fold_left define lb (bindings la) k) by (unfold bindings; rewrite fold_left_app; reflexivity).
  rewrite E. apply fold_define.
Qed.

(* ------------------------------------------------------------------------------------------- *)
(** * Order *)

Lemma define_none : forall d env k, bindings [d] k = None -> define env d k = env k.
Proof.
  intros d env k H. unfold bindings in H. cbn [fold_left] in H. destruct d as [n x|m b]; cbn [define] in *.
  - destruct (str_eqb n k); [discriminate|reflexivity].
  - destruct (env k); [reflexivity|exact H].
Qed.

Lemma define_ext : forall d env env' k, env k = env' k -> define env d k = define env' d k.
Proof. intros d env env' k H. destruct d as [n x|m b]; cbn [define]; rewrite H; reflexivity. Qed.

Lemma fold_ext : forall l env env' k, env k = env' k -> fold_left define l env k = fold_left define l env' k.
Proof.
  intro l. induction l as [|d l IH]; intros env env' k H; cbn [fold_left]; [exact H|]. apply IH. apply define_ext. exact H.
Qed.

Lemma define_swap : forall a b env k, bindings [a] k = None \/ bindings [b] k = None -> define (define env a) b k = define (define env b) a k.
Proof.
  intros a b env k [H|H].
  - rewrite (define_none a (define env b) k H). apply define_ext. apply define_none. exact H.
  - rewrite (define_none b (define env a) k H). apply define_ext. symmetry. apply define_none. exact H.
Qed.

Lemma perm_filter : forall (A : Type) (p : A -> bool) l l', Permutation l l' -> length (filter p l) = length (filter p l').
Proof.
  intros A p l l' P. induction P as [|x l l' P IH|x y l|l l' l'' P1 IH1 P2 IH2]; cbn [filter].
  - reflexivity.
  - destruct (p x); cbn [length]; rewrite IH; reflexivity.
  - destruct (p x), (p y); reflexivity.
  - rewrite IH1. exact IH2.
Qed.

Lemma order : forall k l l', Permutation l l' ->
  (forall l1 d1 l2 d2 l3, l = l1 ++ d1 :: l2 ++ d2 :: l3 -> bindings [d1] k = None \/ bindings [d2] k = None) ->
  forall env, fold_left define l env k = fold_left define l' env k.
Proof.
  intros k l l' P. induction P as [|x l l' P IH|x y l|l l' l'' P1 IH1 P2 IH2]; intros H env; cbn [fold_left].
  - reflexivity.
  - apply IH. intros l1 d1 l2 d2 l3 ->. apply (H (x :: l1) d1 l2 d2 l3). reflexivity.
  - apply fold_ext. apply define_swap. apply (H [] y [] x l). reflexivity.
  - rewrite IH1 by exact H. apply IH2. intros m1 d1 m2 d2 m3 ->. clear IH1 IH2 P2.
    destruct (bindings [d1] k) as [e1|] eqn:E1; [|auto]. destruct (bindings [d2] k) as [e2|] eqn:E2; [|auto]. exfalso.
    assert (C : length (filter (fun d => match bindings [d] k with Some _ => true | None => false end) l) <= 1).
    { clear -H. induction l as [|d l IH]; [cbn; lia|]. cbn [filter]. destruct (bindings [d] k) as [e|] eqn:E.
      - assert (N : filter (fun d => match bindings [d] k with Some _ => true | None => false end) l = []).
        { destruct (filter _ l) as [|d' r] eqn:F; [reflexivity|]. exfalso.
          assert (I : In d' (filter (fun d => match bindings [d] k with Some _ => true | None => false end) l)) by (rewrite F; left; reflexivity).
          apply filter_In in I. destruct I as [I B]. apply in_split in I. destruct I as (l2 & l3 & ->).
          destruct (H [] d l2 d' l3 eq_refl) as [X|X]; rewrite X in *; discriminate. }
        rewrite N. cbn. lia.
      - apply IH. intros l1 d1 l2 d2 l3 ->. apply (H (d :: l1) d1 l2 d2 l3). reflexivity. }
    rewrite (perm_filter _ _ _ _ P1) in C.
    rewrite !filter_app in C. cbn [filter] in C. rewrite E1 in C. rewrite filter_app in C. cbn [filter] in C. rewrite E2 in C.
    rewrite app_length in C. cbn [length] in C. rewrite app_length in C. cbn [length] in C. lia.
Qed.

(* ------------------------------------------------------------------------------------------- *)
(** * Every grammar of an ASCII text can be printed *)

Lemma ascii_byte : forall s, ascii s -> byte_text s.
Proof. intros s H. eapply Forall_impl; [|exact H]. unfold ascii_char. intros c L. lia. Qed.

Lemma hex_small : forall c d, upper_hex c d -> (d < 16)%N.
Proof. intros c d [[H ->]|[H ->]]; unfold between in H; lia. Qed.

Lemma dq_byte : forall t v, dq_body t v -> ascii t -> byte_text v.
Proof.
  intros t v H. induction H as [|x y t v E H IH|a b d1 d2 t v A B H IH|c t v N S H IH]; intro As.
  - constructor.
  - inversion As as [|? ? _ As1]; subst. inversion As1 as [|? ? _ As2]; subst. constructor; [|apply IH; exact As2].
    destruct E; reflexivity.
  - apply ascii_app in As. destruct As as [_ As]. inversion As as [|? ? _ As1]; subst. inversion As1 as [|? ? _ As2]; subst.
    constructor; [|apply IH; exact As2]. apply hex_small in A. apply hex_small in B. lia.
  - inversion As as [|? ? L As1]; subst. constructor; [unfold ascii_char in L; lia|apply IH; exact As1].
Qed.

Lemma literal_byte : forall t v, literal t v -> ascii t -> byte_text v.
Proof.
  intros t v [body NE NQ|t' v' D] As.
  - apply ascii_app in As. destruct As as [_ As]. apply ascii_app in As. destruct As as [As _]. clear -As.
    unfold replace_char. induction As as [|c s L As IH]; [constructor|]. cbn [flat_map]. apply Forall_app. split; [|exact IH].
    unfold ascii_char in L. destruct (N.eqb c ch_bslash); repeat constructor. lia.
  - inversion As as [|? ? _ As1]; subst. exact (dq_byte _ _ D As1).
Qed.

Lemma atom_expressible : forall t e, atom_text t e -> ascii t -> expressible e.
Proof.
  intros t e [t' v L|cs rg t' (-> & NE & C)|t' N|] As; cbn [expressible].
  - exact (literal_byte _ _ L As).
  - apply ascii_app in As. destruct As as [_ As]. apply ascii_app in As. destruct As as [A1 As]. apply ascii_app in As. destruct As as [A2 _].
    auto.
  - exact N.
  - exact I.
Qed.

Lemma seq_of_expressible : forall es, es <> [] -> Forall expressible es -> expressible (seq_of es).
Proof.
  intros es N F. destruct es as [|e [|e2 es]]; [congruence|inversion F; assumption|]. cbn [seq_of expressible]. split; [cbn; lia|].
  apply expressible_list. exact F.
Qed.

Lemma choice_of_expressible : forall es, es <> [] -> Forall expressible es -> expressible (choice_of es).
Proof.
  intros es N F. destruct es as [|e [|e2 es]]; [congruence|inversion F; assumption|]. cbn [choice_of expressible]. split; [cbn; lia|].
  apply expressible_list. exact F.
Qed.

Ltac asplit := repeat match goal with H : ascii (_ ++ _) |- _ => apply ascii_app in H; destruct H end.

Lemma text_expressible :
  (forall t e, unit_text t e -> ascii t -> expressible e) /\ (forall t e, item_text t e -> ascii t -> expressible e) /\
  (forall t es, seq_text t es -> ascii t -> es <> [] /\ Forall expressible es) /\
  (forall t xs, choice_text t xs -> ascii t -> xs <> [] /\ Forall expressible xs) /\ (forall t e, expr_text t e -> ascii t -> expressible e).
Proof.
  apply expr_text_ind5; intros; asplit; cbn [expressible] in *; auto 8.
  - eapply atom_expressible; eassumption.
  - split; [discriminate|]. constructor; [|constructor]. destruct e as (b1 & b2 & l & b3 & _ & _ & L & _ & ->). asplit.
    cbn [expressible]. eapply literal_byte; eassumption.
  - split; [discriminate|]. constructor; [auto|constructor].
  - split; [discriminate|]. constructor; [auto|]. match goal with H : ascii ?r -> _ <> [] /\ _, A : ascii ?r |- _ => exact (proj2 (H A)) end.
  - match goal with H : ascii ?r -> _ <> [] /\ _, A : ascii ?r |- _ => destruct (H A) end. split; [discriminate|]. constructor; [|constructor].
    apply seq_of_expressible; assumption.
  - repeat match goal with H : ascii ?r -> _ <> [] /\ _, A : ascii ?r |- _ => destruct (H A); clear H end. split; [discriminate|].
    constructor; [|assumption]. apply seq_of_expressible; assumption.
  - match goal with H : ascii ?r -> _ <> [] /\ _, A : ascii ?r |- _ => destruct (H A) end. apply choice_of_expressible; assumption.
Qed.

Lemma defs_expressible : (forall t d, def_text t d -> ascii t -> expressible_def d) /\
  (forall t l, defs_text t l -> ascii t -> l <> [] /\ Forall expressible_def l).
Proof.
  apply def_text_ind2; intros; asplit.
  - split; [assumption|]. eapply (proj2 (proj2 (proj2 (proj2 text_expressible)))); eassumption.
  - match goal with H : ascii ?r -> _ <> [] /\ _, A : ascii ?r |- _ => destruct (H A) end. cbn [expressible_def].
    split; [assumption|]. split; [assumption|]. apply expressible_defs. assumption.
  - split; [discriminate|]. constructor; [auto|constructor].
  - split; [discriminate|]. constructor; [auto|]. match goal with H : ascii ?r -> _ <> [] /\ _, A : ascii ?r |- _ => exact (proj2 (H A)) end.
Qed.

Lemma grammar_expressible : forall s l, ascii s -> grammar_text s l -> l <> [] /\ Forall expressible_def l.
Proof. intros s l A (b & r & _ & D & ->). apply ascii_app in A. destruct A as [_ A]. exact (proj2 defs_expressible r l D A). Qed.

(* ------------------------------------------------------------------------------------------- *)
(** * Saving a rule set as a text *)

Lemma get_none : forall m k, ~ In k (map fst m) -> rules_get m k = None.
Proof.
  intros m k. induction m as [|[n e] m IH]; intro H; [reflexivity|]. cbn [rules_get]. cbn in H.
  destruct (str_eqb n k) eqn:Q; [apply str_eqb_eq in Q; exfalso; apply H; left; exact Q|]. apply IH. intro I. apply H. right. exact I.
Qed.

Lemma as_defs_bindings : forall m, NoDup (map fst m) -> forall env k,
  fold_left define (as_defs m) env k = match rules_get m k with Some e => Some e | None => env k end.
Proof.
  intros m N. induction m as [|[n e] m IH]; intros env k; [reflexivity|]. inversion N as [|? ? NI N']; subst. cbn [as_defs map fold_left fst snd].
  change (fold_left define (as_defs m) (define env (Def n e)) k = match rules_get ((n, e) :: m) k with Some e0 => Some e0 | None => env k end).
  rewrite (IH N'). cbn [rules_get define]. destruct (str_eqb n k) eqn:Q; [|reflexivity]. apply str_eqb_eq in Q. subst n.
  rewrite get_none by exact NI. reflexivity.
Qed.

Lemma get_in : forall (m : rules) k e, NoDup (map fst m) -> In (k, e) m -> rules_get m k = Some e.
Proof.
  intros m k e N. induction m as [|[n x] m IH]; intro I; [destruct I|]. inversion N as [|? ? NI N']; subst. cbn [rules_get].
  destruct I as [I|I]; [injection I as -> ->; rewrite str_eqb_same; reflexivity|].
  destruct (str_eqb n k) eqn:Q; [|exact (IH N' I)]. apply str_eqb_eq in Q. subst n. exfalso. apply NI. apply in_map_iff. exists (k, e). auto.
Qed.

Lemma get_perm : forall (m m' : rules), NoDup (map fst m) -> Permutation m' m -> forall k, rules_get m' k = rules_get m k.
Proof.
  intros m m' N P k. assert (N' : NoDup (map fst m')) by (eapply Permutation_NoDup; [apply Permutation_map, Permutation_sym, P|exact N]).
  destruct (rules_get m k) as [e|] eqn:E.
  - apply get_in; [exact N'|]. eapply Permutation_in; [apply Permutation_sym; exact P|]. revert E. clear. induction m as [|[n x] m IH]; [discriminate|].
    cbn [rules_get]. destruct (str_eqb n k) eqn:Q; [apply str_eqb_eq in Q; subst; intro E; injection E as ->; left; reflexivity|].
    intro E. right. exact (IH E).
  - apply get_none. intro I. assert (J : In k (map fst m)) by (eapply Permutation_in; [apply Permutation_map; exact P|exact I]).
    apply in_map_iff in J. destruct J as ([n e] & <- & J). cbn [fst] in E; rewrite (get_in m n e N J) in E. discriminate.
Qed.

Lemma save_load : forall m entries, m <> [] -> NoDup (map fst m) -> Permutation entries m ->
  Forall (fun p => rule_name (fst p) /\ expressible (snd p)) m -> reads_as (print_grammar (as_defs entries)) (rules_get m).
Proof.
  intros m entries NE N P F.
  assert (NE' : as_defs entries <> []).
  { intro E. apply map_eq_nil in E. subst entries. apply Permutation_nil in P. congruence. }
  assert (X : Forall expressible_def (as_defs entries)).
  { apply Forall_forall. intros d I. apply in_map_iff in I. destruct I as ([n e] & <- & I). rewrite Forall_forall in F.
    exact (F (n, e) (Permutation_in _ P I)). }
  destruct (print_grammar_text _ NE' X) as [G A]. destruct (reads_bindings _ _ A G) as (rs & R & U & E). exists rs.
  split; [exact R|]. split; [exact U|]. intro k. rewrite E. unfold bindings. rewrite as_defs_bindings.
  - rewrite (get_perm m entries N P). destruct (rules_get m k); reflexivity.
  - eapply Permutation_NoDup; [apply Permutation_map, Permutation_sym, P|exact N].
Qed.

Lemma expressible_all : forall l, Forall expressible_def l -> Forall (def_all (fun n e => rule_name n /\ expressible e)) l.
Proof.
  assert (SZ : forall n d, def_size d <= n -> expressible_def d -> def_all (fun n e => rule_name n /\ expressible e) d).
  { induction n as [|n IH]; intros d L X; [destruct d; cbn in L; lia|]. destruct d as [k e|m b].
    - constructor. exact X.
    - constructor. destruct X as (_ & _ & X). apply expressible_defs in X. rewrite Forall_forall in *. intros d I. apply IH; [|exact (X d I)].
      cbn in L. clear -L I. induction b as [|x b IHb]; [destruct I|]. cbn in L. destruct I as [->|I]; [lia|]. apply IHb; [lia|exact I]. }
  intros l F. eapply Forall_impl; [|exact F]. intros d X. exact (SZ _ d (Nat.le_refl _) X).
Qed.

Lemma read_printable : forall s rs, answers s (Ok rs) ->
  rs <> [] /\ NoDup (map fst rs) /\ Forall (fun p => rule_name (fst p) /\ expressible (snd p)) rs.
Proof.
  intros s rs A. destruct (answers_ok s rs A) as (As & l & G & ->). destruct (built_env l) as [U B].
  destruct (grammar_expressible s l As G) as [NE X]. split; [|split; [exact U|]].
  - intro E. assert (D : forall d, In d l -> forall k, bindings [d] k <> None -> bindings l k <> None).
    { intros d I k H. apply in_split in I. destruct I as (l1 & l2 & ->). destruct (def_in_dec k (d :: l2)) as [Y|Y].
      - destruct (bindings_app l1 (d :: l2) k) as [Z _]. rewrite (Z Y). destruct (last_def k (d :: l2) Y) as (m1 & e & m2 & -> & F).
        unfold bindings. rewrite fold_plain_last by exact F. discriminate.
      - destruct (bindings_app l1 (d :: l2) k) as [_ Z]. rewrite (Z Y). destruct (bindings l1 k); [discriminate|].
        change (d :: l2) with ([d] ++ l2). destruct (bindings_app [d] l2 k) as [_ W]. rewrite W by (intros e I; apply (Y e); right; exact I).
        destruct (bindings [d] k); [discriminate|contradiction]. }
    assert (K : forall d, expressible_def d -> exists k, bindings [d] k <> None).
    { clear. assert (SZ : forall n d, def_size d <= n -> expressible_def d -> exists k, bindings [d] k <> None).
      { induction n as [|n IH]; intros d L Y; [destruct d; cbn in L; lia|]. destruct d as [k e|m b].
        - exists k. unfold bindings. cbn. rewrite str_eqb_same. discriminate.
        - destruct Y as (_ & NB & Y). apply expressible_defs in Y. destruct b as [|x b]; [congruence|]. cbn in L.
          inversion Y as [|? ? Y1 Y2]; subst. destruct (IH x ltac:(lia) Y1) as [k K]. exists k. unfold bindings. cbn [fold_left define].
          change (bindings ([x] ++ b) k <> None). destruct (def_in_dec k b) as [Z|Z].
          + destruct (bindings_app [x] b k) as [W _]. rewrite (W Z). destruct (last_def k b Z) as (m1 & e & m2 & -> & F).
            unfold bindings. rewrite fold_plain_last by exact F. discriminate.
          + destruct (bindings_app [x] b k) as [_ W]. rewrite (W Z). destruct (bindings [x] k); [discriminate|contradiction]. }
      intros d. exact (SZ _ d (Nat.le_refl _)). }
    destruct l as [|d l]; [congruence|]. inversion X as [|? ? Xd _]; subst. destruct (K d Xd) as [k H]. specialize (B k). rewrite E in B.
    exact (D d (or_introl eq_refl) k H (eq_sym B)).
  - apply Forall_forall. intros [k e] I. cbn [fst snd]. pose proof (get_in _ k e U I) as E. rewrite B in E.
    exact (bindings_all _ l (expressible_all l X) k e E).
Qed.

Lemma savable_exact : forall m, NoDup (map fst m) -> ((exists s, reads_as s (rules_get m)) <-> savable m).
Proof.
  intros m N. split.
  - intros (s & rs & A & U & E). destruct (read_printable s rs A) as (NE & _ & F). split.
    + intros ->. destruct rs as [|[k e] rs]; [congruence|]. specialize (E k). cbn [rules_get] in E. rewrite str_eqb_same in E. discriminate.
    + apply Forall_forall. intros [k e] I. pose proof (get_in m k e N I) as G. rewrite <- E in G. apply rules_get_in in G.
      rewrite Forall_forall in F. exact (F (k, e) G).
  - intros [NE F]. exists (saved m). apply save_load; [exact NE|exact N|apply Permutation_refl|exact F].
Qed.
