(** How grammar texts end. *)
From Verif Require Import Base ModelParser ModelPeg SpecPeg SpecSyntax.
From Verif Require Import ProofPegBuild.

(** The last char is not a blank, nor the end of a comment. *)
Definition solid (c : char) : Prop := c <> ch_space /\ c <> ch_nl /\ c <> ch_cr /\ c <> 47%N.
Definition ends_solid (t : str) : Prop := exists q c, t = q ++ [c] /\ solid c.

Lemma ends_app : forall a t, ends_solid t -> ends_solid (a ++ t).
Proof. intros a t (q & c & -> & S). exists (a ++ q), c. rewrite app_assoc. auto. Qed.
Lemma ends_char : forall a c, solid c -> ends_solid (a ++ [c]).
Proof. intros a c S. exists a, c. auto. Qed.
Lemma solid_range : forall lo hi c, (48 <= lo)%N -> between lo hi c -> solid c.
Proof. intros lo hi c L [A B]. unfold solid, ch_space, ch_nl, ch_cr. lia. Qed.
Lemma solid_start : forall c, sym_start c -> solid c.
Proof. intros c [-> |[H|[H|H]]]; [repeat split; discriminate|eapply solid_range; [|exact H]; lia..]. Qed.
Lemma solid_sym : forall c, sym_char c -> solid c.
Proof. intros c [H|[-> | ->]]; [apply solid_start, H|repeat split; discriminate..]. Qed.

Lemma symbol_end : forall t, symbol t -> ends_solid t.
Proof.
  intros t (c & r & -> & S & F). destruct (exists_last (l := c :: r) ltac:(discriminate)) as (q & x & E). rewrite E. apply ends_char. apply solid_sym.
  assert (A : Forall sym_char (c :: r)) by (constructor; [left; exact S|exact F]). rewrite E in A. apply Forall_app in A. destruct A as [_ A]. inversion A; assumption.
Qed.
Lemma dotted_end : forall t, dotted t -> ends_solid t.
Proof. intros t H. induction H as [t S|t r S D IH]; [apply symbol_end, S|]. apply ends_app, ends_app, IH. Qed.
Lemma name_end : forall t, rule_name t -> ends_solid t.
Proof. intros t [H|(r & -> & H)]; [apply dotted_end, H|apply ends_app, dotted_end, H]. Qed.
Lemma literal_end : forall t v, literal t v -> ends_solid t.
Proof.
  intros t v [body N Q|t' v' D].
  - rewrite app_assoc. apply ends_char. repeat split; discriminate.
  - apply (ends_app [ch_dquote]). induction D as [|x y t0 v0 E D IH|a b d1 d2 t0 v0 A B D IH|c t0 v0 N S D IH].
    + apply (ends_char []). repeat split; discriminate.
    + apply (ends_app [ch_bslash; x]), IH.
    + apply (ends_app (s_ "\0x" ++ [a; b])) in IH. rewrite <- app_assoc in IH. exact IH.
    + apply (ends_app [c]), IH.
Qed.
Lemma error_end : forall t v, error_text t v -> ends_solid t.
Proof. intros t v (b1 & b2 & l & b3 & _ & _ & _ & _ & ->). do 5 apply ends_app. apply (ends_app b3). apply (ends_char []). repeat split; discriminate. Qed.
Lemma atom_end : forall t e, atom_text t e -> ends_solid t.
Proof.
  intros t e [t' v L|cs rg t' (-> & _)|t' N|]; [exact (literal_end _ _ L)| |exact (name_end _ N)|].
  - do 3 apply ends_app. apply (ends_char []). repeat split; discriminate.
  - apply (ends_char []). repeat split; discriminate.
Qed.

Lemma expr_ends :
  (forall t e, unit_text t e -> ends_solid t) /\ (forall t e, item_text t e -> ends_solid t) /\
  (forall t es, seq_text t es -> ends_solid t) /\ (forall t xs, choice_text t xs -> ends_solid t) /\ (forall t e, expr_text t e -> ends_solid t).
Proof.
  apply expr_text_ind5; intros; auto.
  - eapply atom_end; eassumption.
  - do 4 apply ends_app. apply (ends_char []). repeat split; discriminate.
  - apply ends_char. repeat split; discriminate.
  - apply ends_char. repeat split; discriminate.
  - apply ends_char. repeat split; discriminate.
  - apply ends_app. assumption.
  - eapply error_end; eassumption.
  - do 2 apply ends_app. assumption.
  - do 4 apply ends_app. assumption.
Qed.

(** A definition ends with the end of a rule and blanks. *)
Definition ended (s : str) : Prop := exists q c r b, s = q ++ [c] ++ r ++ b /\ solid c /\ rule_end r /\ blank b.
Lemma ended_app : forall a s, ended s -> ended (a ++ s).
Proof. intros a s (q & c & r & b & -> & H). exists (a ++ q), c, r, b. split; [rewrite <- app_assoc; reflexivity|exact H]. Qed.
Lemma defs_ended : (forall t d, def_text t d -> ended t) /\ (forall t l, defs_text t l -> ended t).
Proof.
  apply def_text_ind2; intros; auto.
  - do 4 apply ended_app. match goal with H : expr_text _ _ |- _ => apply (proj2 (proj2 (proj2 (proj2 expr_ends)))) in H; destruct H as (q & c & -> & S) end.
    exists q, c, r, b3. rewrite <- app_assoc. auto.
  - do 5 apply ended_app. exists [], 125%N, r, b3. split; [reflexivity|]. split; [repeat split; discriminate|]. auto.
  - apply ended_app. assumption.
Qed.
Lemma grammar_ended : forall s l, grammar_text s l -> ended s.
Proof. intros s l (b & r & _ & D & ->). apply ended_app. exact (proj2 defs_ended r l D). Qed.

(** Up to spaces, a blank text ends with a line break or with [/], if there is anything. *)
Definition shut (b : str) : Prop := exists n, b = repeat ch_space n \/ exists p c, b = p ++ c :: repeat ch_space n /\ (c = ch_nl \/ c = ch_cr \/ c = 47%N).
Lemma eol_last : forall e, eol e -> exists p c, e = p ++ [c] /\ (c = ch_nl \/ c = ch_cr).
Proof. intros e [| |]; [exists [ch_cr], ch_nl|exists [], ch_nl|exists [], ch_cr]; auto. Qed.
Lemma comment_last : forall t, comment t -> exists p c, t = p ++ [c] /\ (c = ch_nl \/ c = ch_cr \/ c = 47%N).
Proof.
  intros t [c e _ _ E|c _].
  - destruct (eol_last e E) as (p & x & -> & X). exists (s_ "//" ++ c ++ p), x. split; [rewrite <- !app_assoc; reflexivity|tauto].
  - exists (s_ "/*" ++ c ++ [42%N]), 47%N. split; [rewrite <- !app_assoc; reflexivity|tauto].
Qed.
Lemma shut_after : forall x c b, (c = ch_nl \/ c = ch_cr \/ c = 47%N) -> shut b ->
  exists n p d, (x ++ [c]) ++ b = p ++ d :: repeat ch_space n /\ (d = ch_nl \/ d = ch_cr \/ d = 47%N).
Proof.
  intros x c b C (n & [-> |(p & d & -> & D)]).
  - exists n, x, c. split; [rewrite <- app_assoc; reflexivity|exact C].
  - exists n, ((x ++ [c]) ++ p), d. split; [rewrite <- !app_assoc; reflexivity|exact D].
Qed.
Lemma blank_shut : forall b, blank b -> shut b.
Proof.
  intros b H. induction H as [|b H IH|e b E H IH|c b C H IH].
  - exists 0. left. reflexivity.
  - destruct IH as (n & [-> |(p & d & -> & D)]); [exists (S n); left; reflexivity|]. exists n. right. exists (ch_space :: p), d. auto.
  - destruct (eol_last e E) as (p & x & -> & X). destruct (shut_after p x b ltac:(tauto) IH) as (n & q & d & -> & D). exists n. right. eauto.
  - destruct (comment_last c C) as (p & x & -> & X). destruct (shut_after p x b X IH) as (n & q & d & -> & D). exists n. right. eauto.
Qed.
Lemma end_last : forall r, rule_end r -> exists p c, r = p ++ [c] /\ (c = ch_nl \/ c = ch_cr).
Proof.
  intros r H. induction H as [e E|r H (p & c & -> & C)|t r T H (p & c & -> & C) _]; [apply eol_last, E|exists (ch_space :: p), c; auto|].
  exists (t ++ p), c. rewrite app_assoc. auto.
Qed.
Lemma ended_not_solid : forall s, ended s -> forall p c n, s = p ++ c :: repeat ch_space n -> ~ solid c.
Proof.
  intros s (q & x & r & b & -> & _ & R & B) p c n E (S1 & S2 & S3 & S4). destruct (end_last r R) as (r0 & y & -> & Y).
  destruct (shut_after (q ++ [x] ++ r0) y b ltac:(tauto) (blank_shut b B)) as (m & p' & d & E' & D). rewrite <- !app_assoc in E'. rewrite <- !app_assoc in E. rewrite E' in E.
  assert (ND : d <> ch_space) by (intro X; subst d; destruct D as [D|[D|D]]; discriminate).
  assert (X : c = d); [|subst c; tauto]. clear -E ND S1. apply (f_equal (@rev char)) in E. rewrite !rev_app_distr in E. cbn [rev] in E. rewrite <- !app_assoc in E. cbn [app] in E.
  assert (RR : forall k, rev (repeat ch_space k) = repeat ch_space k).
  { induction k as [|k IH]; [reflexivity|]. cbn [repeat rev]. rewrite IH. clear. induction k as [|k IH]; [reflexivity|]. cbn. f_equal. exact IH. }
  rewrite !RR in E. revert n E. induction m as [|m IH]; intros [|n] E; cbn [repeat app] in E.
  - injection E as E _. auto.
  - injection E as E _. destruct (ND E).
  - injection E as E _. destruct (S1 (eq_sym E)).
  - injection E as E. exact (IH n E).
Qed.
