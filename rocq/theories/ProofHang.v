(** Proofs: parsing returns exactly when no task needs itself; how deep a parse that returns can nest. *)
From Coq Require Import Relations.Operators_Properties.
From Verif Require Import Base ModelAst ModelParser ModelCost SpecPeg SpecPos SpecApi SpecHang.
From Verif Require Import ProofParser ProofEngine ProofApi ProofCost2 PegTools PegLeaf.

(* ------------------------------------------------------------------------------------------- *)
(** * The PEG semantics as a function that gives up at some depth *)

Section Eval.
Variable G : str -> option expr.

Fixpoint strip (l s : str) : option str :=
  match l, s with
  | [], _ => Some s
  | a :: l', b :: s' => if N.eqb a b then strip l' s' else None
  | _, [] => None
  end.

Lemma strip_some : forall l s r, strip l s = Some r <-> s = l ++ r.
Proof.
  induction l as [|a l IH]; intros s r; cbn.
  - split; intro E; congruence.
  - destruct s as [|b s]; [split; discriminate|]. destruct (N.eqb_spec a b) as [E|E].
    + subst b. rewrite IH. split; [intro; subst; reflexivity|intro X; injection X as X; exact X].
    + split; [discriminate|]. intro X. injection X as X Y. congruence.
Qed.

Definition ev_atom (a : atom) (s : str) : presult :=
  match a, s with
  | Literal l, _ => match strip l s with Some r => PMatch [Val l] r | None => PFail end
  | Match cs rs, c :: r => if match_char cs rs c then PMatch [Val [c]] r else PFail
  | Match _ _, [] => PFail
  | AError m, _ => PAbort m s
  | Dot, c :: r => PMatch [Val [c]] r
  | Dot, [] => PFail
  | AEOF, [] => PMatch [Val (s_ "EOF")] []
  | AEOF, _ :: _ => PFail
  end.

Fixpoint ev (h : nat) (e : expr) (s : str) : option presult :=
  match h with
  | 0 => None
  | S h =>
      match e with
      | Simple a => Some (ev_atom a s)
      | And [] => Some (PMatch [] s)
      | And (e1 :: es) =>
          match ev h e1 s with
          | Some (PMatch ts s1) => option_map (prepend ts) (ev h (And es) s1)
          | o => o
          end
      | Or [] => Some PFail
      | Or (e1 :: es) => match ev h e1 s with Some PFail => ev h (Or es) s | o => o end
      | Not e1 =>
          match ev h e1 s with
          | Some (PMatch _ _) => Some PFail
          | Some _ => Some (PMatch [] s)
          | None => None
          end
      | Repeat e1 mn mx =>
          match mx with
          | Some 0 => match mn with 0 => Some (PMatch [] s) | _ => None end
          | _ =>
              match ev h e1 s with
              | Some (PMatch ts s1) => option_map (prepend ts) (ev h (Repeat e1 (pred mn) (option_map pred mx)) s1)
              | Some PFail => match mn with 0 => Some (PMatch [] s) | _ => Some PFail end
              | o => o
              end
          end
      | RuleName n =>
          match G n with
          | Some e1 => option_map (wrap n) (ev h e1 s)
          | None => Some (PAbort (missing_rule_msg n) s)
          end
      end
  end.

Lemma atom_peg : forall a s, peg G (Simple a) s (ev_atom a s).
Proof.
  intros [l|cs rs|m| |] s; cbn.
  - destruct (strip l s) as [r|] eqn:E.
    + apply strip_some in E. subst s. constructor.
    + constructor. intros r X. apply strip_some in X. congruence.
  - destruct s as [|c r]; [constructor; discriminate|]. destruct (match_char cs rs c) eqn:M.
    + constructor. apply match_char_iff. exact M.
    + constructor. intros c' r' X. injection X as X1 X2. subst. rewrite <- match_char_iff. congruence.
  - constructor.
  - destruct s; constructor.
  - destruct s; constructor.
Qed.

Lemma ev_peg : forall h e s r, ev h e s = Some r -> peg G e s r.
Proof.
  induction h as [|h IH]; intros e s r E; [discriminate|]. destruct e as [a|es|es|e1|e1 mn mx|n]; cbn [ev] in E.
  - injection E as E. subst r. apply atom_peg.
  - destruct es as [|e1 es]; [injection E as E; subst; constructor|].
    destruct (ev h e1 s) as [[ts s1| |m rest]|] eqn:E1; [|injection E as E; subst; constructor; [apply IH; exact E1|exact I]..|discriminate].
    destruct (ev h (And es) s1) as [r2|] eqn:E2; [|discriminate]. injection E as E. subst r.
    econstructor; apply IH; eassumption.
  - destruct es as [|e1 es]; [injection E as E; subst; constructor|].
    destruct (ev h e1 s) as [[ts s1| |m rest]|] eqn:E1;
      [injection E as E; subst; apply peg_or_first; [apply IH; exact E1|discriminate]| |
       injection E as E; subst; apply peg_or_first; [apply IH; exact E1|discriminate]|discriminate].
    apply peg_or_next; apply IH; assumption.
  - destruct (ev h e1 s) as [[ts s1| |m rest]|] eqn:E1; try discriminate; injection E as E; subst; apply IH in E1.
    + eapply peg_not_fail. exact E1.
    + eapply peg_not_ok; [exact E1|exact I].
    + eapply peg_not_ok; [exact E1|exact I].
  - assert (X : mx = Some 0 \/ mx <> Some 0) by (destruct mx as [[|m]|]; [left; reflexivity|right; discriminate..]).
    destruct X as [X|X].
    + subst mx. destruct mn; [|discriminate]. injection E as E. subst. constructor.
    + assert (E' : match ev h e1 s with
              | Some (PMatch ts s1) => option_map (prepend ts) (ev h (Repeat e1 (pred mn) (option_map pred mx)) s1)
              | Some PFail => match mn with 0 => Some (PMatch [] s) | _ => Some PFail end
              | o => o end = Some r) by (destruct mx as [[|m]|]; [congruence|exact E..]). clear E.
      destruct (ev h e1 s) as [[ts s1| |m rest]|] eqn:E1; [..|discriminate].
      * destruct (ev h (Repeat e1 (pred mn) (option_map pred mx)) s1) as [r2|] eqn:E2; [|discriminate].
        injection E' as E'. subst r. econstructor; [exact X|apply IH; eassumption..].
      * destruct mn; injection E' as E'; subst; [apply peg_rep_done|apply peg_rep_short]; try exact X; try lia; apply IH; exact E1.
      * injection E' as E'. subst. apply peg_rep_abort; [exact X|apply IH; exact E1].
  - destruct (G n) as [e1|] eqn:En; [|injection E as E; subst; constructor; exact En].
    destruct (ev h e1 s) as [r1|] eqn:E1; [|discriminate]. injection E as E. subst. econstructor; [exact En|apply IH; exact E1].
Qed.

(** The part of [ev] for repetitions whose maximum is not used up. *)
Lemma ev_rep : forall h e1 mn mx s, mx <> Some 0 -> ev (S h) (Repeat e1 mn mx) s =
  match ev h e1 s with
  | Some (PMatch ts s1) => option_map (prepend ts) (ev h (Repeat e1 (pred mn) (option_map pred mx)) s1)
  | Some PFail => match mn with 0 => Some (PMatch [] s) | _ => Some PFail end
  | o => o
  end.
Proof. intros h e1 mn mx s X. cbn [ev]. destruct mx as [[|m]|]; [congruence|reflexivity..]. Qed.

Lemma ev_S : forall h e s r, ev h e s = Some r -> ev (S h) e s = Some r.
Proof.
  induction h as [|h IH]; intros e s r E; [discriminate|]. destruct e as [a|es|es|e1|e1 mn mx|n].
  - exact E.
  - destruct es as [|e1 es]; [exact E|]. remember (S h) as h1. cbn [ev]. subst h1. cbn [ev] in E.
    destruct (ev h e1 s) as [[ts s1| |m rest]|] eqn:E1; [|rewrite (IH _ _ _ E1); exact E..|discriminate].
    rewrite (IH _ _ _ E1). destruct (ev h (And es) s1) as [r2|] eqn:E2; [|discriminate]. rewrite (IH _ _ _ E2). exact E.
  - destruct es as [|e1 es]; [exact E|]. remember (S h) as h1. cbn [ev]. subst h1. cbn [ev] in E.
    destruct (ev h e1 s) as [[ts s1| |m rest]|] eqn:E1; [rewrite (IH _ _ _ E1); exact E| |rewrite (IH _ _ _ E1); exact E|discriminate].
    rewrite (IH _ _ _ E1). apply IH. exact E.
  - remember (S h) as h1. cbn [ev]. subst h1. cbn [ev] in E.
    destruct (ev h e1 s) as [r1|] eqn:E1; [|discriminate]. rewrite (IH _ _ _ E1). exact E.
  - assert (X : mx = Some 0 \/ mx <> Some 0) by (destruct mx as [[|m]|]; [left; reflexivity|right; discriminate..]).
    destruct X as [X|X]; [subst mx; exact E|]. rewrite ev_rep in E |- * by exact X.
    destruct (ev h e1 s) as [[ts s1| |m rest]|] eqn:E1; [|rewrite (IH _ _ _ E1); exact E..|discriminate].
    rewrite (IH _ _ _ E1). destruct (ev h (Repeat e1 (pred mn) (option_map pred mx)) s1) as [r2|] eqn:E2; [|discriminate].
    rewrite (IH _ _ _ E2). exact E.
  - remember (S h) as h1. cbn [ev]. subst h1. cbn [ev] in E. destruct (G n) as [e1|]; [|exact E].
    destruct (ev h e1 s) as [r1|] eqn:E1; [|discriminate]. rewrite (IH _ _ _ E1). exact E.
Qed.

Lemma ev_mono : forall h h' e s r, h <= h' -> ev h e s = Some r -> ev h' e s = Some r.
Proof. intros h h' e s r L E. induction L; [exact E|]. apply ev_S. exact IHL. Qed.

Lemma ev_two : forall e s r e' s' r', (exists h, ev h e s = Some r) -> (exists h, ev h e' s' = Some r') ->
  exists h, ev h e s = Some r /\ ev h e' s' = Some r'.
Proof.
  intros e s r e' s' r' [h H] [h' H']. exists (Nat.max h h'). split; [apply (ev_mono h)|apply (ev_mono h')]; try assumption; lia.
Qed.

Lemma peg_ev : forall e s r, peg G e s r -> exists h, ev h e s = Some r.
Proof.
  assert (A : forall a s r, peg G (Simple a) s r -> exists h, ev h (Simple a) s = Some r).
  { intros a s r D. exists 1. cbn. f_equal. exact (peg_det _ _ _ _ (atom_peg a s) _ D). }
  intros e s r D. induction D; try (apply A; constructor; assumption).
  - exists 1. reflexivity.
  - destruct (ev_two _ _ _ _ _ _ IHD1 IHD2) as (h & H1 & H2). exists (S h). cbn [ev]. rewrite H1, H2. reflexivity.
  - destruct IHD as [h H1]. exists (S h). cbn [ev]. rewrite H1. destruct r; [destruct H|reflexivity..].
  - exists 1. reflexivity.
  - destruct IHD as [h H1]. exists (S h). cbn [ev]. rewrite H1. destruct r; [reflexivity|congruence|reflexivity].
  - destruct (ev_two _ _ _ _ _ _ IHD1 IHD2) as (h & H1 & H2). exists (S h). cbn [ev]. rewrite H1. exact H2.
  - destruct IHD as [h H1]. exists (S h). cbn [ev]. rewrite H1. reflexivity.
  - destruct IHD as [h H1]. exists (S h). cbn [ev]. rewrite H1. destruct r; [destruct H|reflexivity..].
  - exists 1. reflexivity.
  - destruct (ev_two _ _ _ _ _ _ IHD1 IHD2) as (h & H1 & H2). exists (S h). rewrite ev_rep, H1, H2 by assumption. reflexivity.
  - destruct IHD as [h H1]. exists (S h). rewrite ev_rep, H1 by assumption. reflexivity.
  - destruct IHD as [h H1]. exists (S h). rewrite ev_rep, H1 by assumption. destruct mn; [lia|reflexivity].
  - destruct IHD as [h H1]. exists (S h). rewrite ev_rep, H1 by assumption. reflexivity.
  - destruct IHD as [h H1]. exists (S h). cbn [ev]. rewrite H, H1. reflexivity.
  - exists 1. cbn. rewrite H. reflexivity.
Qed.

Lemma ev_agrees : forall h e s r r', ev h e s = Some r -> peg G e s r' -> r = r'.
Proof. intros h e s r r' E D. exact (peg_det _ _ _ _ (ev_peg _ _ _ _ E) _ D). Qed.

(* ------------------------------------------------------------------------------------------- *)
(** * Needed tasks take less depth *)

Definition done (h : nat) (t : task) : Prop := ev h (fst t) (snd t) <> None.

Lemma done_some : forall h e s, done h (e, s) -> exists r, ev h e s = Some r.
Proof. intros h e s D. unfold done in D. cbn in D. destruct (ev h e s) as [r|]; [exists r; reflexivity|congruence]. Qed.

Lemma done_mono : forall h h' t, h <= h' -> done h t -> done h' t.
Proof.
  intros h h' [e s] L D. destruct (done_some _ _ _ D) as [r R]. unfold done. cbn. rewrite (ev_mono h h' e s r L R). discriminate.
Qed.

Lemma needs_done : forall h t t', needs G t t' -> done (S h) t -> done h t'.
Proof.
  intros h t t' N D.
  inversion N as [e es s E1 E2|e es s ts s1 P E1 E2|e es s E1 E2|e es s P E1 E2|e s E1 E2|e mn mx s X E1 E2|e mn mx s ts s1 X P E1 E2|n e s P E1 E2];
    subst t t'; unfold done in *; cbn [fst snd] in *.
  - cbn [ev] in D. destruct (ev h e s) as [[| |]|]; congruence.
  - cbn [ev] in D. destruct (ev h e s) as [r|] eqn:E; [|congruence]. pose proof (ev_agrees _ _ _ _ _ E P) as Y. subst r.
    destruct (ev h (And es) s1); cbn in D; congruence.
  - cbn [ev] in D. destruct (ev h e s) as [[| |]|]; congruence.
  - cbn [ev] in D. destruct (ev h e s) as [r|] eqn:E; [|congruence]. pose proof (ev_agrees _ _ _ _ _ E P) as Y. subst r. exact D.
  - cbn [ev] in D. destruct (ev h e s) as [[| |]|]; congruence.
  - rewrite ev_rep in D by exact X. destruct (ev h e s) as [[| |]|]; congruence.
  - rewrite ev_rep in D by exact X. destruct (ev h e s) as [r|] eqn:E; [|congruence]. pose proof (ev_agrees _ _ _ _ _ E P) as Y. subst r.
    destruct (ev h (Repeat e (pred mn) (option_map pred mx)) s1); cbn in D; congruence.
  - cbn [ev] in D. rewrite P in D. destruct (ev h e s); cbn in D; congruence.
Qed.

Lemma needs_plus_done : forall t t', clos_trans task (needs G) t t' -> forall h, done h t -> exists h', h' < h /\ done h' t'.
Proof.
  intros t t' C. apply clos_trans_t1n in C. induction C as [t t' N|t t' t'' N C IH]; intros h D.
  - destruct h as [|h]; [contradiction D; reflexivity|]. exists h. split; [lia|]. apply (needs_done h t t' N D).
  - destruct h as [|h]; [contradiction D; reflexivity|]. destruct (IH h (needs_done h t t' N D)) as (h' & L & D'). exists h'. split; [lia|exact D'].
Qed.

Lemma comes_up_done : forall t t', comes_up G t t' -> forall h, done h t -> done h t'.
Proof.
  intros t t' C. apply clos_rt_rt1n in C. induction C as [|t t' t'' N C IH]; intros h D; [exact D|].
  apply IH. destruct h as [|h]; [contradiction D; reflexivity|]. apply (done_mono h); [lia|]. apply (needs_done h t t' N D).
Qed.

Lemma loop_not_done : forall t, clos_trans task (needs G) t t -> forall h, ~ done h t.
Proof.
  intros t C h. induction h as [h IH] using lt_wf_ind. intro D. destruct (needs_plus_done t t C h D) as (h' & L & D'). exact (IH h' L D').
Qed.

(** What is not evaluated in time needs something that is not evaluated in time either (for repetitions with usable
    bounds). *)
Definition usable (e : expr) : Prop :=
  match e with Repeat _ mn (Some m) => mn <= m | _ => True end.

Lemma not_done_needs : forall h t, usable (fst t) -> ev (S h) (fst t) (snd t) = None -> exists t', needs G t t' /\ ev h (fst t') (snd t') = None.
Proof.
  intros h [e s] U N. cbn [fst snd] in *. destruct e as [a|es|es|e1|e1 mn mx|n].
  - discriminate.
  - destruct es as [|e1 es]; [discriminate|]. cbn [ev] in N. destruct (ev h e1 s) as [[ts s1| |m rest]|] eqn:E1; try discriminate.
    + exists (And es, s1). split; [econstructor; apply (ev_peg _ _ _ _ E1)|]. cbn. destruct (ev h (And es) s1); [discriminate|reflexivity].
    + exists (e1, s). split; [constructor|exact E1].
  - destruct es as [|e1 es]; [discriminate|]. cbn [ev] in N. destruct (ev h e1 s) as [[ts s1| |m rest]|] eqn:E1; try discriminate.
    + exists (Or es, s). split; [constructor; apply (ev_peg _ _ _ _ E1)|exact N].
    + exists (e1, s). split; [constructor|exact E1].
  - cbn [ev] in N. destruct (ev h e1 s) as [[ts s1| |m rest]|] eqn:E1; try discriminate. exists (e1, s). split; [constructor|exact E1].
  - assert (X : mx = Some 0 \/ mx <> Some 0) by (destruct mx as [[|m]|]; [left; reflexivity|right; discriminate..]).
    destruct X as [X|X].
    + subst mx. cbn in U. assert (mn = 0) by lia. subst mn. discriminate.
    + rewrite ev_rep in N by exact X. destruct (ev h e1 s) as [[ts s1| |m rest]|] eqn:E1.
      * exists (Repeat e1 (pred mn) (option_map pred mx), s1). split; [econstructor; [exact X|apply (ev_peg _ _ _ _ E1)]|].
        cbn. destruct (ev h (Repeat e1 (pred mn) (option_map pred mx)) s1); [discriminate|reflexivity].
      * destruct mn; discriminate.
      * discriminate.
      * exists (e1, s). split; [constructor; exact X|exact E1].
  - cbn [ev] in N. destruct (G n) as [e1|] eqn:En; [|discriminate]. exists (e1, s). split; [constructor; exact En|].
    cbn. destruct (ev h e1 s); [discriminate|reflexivity].
Qed.

End Eval.

(* ------------------------------------------------------------------------------------------- *)
(** * The tasks that can come up are finitely many *)

Fixpoint tails {A} (l : list A) : list (list A) :=
  match l with [] => [[]] | _ :: r => l :: tails r end.

Lemma tails_length : forall A (l : list A), length (tails l) = length l + 1.
Proof. induction l as [|x l IH]; cbn; [reflexivity|rewrite IH; reflexivity]. Qed.

Lemma in_tails : forall A (l t : list A), In t (tails l) <-> exists p, l = p ++ t.
Proof.
  induction l as [|x l IH]; intros t; cbn.
  - split; [intros [E|[]]; subst; exists []; reflexivity|]. intros [p E]. symmetry in E. apply app_eq_nil in E. left. symmetry. apply E.
  - rewrite IH. split.
    + intros [E|[p E]]; [exists []; exact E|exists (x :: p); cbn; congruence].
    + intros [[|y p] E]; [left; exact E|right; exists p; cbn in E; congruence].
Qed.

Fixpoint parts (e : expr) : list expr :=
  match e with
  | Simple _ | RuleName _ => [e]
  | And es => map And (tails es) ++ flat_map parts es
  | Or es => map Or (tails es) ++ flat_map parts es
  | Not e1 => e :: parts e1
  | Repeat e1 mn (Some m) => map (fun i => Repeat e1 (mn - i) (Some (m - i))) (seq 0 (S m)) ++ parts e1
  | Repeat e1 mn None => map (fun i => Repeat e1 (mn - i) None) (seq 0 (S mn)) ++ parts e1
  end.

Lemma flat_parts_length : forall es, Forall (fun e => length (parts e) <= weight e) es ->
  length es + length (flat_map parts es) <= fold_right (fun x n => 1 + weight x + n) 0 es.
Proof.
  intros es F. induction F as [|e es H F IH]; [reflexivity|]. cbn [flat_map fold_right length]. rewrite app_length. lia.
Qed.

Lemma parts_length : forall e, length (parts e) <= weight e.
Proof.
  induction e as [a|es IH|es IH|e1 IH|e1 mn mx IH|n] using expr_ind'; cbn [weight]; try (cbn; lia).
  - cbn [parts]. rewrite app_length, map_length, tails_length. pose proof (flat_parts_length es IH). lia.
  - cbn [parts]. rewrite app_length, map_length, tails_length. pose proof (flat_parts_length es IH). lia.
  - destruct mx as [m|]; cbn [parts]; rewrite app_length, map_length, seq_length; lia.
Qed.

Lemma parts_self : forall e, In e (parts e).
Proof.
  intros [a|es|es|e1|e1 mn [m|]|n]; cbn [parts]; try (left; reflexivity); apply in_or_app; left.
  - apply in_map. apply in_tails. exists []. reflexivity.
  - apply in_map. apply in_tails. exists []. reflexivity.
  - apply in_map_iff. exists 0. rewrite !Nat.sub_0_r. split; [reflexivity|apply in_seq; lia].
  - apply in_map_iff. exists 0. rewrite !Nat.sub_0_r. split; [reflexivity|apply in_seq; lia].
Qed.

Section Universe.
Variable rs : rules.
Let G := rules_get rs.
Variable text : str.

(** [x] needs only parts of [e] and the expressions of rules. *)
Lemma parts_closed : forall e x, In x (parts e) -> forall s x' s', needs G (x, s) (x', s') -> In x' (parts e) \/ exists n, G n = Some x'.
Proof.
  induction e as [a|es IH|es IH|e1 IH|e1 mn mx IH|n] using expr_ind'; intros x X s x' s' N.
  - destruct X as [X|[]]. subst x. inversion N.
  - cbn [parts] in X |- *. apply in_app_or in X. destruct X as [X|X].
    + left. apply in_map_iff in X. destruct X as (t & X & T). subst x. inversion N; subst.
      * apply in_or_app. right. apply in_tails in T. destruct T as [p T]. apply in_flat_map. exists x'. split; [|apply parts_self].
        rewrite T. apply in_or_app. right. left. reflexivity.
      * apply in_or_app. left. apply in_map. apply in_tails in T. destruct T as [p T]. apply in_tails. exists (p ++ [e]).
        rewrite <- app_assoc. exact T.
    + apply in_flat_map in X. destruct X as (e & E & X). rewrite Forall_forall in IH. destruct (IH e E x X s x' s' N) as [H|H]; [left|right; exact H].
      apply in_or_app. right. apply in_flat_map. exists e. split; assumption.
  - cbn [parts] in X |- *. apply in_app_or in X. destruct X as [X|X].
    + left. apply in_map_iff in X. destruct X as (t & X & T). subst x. inversion N; subst.
      * apply in_or_app. right. apply in_tails in T. destruct T as [p T]. apply in_flat_map. exists x'. split; [|apply parts_self].
        rewrite T. apply in_or_app. right. left. reflexivity.
      * apply in_or_app. left. apply in_map. apply in_tails in T. destruct T as [p T]. apply in_tails. exists (p ++ [e]).
        rewrite <- app_assoc. exact T.
    + apply in_flat_map in X. destruct X as (e & E & X). rewrite Forall_forall in IH. destruct (IH e E x X s x' s' N) as [H|H]; [left|right; exact H].
      apply in_or_app. right. apply in_flat_map. exists e. split; assumption.
  - destruct X as [X|X].
    + subst x. left. inversion N; subst. right. apply parts_self.
    + destruct (IH x X s x' s' N) as [H|H]; [left; right; exact H|right; exact H].
  - destruct mx as [m|]; cbn [parts] in X |- *; apply in_app_or in X; destruct X as [X|X];
      try (destruct (IH x X s x' s' N) as [H|H]; [left; apply in_or_app; right; exact H|right; exact H]);
      left; apply in_map_iff in X; destruct X as (i & X & T); subst x; apply in_seq in T; inversion N; subst.
    + apply in_or_app. right. apply parts_self.
    + apply in_or_app. left. apply in_map_iff. exists (S i). assert (m - i <> 0) by congruence.
      split; [cbn [option_map]; f_equal; [lia|f_equal; lia]|apply in_seq; lia].
    + apply in_or_app. right. apply parts_self.
    + apply in_or_app. left. apply in_map_iff. destruct (Nat.eq_dec i mn) as [E|E].
      * exists mn. split; [cbn [option_map]; f_equal; lia|apply in_seq; lia].
      * exists (S i). split; [cbn [option_map]; f_equal; lia|apply in_seq; lia].
  - destruct X as [X|[]]. subst x. inversion N; subst. right. exists n. assumption.
Qed.

Lemma parts_usable : forall e, sane e -> forall x, In x (parts e) -> usable x.
Proof.
  induction e as [a|es IH|es IH|e1 IH|e1 mn mx IH|n] using expr_ind'; intros S x X.
  - destruct X as [X|[]]. subst x. exact I.
  - cbn in S. apply sane_list in S. cbn [parts] in X. apply in_app_or in X. destruct X as [X|X].
    + apply in_map_iff in X. destruct X as (t & X & _). subst x. exact I.
    + apply in_flat_map in X. destruct X as (e & E & X). rewrite Forall_forall in IH, S. apply (IH e E (S e E) x X).
  - cbn in S. apply sane_list in S. cbn [parts] in X. apply in_app_or in X. destruct X as [X|X].
    + apply in_map_iff in X. destruct X as (t & X & _). subst x. exact I.
    + apply in_flat_map in X. destruct X as (e & E & X). rewrite Forall_forall in IH, S. apply (IH e E (S e E) x X).
  - destruct X as [X|X]; [subst x; exact I|apply (IH S x X)].
  - cbn in S. destruct S as [S B]. destruct mx as [m|]; cbn [parts] in X; apply in_app_or in X; (destruct X as [X|X]; [|apply (IH S x X)]);
      apply in_map_iff in X; destruct X as (i & X & _); subst x; cbn; [lia|exact I].
  - destruct X as [X|[]]. subst x. exact I.
Qed.

Definition all_parts : list expr := RuleName main :: flat_map (fun p => parts (snd p)) rs.
Definition all_tasks : list task := list_prod all_parts (tails text).

Lemma all_parts_length : length all_parts <= rules_weight rs.
Proof.
  unfold all_parts, rules_weight. cbn [length]. apply le_n_S. clear G. induction rs as [|p l IH]; [reflexivity|].
  cbn [flat_map fold_right]. rewrite app_length. pose proof (parts_length (snd p)). lia.
Qed.

Lemma all_tasks_length : length all_tasks <= rules_weight rs * (length text + 1).
Proof. unfold all_tasks, task. rewrite prod_length, tails_length. apply Nat.mul_le_mono_r. apply all_parts_length. Qed.

Lemma get_in : forall (l : rules) n e, rules_get l n = Some e -> exists k, In (k, e) l.
Proof.
  induction l as [|[k x] l IH]; intros n e H; [discriminate|]. cbn in H. destruct (str_eqb k n).
  - injection H as H. subst. exists k. left. reflexivity.
  - destruct (IH n e H) as [k' K]. exists k'. right. exact K.
Qed.

Lemma all_parts_closed : forall x, In x all_parts -> forall s x' s', needs G (x, s) (x', s') -> In x' all_parts.
Proof.
  assert (B : forall n x', G n = Some x' -> In x' all_parts).
  { intros n x' E. destruct (get_in rs n x' E) as [k K]. right. apply in_flat_map. exists (k, x'). split; [exact K|apply parts_self]. }
  intros x X s x' s' N. destruct X as [X|X].
  - subst x. inversion N; subst. eapply B. eassumption.
  - apply in_flat_map in X. destruct X as (p & P & X). destruct (parts_closed (snd p) x X s x' s' N) as [H|[n H]]; [|eapply B; exact H].
    right. apply in_flat_map. exists p. split; assumption.
Qed.

Lemma needs_suffix : forall t t', needs G t t' -> exists p, snd t = p ++ snd t'.
Proof.
  intros t t' N. destruct N; cbn; try (exists []; reflexivity);
    match goal with H : peg _ _ _ (PMatch _ _) |- _ => exact (peg_suffix G _ _ _ H) end.
Qed.

Lemma all_tasks_closed : forall t, In t all_tasks -> forall t', needs G t t' -> In t' all_tasks.
Proof.
  intros [x s] T [x' s'] N. unfold all_tasks in *. apply in_prod_iff in T. destruct T as [X T]. apply in_prod_iff. split.
  - exact (all_parts_closed x X s x' s' N).
  - apply in_tails in T. destruct T as [p T]. destruct (needs_suffix _ _ N) as [q Q]. cbn in Q. subst s. apply in_tails.
    exists (p ++ q). rewrite <- app_assoc. exact T.
Qed.

Hypothesis SR : sane_rules rs.

(** The tasks that matter: shadowed entries of [rs] need not be sane. *)
Definition live (t : task) : Prop := In t all_tasks /\ exists e, sane e /\ In (fst t) (parts e).

Lemma start_live : live (RuleName main, text).
Proof.
  split; [|exists (RuleName main); split; [exact I|left; reflexivity]].
  apply in_prod_iff. split; [left; reflexivity|]. apply in_tails. exists []. reflexivity.
Qed.

Lemma live_closed : forall t, live t -> forall t', needs G t t' -> live t'.
Proof.
  intros t [T (e & S & P)] t' N. split; [exact (all_tasks_closed t T t' N)|].
  destruct t as [x s], t' as [x' s']. cbn in *. destruct (parts_closed e x P s x' s' N) as [H|[n H]].
  - exists e. split; assumption.
  - exists x'. split; [exact (SR n x' H)|apply parts_self].
Qed.

Lemma live_usable : forall t, live t -> usable (fst t).
Proof. intros t [_ (e & S & P)]. exact (parts_usable e S _ P). Qed.

(* ------------------------------------------------------------------------------------------- *)
(** * Depth of an evaluation that ends *)

Definition size : nat := length all_tasks.

Definition exactly (k : nat) (t : task) : Prop := ev G k (fst t) (snd t) = None /\ done G (S k) t.

Lemma exactly_unique : forall k k' t, exactly k t -> exactly k' t -> k = k'.
Proof.
  assert (A : forall k k' t, exactly k t -> exactly k' t -> k <= k').
  { intros k k' t [N D] [N' D']. destruct (le_lt_dec k k') as [L|L]; [exact L|]. exfalso.
    apply (done_mono G (S k') k t L D'). exact N. }
  intros k k' t E E'. pose proof (A k k' t E E'). pose proof (A k' k t E' E). lia.
Qed.

Lemma exactly_chain : forall k t, live t -> exactly k t ->
  exists l, length l = S k /\ Forall live l /\ NoDup l /\ Forall (fun u => exists j, j <= k /\ exactly j u) l.
Proof.
  induction k as [|k IH]; intros t T E.
  - exists [t]. split; [reflexivity|]. split; [constructor; [exact T|constructor]|]. split; [constructor; [intros []|constructor]|].
    constructor; [|constructor]. exists 0. split; [lia|exact E].
  - pose proof E as E0. destruct E as [N D]. destruct (not_done_needs G k t (live_usable t T) N) as (t' & ND & N').
    assert (T' : live t') by (apply (live_closed t T t' ND)).
    assert (E' : exactly k t') by (split; [exact N'|apply (needs_done G (S k) t t' ND D)]).
    destruct (IH t' T' E') as (l & L & I & ND' & F). exists (t :: l). split; [cbn; rewrite L; reflexivity|].
    split; [constructor; assumption|]. split.
    + constructor; [|exact ND']. intro X. rewrite Forall_forall in F. destruct (F t X) as (j & J & EJ).
      pose proof (exactly_unique _ _ _ EJ E0). lia.
    + constructor; [exists (S k); split; [lia|exact E0]|]. eapply Forall_impl; [|exact F]. cbn. intros u (j & J & EJ). exists j. split; [lia|exact EJ].
Qed.

Lemma done_in_time : forall h t, live t -> done G h t -> done G size t.
Proof.
  intros h t T D. destruct (le_lt_dec h size) as [L|L]; [exact (done_mono G h size t L D)|].
  unfold done. intro N. assert (X : exists k, size <= k /\ exactly k t).
  { assert (Y : forall d, done G (size + d) t -> exists k, size <= k /\ exactly k t).
    { induction d as [|d IH]; intro Dd; [rewrite Nat.add_0_r in Dd; contradiction|].
      destruct (ev G (size + d) (fst t) (snd t)) eqn:E; [apply IH; unfold done; rewrite E; discriminate|].
      exists (size + d). split; [lia|]. split; [exact E|]. rewrite Nat.add_succ_r in Dd. exact Dd. }
    apply (Y (h - size)). replace (size + (h - size)) with h by lia. exact D. }
  destruct X as (k & K & E). destruct (exactly_chain k t T E) as (l & Len & I & ND & _).
  assert (I' : incl l all_tasks) by (intros u U; rewrite Forall_forall in I; apply (proj1 (I u U))).
  pose proof (NoDup_incl_length ND I'). unfold size in K. lia.
Qed.

(* ------------------------------------------------------------------------------------------- *)
(** * What does not end needs itself *)

Lemma not_done_next : forall t, live t -> ev G size (fst t) (snd t) = None ->
  exists t', needs G t t' /\ live t' /\ ev G size (fst t') (snd t') = None.
Proof.
  intros t T N. destruct (ev G (S size) (fst t) (snd t)) eqn:E.
  - exfalso. apply (done_in_time (S size) t T); [unfold done; rewrite E; discriminate|exact N].
  - destruct (not_done_needs G size t (live_usable t T) E) as (t' & ND & N'). exists t'. split; [exact ND|]. split; [|exact N'].
    apply (live_closed t T t' ND).
Qed.

(** A path of needed tasks, last one first. *)
Inductive path : list task -> Prop :=
| path_one t : path [t]
| path_more t t' l : path (t :: l) -> needs G t t' -> path (t' :: t :: l).

Lemma long_path : forall n t, live t -> ev G size (fst t) (snd t) = None ->
  exists t' l, path (t' :: l) /\ length l = n /\ Forall live (t' :: l) /\ ev G size (fst t') (snd t') = None /\ last (t' :: l) t = t.
Proof.
  induction n as [|n IH]; intros t T N.
  - exists t, []. split; [constructor|]. split; [reflexivity|]. split; [constructor; [exact T|constructor]|]. split; [exact N|reflexivity].
  - destruct (IH t T N) as (t1 & l & P & L & I & N1 & La). destruct (not_done_next t1 (Forall_inv I) N1) as (t2 & ND & T2 & N2).
    exists t2, (t1 :: l). split; [constructor; assumption|]. split; [cbn; rewrite L; reflexivity|].
    split; [constructor; assumption|]. split; [exact N2|exact La].
Qed.

Lemma path_reaches : forall l, path l -> forall t r, l = t :: r -> forall u, In u r -> clos_trans task (needs G) u t.
Proof.
  intros l P. induction P as [t0|t0 t1 l P IH ND]; intros t r E u U.
  - injection E as E1 E2. subst. destruct U.
  - injection E as E1 E2. subst t r. destruct U as [U|U].
    + subst u. constructor. exact ND.
    + eapply t_trans; [|constructor; exact ND]. apply (IH t0 l eq_refl u U).
Qed.

Lemma path_tail : forall x l, path (x :: l) -> l <> [] -> path l.
Proof. intros x l P H. inversion P; subst; [congruence|assumption]. Qed.

Lemma path_from_last : forall l, path l -> forall t d, l <> [] -> last l d = t -> forall u, In u l -> comes_up G t u.
Proof.
  intros l P. induction P as [t0|t0 t1 l P IH ND]; intros t d _ La u U.
  - cbn in La. destruct U as [U|[]]. subst. apply rt_refl.
  - assert (La' : last (t0 :: l) d = t) by exact La. destruct U as [U|U].
    + subst u. eapply rt_trans; [apply (IH t d ltac:(discriminate) La' t0 (or_introl eq_refl))|]. constructor. exact ND.
    + apply (IH t d ltac:(discriminate) La' u U).
Qed.

Lemma path_drop : forall a x b, path (a ++ x :: b) -> path (x :: b).
Proof.
  induction a as [|y a IH]; intros x b P; [exact P|]. apply IH. apply (path_tail y); [exact P|]. destruct a; discriminate.
Qed.

End Universe.

Lemma atom_dec : forall a b : atom, {a = b} + {a <> b}.
Proof.
  decide equality; try apply str_dec. apply list_eq_dec. decide equality; apply N.eq_dec.
Qed.

Lemma expr_dec : forall a b : expr, {a = b} + {a <> b}.
Proof.
  assert (L : forall es, Forall (fun a => forall b : expr, a = b \/ a <> b) es -> forall fs : list expr, es = fs \/ es <> fs).
  { intros es F. induction F as [|e es H F IH]; intros [|f fs]; [left; reflexivity|right; discriminate..|].
    destruct (H f) as [E|E]; [|right; congruence]. destruct (IH fs) as [E'|E']; [left|right]; congruence. }
  fix IH 1. intros [a|es|es|e|e mn mx|n] [b|fs|fs|f|f mn' mx'|m]; try (right; discriminate).
  - destruct (atom_dec a b); [left|right]; congruence.
  - assert (D : {es = fs} + {es <> fs}).
    { revert fs. induction es as [|x es IHes]; intros [|y fs]; [left; reflexivity|right; discriminate..|].
      destruct (IH x y); [|right; congruence]. destruct (IHes fs); [left|right]; congruence. }
    destruct D; [left|right]; congruence.
  - assert (D : {es = fs} + {es <> fs}).
    { revert fs. induction es as [|x es IHes]; intros [|y fs]; [left; reflexivity|right; discriminate..|].
      destruct (IH x y); [|right; congruence]. destruct (IHes fs); [left|right]; congruence. }
    destruct D; [left|right]; congruence.
  - destruct (IH e f); [left|right]; congruence.
  - destruct (IH e f); [|right; congruence]. destruct (Nat.eq_dec mn mn'); [|right; congruence].
    assert (D : {mx = mx'} + {mx <> mx'}) by (decide equality; apply Nat.eq_dec). destruct D; [left|right]; congruence.
  - destruct (str_dec n m); [left|right]; congruence.
Defined.

Lemma task_dec : forall a b : task, {a = b} + {a <> b}.
Proof. decide equality; [apply str_dec|apply expr_dec]. Defined.

Lemma repeated : forall l : list task, NoDup l \/ exists a x b c, l = a ++ x :: b ++ x :: c.
Proof.
  induction l as [|x l IH]; [left; constructor|]. destruct IH as [N|(a & y & b & c & E)].
  - destruct (in_dec task_dec x l) as [I|I]; [|left; constructor; assumption].
    right. apply in_split in I. destruct I as (b & c & E). exists [], x, b, c. cbn. rewrite E. reflexivity.
  - right. exists (x :: a), y, b, c. rewrite E. reflexivity.
Qed.

Section Loops.
Variable rs : rules.
Let G := rules_get rs.
Hypothesis SR : sane_rules rs.

Lemma not_done_loops : forall s, ev G (size rs s) (RuleName main) s = None ->
  exists t, comes_up G (RuleName main, s) t /\ clos_trans task (needs G) t t.
Proof.
  intros s N. destruct (long_path rs s SR (size rs s) (RuleName main, s) (start_live rs s) N) as (t & l & P & L & F & _ & La).
  destruct (repeated (t :: l)) as [ND|(a & x & b & c & E)].
  - exfalso. assert (I : incl (t :: l) (all_tasks rs s)) by (intros u U; rewrite Forall_forall in F; apply (proj1 (F u U))).
    pose proof (NoDup_incl_length ND I) as H. cbn [length] in H. unfold size in L. lia.
  - exists x. split.
    + apply (path_from_last rs _ P (RuleName main, s) (RuleName main, s)); [discriminate|exact La|]. rewrite E. apply in_or_app. right. left. reflexivity.
    + rewrite E in P. apply path_drop in P. apply (path_reaches rs _ P x (b ++ x :: c) eq_refl x). apply in_or_app. right. left. reflexivity.
Qed.

Definition by_rule (t t' : task) : Prop :=
  exists n s, comes_up G t (RuleName n, s) /\ clos_trans task (needs G) (RuleName n, s) t'.
Definition by_repetition (t t' : task) : Prop :=
  exists e s ts s1, comes_up G t (Repeat e 0 None, s) /\ peg G e s (PMatch ts s1) /\ comes_up G (Repeat e 0 None, s1) t'.

Lemma fold_weight : forall e es, weight e < 1 + fold_right (fun x n => 1 + weight x + n) 0 (e :: es).
Proof. intros e es. cbn. lia. Qed.

Lemma plus_star : forall t t', clos_trans task (needs G) t t' -> comes_up G t t'.
Proof. intros t t' C. induction C as [t t' N|t t1 t' C1 IH1 C2 IH2]; [constructor; exact N|eapply rt_trans; eassumption]. Qed.

Lemma plus_then_star : forall t t' t'', clos_trans task (needs G) t t' -> comes_up G t' t'' -> clos_trans task (needs G) t t''.
Proof.
  intros t t' t'' A B. apply clos_rt_rt1n in B. induction B as [|x y z N B IH]; [exact A|].
  apply IH. eapply t_trans; [exact A|constructor; exact N].
Qed.

Lemma smaller_or : forall t t', clos_trans task (needs G) t t' ->
  weight (fst t') < weight (fst t) \/ by_rule t t' \/ by_repetition t t'.
Proof.
  intros t t' C. induction C as [t t' N|t t1 t' C1 IH1 C2 IH2].
  - pose proof N as N0. destruct N; cbn [fst].
    + left. apply fold_weight.
    + left. cbn. lia.
    + left. apply fold_weight.
    + left. cbn. lia.
    + left. cbn. lia.
    + left. cbn. lia.
    + destruct mx as [[|m]|]; [congruence| |].
      * left. cbn [weight option_map pred]. lia.
      * destruct mn as [|mn].
        -- right. right. exists e, s, ts, s1. split; [apply rt_refl|]. split; [assumption|apply rt_refl].
        -- left. cbn [weight option_map pred]. lia.
    + right. left. exists n, s. split; [apply rt_refl|]. constructor. exact N0.
  - destruct IH1 as [L1|[(n & s & A & B)|(e & s & ts & s1 & A & P & B)]].
    + destruct IH2 as [L2|[(n & s & A & B)|(e & s & ts & s1 & A & P & B)]].
      * left. lia.
      * right. left. exists n, s. split; [|exact B]. eapply rt_trans; [apply plus_star; exact C1|exact A].
      * right. right. exists e, s, ts, s1. split; [|split; assumption]. eapply rt_trans; [apply plus_star; exact C1|exact A].
    + right. left. exists n, s. split; [exact A|]. eapply t_trans; eassumption.
    + right. right. exists e, s, ts, s1. split; [exact A|]. split; [exact P|]. eapply rt_trans; [exact B|apply plus_star; exact C2].
Qed.

Lemma comes_up_suffix : forall t t', comes_up G t t' -> exists p, snd t = p ++ snd t'.
Proof.
  intros t t' C. induction C as [t t' N|t|t t1 t' C1 [p1 IH1] C2 [p2 IH2]].
  - exact (needs_suffix rs t t' N).
  - exists []. reflexivity.
  - exists (p1 ++ p2). rewrite IH1, IH2, app_assoc. reflexivity.
Qed.

Lemma loop_kinds : forall t0, (exists t, comes_up G t0 t /\ clos_trans task (needs G) t t) <->
  ((exists n s, comes_up G t0 (RuleName n, s) /\ needs_itself G n s) \/
   (exists e s, comes_up G t0 (Repeat e 0 None, s) /\ repeats_nothing G e s)).
Proof.
  intros t0. split.
  - intros (t & U & C). destruct (smaller_or t t C) as [L|[(n & s & A & B)|(e & s & ts & s1 & A & P & B)]]; [lia| |].
    + left. exists n, s. split; [eapply rt_trans; eassumption|]. unfold needs_itself. eapply plus_then_star; [exact B|exact A].
    + right. exists e, s. split; [eapply rt_trans; eassumption|]. exists ts.
      assert (E : s1 = s); [|rewrite <- E at 2; exact P].
      destruct (peg_suffix G _ _ _ P) as [p Hp]. assert (D : comes_up G (Repeat e 0 None, s1) (Repeat e 0 None, s)) by (eapply rt_trans; eassumption).
      destruct (comes_up_suffix _ _ D) as [q Hq]. cbn in Hq. rewrite Hq in Hp. rewrite app_assoc in Hp.
      assert (Z : p ++ q = []). { apply length_zero_iff_nil. apply (f_equal (@length char)) in Hp. rewrite app_length in Hp. lia. }
      apply app_eq_nil in Z. rewrite (proj2 Z) in Hq. exact Hq.
  - intros [(n & s & U & C)|(e & s & U & [ts P])].
    + exists (RuleName n, s). split; assumption.
    + exists (Repeat e 0 None, s). split; [exact U|]. constructor. apply (nd_rep_rest G e 0 None s ts s); [discriminate|exact P].
Qed.

(** Evaluation never ends exactly if some task needs itself. *)
Lemma no_result_iff_loop : forall s, (forall r, ~ peg G (RuleName main) s r) <->
  exists t, comes_up G (RuleName main, s) t /\ clos_trans task (needs G) t t.
Proof.
  intros s. split.
  - intro N. apply not_done_loops. destruct (ev G (size rs s) (RuleName main) s) as [r|] eqn:E; [|reflexivity].
    exfalso. exact (N r (ev_peg G _ _ _ _ E)).
  - intros (t & U & C) r D. apply peg_ev in D. destruct D as [h D]. apply (loop_not_done G t C h).
    apply (comes_up_done G _ _ U). change (ev G h (RuleName main) s <> None). rewrite D. discriminate.
Qed.

Lemma result_in_time : forall s r, peg G (RuleName main) s r -> ev G (size rs s) (RuleName main) s = Some r.
Proof.
  intros s r D. destruct (peg_ev G _ _ _ D) as [h H].
  assert (X : done G (size rs s) (RuleName main, s)).
  { apply (done_in_time rs s SR h); [apply start_live|]. change (ev G h (RuleName main) s <> None). rewrite H. discriminate. }
  destruct (done_some G _ _ _ X) as [r' R]. rewrite R. f_equal. exact (ev_agrees G _ _ _ _ _ R D).
Qed.

(* ------------------------------------------------------------------------------------------- *)
(** * As much fuel as depth is enough *)

Definition loops_end (h : nat) (e : expr) (s : str) : Prop :=
  match e with
  | And es => forall st acc, Forall sane es -> inv st -> it_parsing st = s -> parse_and (parse_expr rs (pred h)) st es acc <> Fuel
  | Or es => forall st o, Forall sane es -> inv st -> it_parsing st = s -> parse_or (parse_expr rs (pred h)) st es o <> Fuel
  | Repeat e1 mn' mx' =>
      forall st mn mx c acc, sane e1 -> inv st -> it_parsing st = s ->
      mn' = mn - c -> mx' = rest_max mx c -> match mx with Some m => c < m /\ mn <= m | None => True end ->
      parse_repeat (pred h) (parse_expr rs (pred h)) st e1 mn mx c acc <> Fuel
  | _ => True
  end.

Lemma pe_outcome : forall h st e r, sane e -> inv st -> ev G h e (it_parsing st) = Some r -> parse_expr rs h st e <> Fuel ->
  match parse_expr rs h st e with
  | Ok (st', ts) => r = PMatch ts (it_parsing st') /\ inv st'
  | Err er => match e_priority er with Normal => r = PFail | Critical => exists m rest, r = PAbort m rest end
  | Panic => True
  | Fuel => False
  end.
Proof.
  intros h st e r S I E N. pose proof (run_outcome rs SR h st e r S I (ev_peg G _ _ _ _ E) N) as O.
  destruct (parse_expr rs h st e) as [[st' ts]|er| |]; [|destruct (e_priority er)| |]; try exact I; try tauto; try exact Logic.I.
  destruct O as (rest & O & _). eauto.
Qed.

Lemma ev_fuel : forall h e s r, ev G h e s = Some r ->
  (forall st, sane e -> inv st -> it_parsing st = s -> parse_expr rs h st e <> Fuel) /\ loops_end h e s.
Proof.
  induction h as [|h IH]; intros e s r E; [discriminate|].
  assert (W : loops_end (S h) e s ->
              (match e with And _ | Or _ | Repeat _ _ _ => True | _ =>
                 forall st, sane e -> inv st -> it_parsing st = s -> parse_expr rs (S h) st e <> Fuel end) ->
              (forall st, sane e -> inv st -> it_parsing st = s -> parse_expr rs (S h) st e <> Fuel) /\ loops_end (S h) e s).
  { intros L O. split; [|exact L]. intros st Sa I Es. destruct e as [a|es|es|e1|e1 mn mx|n]; try (apply O; assumption).
    - cbn in Sa. apply sane_list in Sa. exact (L st [] Sa I Es).
    - cbn in Sa. apply sane_list in Sa. exact (L st None Sa I Es).
    - cbn in Sa. destruct Sa as [S1 S2]. apply (L st mn mx 0 [] S1 I Es).
      + lia.
      + destruct mx; cbn; [f_equal; lia|reflexivity].
      + destruct mx; [lia|exact Logic.I]. }
  assert (MONO : forall st e, le_out (parse_expr rs (pred h) st e) (parse_expr rs h st e)) by (intros; apply parse_expr_mono; lia).
  apply W; clear W.
  - destruct e as [a|es|es|e1|e1 mn' mx'|n]; try exact Logic.I.
    + intros st acc Sa I Es. cbn [pred]. destruct es as [|e1 es]; [discriminate|]. cbn [ev] in E. inversion Sa as [|? ? S1 S2]; subst.
      destruct (ev G h e1 (it_parsing st)) as [r1|] eqn:E1; [|discriminate].
      pose proof (proj1 (IH e1 _ r1 E1) st S1 I eq_refl) as N1. pose proof (pe_outcome h st e1 r1 S1 I E1 N1) as O.
      cbn [parse_and]. destruct (parse_expr rs h st e1) as [[st' ts]|er| |]; cbn [bind]; try discriminate; [|contradiction].
      destruct O as [O I']. subst r1. destruct (ev G h (And es) (it_parsing st')) as [r2|] eqn:E2; [|discriminate].
      pose proof (proj2 (IH (And es) _ r2 E2) st' (acc ++ ts) S2 I' eq_refl) as L.
      eapply le_out_nofuel; [|exact L]. apply parse_and_mono. exact MONO.
    + intros st o Sa I Es. cbn [pred]. destruct es as [|e1 es]; [cbn; destruct o; [discriminate|apply err_status_nofuel]|].
      cbn [ev] in E. inversion Sa as [|? ? S1 S2]; subst.
      destruct (ev G h e1 (it_parsing st)) as [r1|] eqn:E1; [|discriminate].
      pose proof (proj1 (IH e1 _ r1 E1) st S1 I eq_refl) as N1. pose proof (pe_outcome h st e1 r1 S1 I E1 N1) as O.
      cbn [parse_or]. destruct (parse_expr rs h st e1) as [[st' ts]|er| |]; try discriminate; [|contradiction].
      destruct (e_priority er) eqn:PR; cbn [is_critical]; [|discriminate]. subst r1.
      pose proof (proj2 (IH (Or es) _ r E) st (deep_err o er) S2 I eq_refl) as L.
      eapply le_out_nofuel; [|exact L]. apply parse_or_mono. exact MONO.
    + intros st mn mx c acc S1 I Es Hmn Hmx B. cbn [pred].
      assert (X : mx' <> Some 0). { subst mx'. destruct mx as [m|]; cbn; [|discriminate]. assert (m - c <> 0) by lia. congruence. }
      rewrite ev_rep in E by exact X. subst s. destruct (ev G h e1 (it_parsing st)) as [r1|] eqn:E1; [|discriminate].
      pose proof (proj1 (IH e1 _ r1 E1) st S1 I eq_refl) as N1. pose proof (pe_outcome h st e1 r1 S1 I E1 N1) as O.
      destruct h as [|h]; [discriminate E1|]. cbn [parse_repeat].
      destruct (parse_expr rs (S h) st e1) as [[st' ts]|er| |]; cbn [bind]; try discriminate;
        [|destruct (big_min_bound mn c), (is_critical (e_priority er)); discriminate|contradiction].
      destruct (touch_max_bound mx c) eqn:T; [discriminate|]. destruct O as [O I']. subst r1.
      destruct (ev G (S h) (Repeat e1 (pred mn') (option_map pred mx')) (it_parsing st')) as [r2|] eqn:E2; [|discriminate].
      assert (L : parse_repeat h (parse_expr rs h) st' e1 mn mx (c + 1) (acc ++ ts) <> Fuel).
      { apply (proj2 (IH (Repeat e1 (pred mn') (option_map pred mx')) _ r2 E2)); try assumption.
        - reflexivity.
        - lia.
        - subst mx'. destruct mx as [m|]; cbn; [f_equal; lia|reflexivity].
        - destruct mx as [m|]; [|exact Logic.I]. cbn in T. apply Nat.eqb_neq in T. lia. }
      eapply le_out_nofuel; [|exact L]. apply parse_repeat_mono; [exact MONO|lia].
  - destruct e as [a|es|es|e1|e1 mn' mx'|n]; try exact Logic.I.
    + intros st _ I _. destruct (peg_terminates rs SR (Simple a) (it_parsing st) _ (atom_peg G a _)) as [T _].
      destruct (T st Logic.I I eq_refl) as [[|f] F]; [contradiction F; reflexivity|exact F].
    + intros st Sa I Es. cbn [ev] in E. subst s. destruct (ev G h e1 (it_parsing st)) as [r1|] eqn:E1; [|discriminate].
      pose proof (proj1 (IH e1 _ r1 E1) st Sa I eq_refl) as N1. cbn [parse_expr]. unfold parse_not.
      destruct (parse_expr rs h st e1) as [[? ?]|?| |]; try discriminate; [apply err_status_nofuel|contradiction].
    + intros st _ I Es. cbn [ev] in E. cbn [parse_expr]. unfold parse_rule_name.
      set (st1 := if trace_rules st then push_rule st (s_ "r:" ++ n) else st).
      assert (I1 : inv st1) by (subst st1; destruct (trace_rules st); exact I).
      assert (Es1 : it_parsing st1 = s) by (subst st1; destruct (trace_rules st); exact Es).
      unfold G in E. destruct (rules_get rs n) as [e1|] eqn:En.
      * fold G in E. destruct (ev G h e1 s) as [r1|] eqn:E1; [|discriminate].
        pose proof (proj1 (IH e1 _ r1 E1) st1 (SR n e1 En) I1 Es1) as N1.
        destruct (parse_expr rs h st1 e1) as [[? ?]|?| |]; cbn; congruence.
      * pose proof (err_status_nofuel (status * node) st1 (s_ "Missing rule: " ++ n) Critical) as F.
        destruct (err_status _ _ _) as [[? ?]|?| |]; cbn; congruence.
Qed.

End Loops.

(* ------------------------------------------------------------------------------------------- *)
(** * Statements about [parse] *)

Lemma hangs_iff_loop : forall s rs d, sane_rules rs -> ascii s ->
  ((forall fuel, parse_with_debug fuel s rs d = Fuel) <->
   ((exists n s', comes_up (grammar_of rs) (RuleName main, s) (RuleName n, s') /\ needs_itself (grammar_of rs) n s') \/
    (exists e s', comes_up (grammar_of rs) (RuleName main, s) (Repeat e 0 None, s') /\ repeats_nothing (grammar_of rs) e s'))).
Proof.
  intros s rs d SR As. rewrite <- (loop_kinds rs (RuleName main, s)), <- (no_result_iff_loop rs SR s). split.
  - intros F r D. destruct (proj2 (parse_terminates_iff s rs d SR As) (ex_intro _ r D)) as [fuel N]. exact (N (F fuel)).
  - intros N fuel. destruct (parse_with_debug fuel s rs d) eqn:E; try reflexivity; exfalso;
      (destruct (proj1 (parse_terminates_iff s rs d SR As)) as [r D]; [exists fuel; rewrite E; discriminate|exact (N r D)]).
Qed.

Lemma weight_norm : forall e, weight (norm e) <= weight e.
Proof.
  induction e as [a|es IH|es IH|e1 IH|e1 mn mx IH|n] using expr_ind'; cbn [norm weight]; try lia.
  - apply le_n_S. induction IH as [|e es H IH IH']; cbn [map fold_right]; [lia|]. lia.
  - apply le_n_S. induction IH as [|e es H IH IH']; cbn [map fold_right]; [lia|]. lia.
  - destruct mx as [[|m]|]; cbn [norm_min norm_max]; lia.
Qed.

Lemma rules_weight_norm : forall rs, rules_weight (norm_rules rs) <= rules_weight rs.
Proof.
  intros rs. unfold rules_weight, norm_rules. apply le_n_S. induction rs as [|p rs IH]; cbn; [lia|].
  pose proof (weight_norm (snd p)). lia.
Qed.

Lemma enough_fuel_sane : forall s rs d fuel, sane_rules rs -> ascii s -> parse_with_debug fuel s rs d <> Fuel ->
  parse_with_debug (rules_weight rs * (length s + 1)) s rs d <> Fuel.
Proof.
  intros s rs d fuel SR As N. destruct (proj1 (parse_terminates_iff s rs d SR As) (ex_intro _ fuel N)) as [r D].
  pose proof (result_in_time rs SR s r D) as E. pose proof (all_tasks_length rs s) as L. fold (size rs s) in L.
  assert (F : expression_parse rs (rules_weight rs * (length s + 1)) (status_init_debug s d) <> Fuel).
  { apply (le_out_nofuel _ _ (expression_parse rs (size rs s) (status_init_debug s d))); [apply expression_parse_mono; exact L|].
    pose proof (proj1 (ev_fuel rs SR (size rs s) (RuleName main) s r E) (status_init_debug s d) Logic.I (inv_init s d) eq_refl) as P.
    intro X. apply (le_out_nofuel _ _ _ (parse_expr rs (S (size rs s)) (status_init_debug s d) (RuleName main)) (parse_expr_mono rs _ _ _ _ (Nat.le_succ_diag_r _)) P).
    cbn [parse_expr]. unfold expression_parse in X. change (s_ "main") with main in X. rewrite X. reflexivity. }
  rewrite parse_unfold. destruct (expression_parse rs _ (status_init_debug s d)) as [[st nd]|er| |]; cbn [bind];
    try discriminate; [|contradiction].
  destruct (pn (st_pos st) =? byte_len s); [discriminate|]. destruct (potential_error st); [discriminate|]. apply err_status_nofuel.
Qed.

Lemma enough_fuel : forall s rs d fuel, ascii s -> parse_with_debug fuel s rs d <> Fuel ->
  parse_with_debug (rules_weight rs * (length s + 1)) s rs d = parse_with_debug fuel s rs d.
Proof.
  intros s rs d fuel As N.
  assert (F : parse_with_debug (rules_weight rs * (length s + 1)) s rs d <> Fuel).
  { rewrite parse_with_debug_norm in N |- *. pose proof (enough_fuel_sane s (norm_rules rs) d fuel (norm_rules_sane rs) As N) as F.
    eapply le_out_nofuel; [|exact F]. apply parse_with_debug_mono. apply Nat.mul_le_mono_r. apply rules_weight_norm. }
  destruct (le_lt_dec fuel (rules_weight rs * (length s + 1))) as [L|L].
  - apply le_out_eq; [|exact N]. apply parse_with_debug_mono. exact L.
  - symmetry. apply le_out_eq; [|exact F]. apply parse_with_debug_mono. lia.
Qed.

Lemma nesting_below_fuel : forall rs f st e, tally Nat.max rs f st e <= f.
Proof.
  intros rs f. induction f as [|f IH]; intros st e; cbn [tally]; [lia|]. apply le_n_S. destruct e as [a|es|es|e1|e1 mn mx|n]; try lia.
  - revert st. induction es as [|x es IHes]; intros st; cbn [tally_and]; [lia|]. apply Nat.max_lub; [apply IH|].
    destruct (parse_expr rs f st x) as [[? ?]| | |]; [apply IHes|lia..].
  - induction es as [|x es IHes]; cbn [tally_or]; [lia|]. apply Nat.max_lub; [apply IH|].
    destruct (parse_expr rs f st x) as [|er| |]; try lia. destruct (is_critical (e_priority er)); [lia|apply IHes].
  - apply IH.
  - assert (R : forall g st c, tally_repeat Nat.max g (parse_expr rs f) (tally Nat.max rs f) st e1 mx c <= f).
    { induction g as [|g IHg]; intros st0 c; cbn [tally_repeat]; [lia|]. apply Nat.max_lub; [apply IH|].
      destruct (parse_expr rs f st0 e1) as [[? ?]| | |]; try lia. destruct (touch_max_bound mx c); [lia|apply IHg]. }
    apply R.
  - unfold tally_rule_name. destruct (rules_get rs n); [apply IH|lia].
Qed.

Lemma nesting_of_a_parse : forall s rs d fuel, ascii s -> parse_with_debug fuel s rs d <> Fuel ->
  parse_nesting fuel s rs d <= rules_weight rs * (length s + 1).
Proof.
  intros s rs d fuel As N. set (b := rules_weight rs * (length s + 1)).
  assert (F : parse_with_debug b s rs d <> Fuel) by (unfold b; rewrite (enough_fuel s rs d fuel As N); exact N).
  assert (B : forall f, parse_nesting f s rs d <= f).
  { intro f. unfold parse_nesting, parse_tally, tally_rule_name. destruct (rules_get rs (s_ "main")); [apply nesting_below_fuel|lia]. }
  destruct (le_lt_dec fuel b) as [L|L]; [pose proof (B fuel); lia|].
  unfold parse_nesting. rewrite (parse_tally_stable Nat.max rs b fuel s d) by (lia || exact F). apply B.
Qed.

(* ------------------------------------------------------------------------------------------- *)
(** * Calls *)

Section Calls.
Variable rs : rules.
Let G := rules_get rs.
Hypothesis SR : sane_rules rs.

Definition loops_calls (h : nat) (e : expr) (s : str) : Prop :=
  match e with
  | And es => forall f st, Forall sane es -> inv st -> it_parsing st = s ->
      tally_and Nat.add (parse_expr rs f) (tally Nat.add rs f) st es + 2 <= 2 ^ h
  | Or es => forall f st, Forall sane es -> inv st -> it_parsing st = s ->
      tally_or Nat.add (parse_expr rs f) (tally Nat.add rs f) st es + 2 <= 2 ^ h
  | Repeat e1 mn' mx' =>
      forall f g st mn mx c, sane e1 -> inv st -> it_parsing st = s ->
      mn' = mn - c -> mx' = rest_max mx c -> match mx with Some m => c < m /\ mn <= m | None => True end ->
      tally_repeat Nat.add g (parse_expr rs f) (tally Nat.add rs f) st e1 mx c + 2 <= 2 ^ h
  | _ => True
  end.

Lemma pe_result : forall f h st e r, sane e -> inv st -> ev G h e (it_parsing st) = Some r ->
  match parse_expr rs f st e with
  | Ok (st', ts) => r = PMatch ts (it_parsing st') /\ inv st'
  | Err er => match e_priority er with Normal => r = PFail | Critical => True end
  | _ => True
  end.
Proof.
  intros f h st e r Sa I E. assert (X : parse_expr rs f st e = Fuel \/ parse_expr rs f st e <> Fuel)
    by (destruct (parse_expr rs f st e); [right; discriminate..|left; reflexivity]).
  destruct X as [X|X]; [rewrite X; exact Logic.I|].
  pose proof (run_outcome rs SR f st e r Sa I (ev_peg G _ _ _ _ E) X) as O.
  destruct (parse_expr rs f st e) as [[st' ts]|er| |]; [|destruct (e_priority er)|..]; tauto.
Qed.

Lemma ev_calls : forall h e s r, ev G h e s = Some r ->
  (forall f st, sane e -> inv st -> it_parsing st = s -> tally Nat.add rs f st e < 2 ^ h) /\ loops_calls h e s.
Proof.
  induction h as [|h IH]; intros e s r E; [discriminate|].
  assert (P1 : 1 <= 2 ^ h) by (apply Nat.neq_0_lt_0; apply Nat.pow_nonzero; discriminate).
  assert (P2 : 2 ^ S h = 2 ^ h + 2 ^ h) by (rewrite Nat.pow_succ_r'; lia).
  assert (W : loops_calls (S h) e s ->
              (match e with And _ | Or _ | Repeat _ _ _ => True | _ =>
                 forall f st, sane e -> inv st -> it_parsing st = s -> tally Nat.add rs (S f) st e < 2 ^ S h end) ->
              (forall f st, sane e -> inv st -> it_parsing st = s -> tally Nat.add rs f st e < 2 ^ S h) /\ loops_calls (S h) e s).
  { intros L O. split; [|exact L]. intros [|f] st Sa I Es; [cbn [tally]; lia|].
    destruct e as [a|es|es|e1|e1 mn mx|n]; try (apply O; assumption); cbn [tally].
    - cbn in Sa. apply sane_list in Sa. pose proof (L f st Sa I Es). lia.
    - cbn in Sa. apply sane_list in Sa. pose proof (L f st Sa I Es). lia.
    - cbn in Sa. destruct Sa as [S1 S2].
      assert (X : tally_repeat Nat.add f (parse_expr rs f) (tally Nat.add rs f) st e1 mx 0 + 2 <= 2 ^ S h); [|lia].
      apply (L f f st mn mx 0 S1 I Es).
      + lia.
      + destruct mx; cbn; [f_equal; lia|reflexivity].
      + destruct mx; [lia|exact Logic.I]. }
  apply W; clear W.
  - destruct e as [a|es|es|e1|e1 mn' mx'|n]; try exact Logic.I.
    + intros f st Sa I Es. destruct es as [|e1 es]; [cbn [tally_and]; lia|]. cbn [ev] in E. inversion Sa as [|? ? S1 S2]; subst.
      destruct (ev G h e1 (it_parsing st)) as [r1|] eqn:E1; [|discriminate].
      pose proof (proj1 (IH e1 _ r1 E1) f st S1 I eq_refl) as N1. pose proof (pe_result f h st e1 r1 S1 I E1) as O.
      cbn [tally_and]. destruct (parse_expr rs f st e1) as [[st' ts]|er| |]; try lia.
      destruct O as [O I']. subst r1. destruct (ev G h (And es) (it_parsing st')) as [r2|] eqn:E2; [|discriminate].
      pose proof (proj2 (IH (And es) _ r2 E2) f st' S2 I' eq_refl) as L. lia.
    + intros f st Sa I Es. destruct es as [|e1 es]; [cbn [tally_or]; lia|]. cbn [ev] in E. inversion Sa as [|? ? S1 S2]; subst.
      destruct (ev G h e1 (it_parsing st)) as [r1|] eqn:E1; [|discriminate].
      pose proof (proj1 (IH e1 _ r1 E1) f st S1 I eq_refl) as N1. pose proof (pe_result f h st e1 r1 S1 I E1) as O.
      cbn [tally_or]. destruct (parse_expr rs f st e1) as [[st' ts]|er| |]; try lia.
      destruct (e_priority er) eqn:PR; cbn [is_critical]; [|lia]. subst r1.
      pose proof (proj2 (IH (Or es) _ r E) f st S2 I eq_refl) as L. lia.
    + intros f g st mn mx c S1 I Es Hmn Hmx B.
      assert (X : mx' <> Some 0). { subst mx'. destruct mx as [m|]; cbn; [|discriminate]. assert (m - c <> 0) by lia. congruence. }
      rewrite ev_rep in E by exact X. subst s. destruct (ev G h e1 (it_parsing st)) as [r1|] eqn:E1; [|discriminate].
      pose proof (proj1 (IH e1 _ r1 E1) f st S1 I eq_refl) as N1. pose proof (pe_result f h st e1 r1 S1 I E1) as O.
      destruct g as [|g]; cbn [tally_repeat]; [lia|]. destruct (parse_expr rs f st e1) as [[st' ts]|er| |]; try lia.
      destruct (touch_max_bound mx c) eqn:T; [lia|]. destruct O as [O I']. subst r1.
      destruct (ev G h (Repeat e1 (pred mn') (option_map pred mx')) (it_parsing st')) as [r2|] eqn:E2; [|discriminate].
      assert (L : tally_repeat Nat.add g (parse_expr rs f) (tally Nat.add rs f) st' e1 mx (c + 1) + 2 <= 2 ^ h); [|lia].
      apply (proj2 (IH (Repeat e1 (pred mn') (option_map pred mx')) _ r2 E2) f g st' mn mx (c + 1)); try assumption.
      * reflexivity.
      * lia.
      * subst mx'. destruct mx as [m|]; cbn; [f_equal; lia|reflexivity].
      * destruct mx as [m|]; [|exact Logic.I]. cbn in T. apply Nat.eqb_neq in T. lia.
  - destruct e as [a|es|es|e1|e1 mn' mx'|n]; try exact Logic.I.
    + intros f st _ _ _. cbn [tally]. lia.
    + intros f st Sa I Es. cbn [ev] in E. subst s. destruct (ev G h e1 (it_parsing st)) as [r1|] eqn:E1; [|discriminate].
      pose proof (proj1 (IH e1 _ r1 E1) f st Sa I eq_refl) as N1. cbn [tally]. lia.
    + intros f st _ I Es. cbn [ev] in E. cbn [tally]. unfold tally_rule_name.
      set (st1 := if trace_rules st then push_rule st (s_ "r:" ++ n) else st).
      assert (I1 : inv st1) by (subst st1; destruct (trace_rules st); exact I).
      assert (Es1 : it_parsing st1 = s) by (subst st1; destruct (trace_rules st); exact Es).
      unfold G in E. destruct (rules_get rs n) as [e1|] eqn:En; [|lia].
      fold G in E. destruct (ev G h e1 s) as [r1|] eqn:E1; [|discriminate].
      pose proof (proj1 (IH e1 _ r1 E1) f st1 (SR n e1 En) I1 Es1) as N1. lia.
Qed.

End Calls.

Lemma calls_sane : forall s rs d fuel, sane_rules rs -> ascii s -> parse_with_debug fuel s rs d <> Fuel ->
  parse_calls fuel s rs d < 2 ^ (rules_weight rs * (length s + 1)).
Proof.
  intros s rs d fuel SR As N. destruct (proj1 (parse_terminates_iff s rs d SR As) (ex_intro _ fuel N)) as [r D].
  pose proof (result_in_time rs SR s r D) as E. pose proof (all_tasks_length rs s) as L. fold (size rs s) in L.
  pose proof (proj1 (ev_calls rs SR (size rs s) (RuleName main) s r E) (S fuel) (status_init_debug s d) Logic.I (inv_init s d) eq_refl) as C.
  cbn [tally] in C. apply (Nat.lt_le_trans _ (2 ^ size rs s)); [|apply Nat.pow_le_mono_r; [discriminate|exact L]].
  unfold parse_calls, parse_tally. change (s_ "main") with main. lia.
Qed.
