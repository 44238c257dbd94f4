(** Proofs about the errors of defective grammar texts. *)
From Verif Require Import Base ModelAst ModelParser ModelPegRules ModelPeg SpecPeg SpecSyntax SpecPegApi SpecFault.
From Verif Require Import ProofAst ProofParser ProofEngine ProofApi ProofConsume ProofPegMono ProofPegDefect ProofPegApi.

Lemma fault_rule : forall n l, fault (Rule n l) =
  if name_in [s_ "_"; s_ "_1"; s_ "_eol"] n then None
  else option_map (chain (labels n l))
    (if str_eqb n (s_ "lit_noesc") && (length l =? 2) then Some no_text
     else if str_eqb n (s_ "and") then
       first_until fault (is_rule (s_ "and")) (fun more => if existsb (is_rule (s_ "and")) more then Some goes_on else first fault more) l
     else first fault l).
Proof. reflexivity. Qed.

Lemma first_none : forall A B (f : A -> option B) l, first f l = None <-> Forall (fun x => f x = None) l.
Proof.
  intros A B f l. induction l as [|x l IH]; [split; [constructor|reflexivity]|].
  change (first f (x :: l)) with (match f x with Some b => Some b | None => first f l end).
  destruct (f x) eqn:E.
  - split; [discriminate|]. intro H. inversion H; congruence.
  - rewrite IH. split; [constructor; assumption|]. intro H. inversion H; assumption.
Qed.

Lemma first_cons : forall A B (f : A -> option B) x l, first f (x :: l) = match f x with Some b => Some b | None => first f l end.
Proof. reflexivity. Qed.
Lemma until_cons : forall A B (f : A -> option B) s a x l, first_until f s a (x :: l) =
  match f x with Some b => Some b | None => if s x then a l else first_until f s a l end.
Proof. reflexivity. Qed.

(** Nothing is wrong without a defect. *)
Lemma fault_fine : forall x, ~ defect x -> fault x = None.
Proof.
  induction x as [v|n l IH|] using node_ind'; intro D; try reflexivity. rewrite fault_rule.
  destruct (name_in [s_ "_"; s_ "_1"; s_ "_eol"] n) eqn:B; [reflexivity|].
  assert (K : Forall (fun x => fault x = None) l).
  { rewrite Forall_forall in *. intros x I. apply IH; [exact I|]. intro Dx. apply D. exact (defect_in n l x B I Dx). }
  assert (E1 : str_eqb n (s_ "lit_noesc") && (length l =? 2) = false).
  { destruct (str_eqb n (s_ "lit_noesc")) eqn:E; [|reflexivity]. destruct (length l =? 2) eqn:L; [|reflexivity]. exfalso. apply D.
    apply str_eqb_eq in E. subst n. destruct l as [|a [|b [|c l]]]; try discriminate. constructor. }
  rewrite E1. destruct (str_eqb n (s_ "and")) eqn:E2.
  - apply str_eqb_eq in E2. subst n.
    assert (C : length (filter (is_rule (s_ "and")) l) <= 1).
    { destruct (le_lt_dec (length (filter (is_rule (s_ "and")) l)) 1) as [L|L]; [exact L|]. exfalso. apply D. apply dfx_two. lia. }
    clear - K C.
    assert (G : first_until fault (is_rule (s_ "and")) (fun more => if existsb (is_rule (s_ "and")) more then Some goes_on else first fault more) l = None).
    { induction l as [|x l IH]; [reflexivity|]. inversion K as [|? ? K1 K2]; subst. rewrite until_cons, K1. cbn [filter] in C.
      destruct (is_rule (s_ "and") x) eqn:E.
      - cbn [length] in C. destruct (existsb (is_rule (s_ "and")) l) eqn:X; [|apply first_none; exact K2].
        apply existsb_exists in X. destruct X as (y & I & Y).
        assert (Z : In y (filter (is_rule (s_ "and")) l)) by (apply filter_In; split; assumption).
        destruct (filter (is_rule (s_ "and")) l); [destruct Z|]. cbn [length] in C. lia.
      - apply IH; assumption. }
    rewrite G. reflexivity.
  - rewrite (proj2 (first_none _ _ _ _) K). reflexivity.
Qed.


Lemma name_in_In : forall ns n, name_in ns n = true <-> In n ns.
Proof.
  intros ns n. unfold name_in. rewrite existsb_exists. split.
  - intros (x & I & E). apply str_eqb_eq in E. subst. exact I.
  - intro I. exists n. split; [exact I|apply str_eqb_refl].
Qed.

Lemma name_in_false : forall ns n, name_in ns n = false <-> ~ In n ns.
Proof. intros ns n. rewrite <- name_in_In. destruct (name_in ns n); split; congruence. Qed.

Lemma filter_none : forall l, no_and l <-> filter (is_rule (s_ "and")) l = [].
Proof.
  intro l. unfold no_and. induction l as [|x l IH]; [split; [reflexivity|intros _ y []]|]. cbn [filter]. split.
  - intro H. rewrite (H x (or_introl eq_refl)). apply IH. intros y I. apply H. right. exact I.
  - destruct (is_rule (s_ "and") x) eqn:E; [discriminate|]. intros H y [<-|I]; [exact E|]. exact (proj2 IH H y I).
Qed.

Lemma exists_and : forall l, existsb (is_rule (s_ "and")) l = true -> exists mid b post, l = mid ++ b :: post /\ is_rule (s_ "and") b = true.
Proof.
  intros l H. apply existsb_exists in H. destruct H as (b & I & E). apply in_split in I. destruct I as (mid & post & ->). exists mid, b, post. auto.
Qed.

Lemma first_some : forall A B (f : A -> option B) l b, first f l = Some b ->
  exists pre x post, l = pre ++ x :: post /\ Forall (fun y => f y = None) pre /\ f x = Some b.
Proof.
  intros A B f l b. induction l as [|x l IH]; [discriminate|]. rewrite first_cons. destruct (f x) eqn:E.
  - intro H. injection H as ->. exists [], x, l. auto.
  - intro H. destruct (IH H) as (pre & y & post & -> & F & Y). exists (x :: pre), y, post. split; [reflexivity|]. split; [constructor; assumption|exact Y].
Qed.


(** ** The consumers, for trees with a defect *)

Definition fails {A} (c : consumer A) (toks : list fnode) (x : node) : Prop :=
  exists e, fault x = Some e /\ forall rest ctx, c (toks ++ rest) ctx = Err e.

(** One faulty part, after parts that are fine. *)
Lemma fault_part : forall n pre x post e, name_in peg_blanks n = false ->
  str_eqb n (s_ "lit_noesc") = false -> str_eqb n (s_ "and") = false ->
  (forall y, In y pre -> ~ defect y) -> fault x = Some e -> fault (Rule n (pre ++ x :: post)) = Some (chain (labels n (pre ++ x :: post)) e).
Proof.
  intros n pre x post e B E1 E2 F X. rewrite fault_rule. change [s_ "_"; s_ "_1"; s_ "_eol"] with peg_blanks. rewrite B, E1, E2. cbn [andb].
  assert (G : first fault (pre ++ x :: post) = Some e).
  { induction pre as [|y pre IH]; cbn [app]; rewrite first_cons; [rewrite X; reflexivity|].
    rewrite (fault_fine y) by (apply F; left; reflexivity). apply IH. intros z I. apply F. right. exact I. }
  rewrite G. reflexivity.
Qed.

Lemma fault_and : forall pre x post e, (forall y, In y pre -> ~ defect y /\ is_rule (s_ "and") y = false) -> fault x = Some e ->
  fault (Rule (s_ "and") (pre ++ x :: post)) = Some (EPeg (s_ "consuming and") (Some e)).
Proof.
  intros pre x post e F X. rewrite fault_rule. change (name_in _ (s_ "and")) with false. change (str_eqb (s_ "and") (s_ "lit_noesc")) with false.
  change (str_eqb (s_ "and") (s_ "and")) with true. cbn [andb]. cbv iota.
  set (after := fun more => _).
  assert (G : first_until fault (is_rule (s_ "and")) after (pre ++ x :: post) = Some e).
  { induction pre as [|y pre IH]; cbn [app]; rewrite until_cons; [rewrite X; reflexivity|].
    destruct (F y (or_introl eq_refl)) as [F1 F2]. rewrite (fault_fine y F1), F2. apply IH. intros z I. apply F. right. exact I. }
  rewrite G. reflexivity.
Qed.

Lemma fault_goes_on : forall pre x post, (forall y, In y pre -> ~ defect y /\ is_rule (s_ "and") y = false) -> ~ defect x -> is_rule (s_ "and") x = true ->
  existsb (is_rule (s_ "and")) post = true ->
  fault (Rule (s_ "and") (pre ++ x :: post)) = Some (EPeg (s_ "consuming and") (Some goes_on)).
Proof.
  intros pre x post F X1 X2 P. rewrite fault_rule. change (name_in _ (s_ "and")) with false. change (str_eqb (s_ "and") (s_ "lit_noesc")) with false.
  change (str_eqb (s_ "and") (s_ "and")) with true. cbn [andb]. cbv iota.
  set (after := fun more => _).
  assert (G : first_until fault (is_rule (s_ "and")) after (pre ++ x :: post) = Some goes_on).
  { induction pre as [|y pre IH]; cbn [app]; rewrite until_cons.
    - rewrite (fault_fine x X1), X2. unfold after. rewrite P. reflexivity.
    - destruct (F y (or_introl eq_refl)) as [F1 F2]. rewrite (fault_fine y F1), F2. apply IH. intros z I. apply F. right. exact I. }
  rewrite G. reflexivity.
Qed.

(** A rule node whose inner consumer fails. *)
Lemma fails_rule : forall A n k (f : consumer A) e, name_in peg_blanks n = false ->
  (forall rest ctx, f (kt k ++ FEnd n :: rest) ctx = Err e) ->
  fault (Rule n k) = Some (EPeg (s_ "consuming " ++ n) (Some e)) ->
  fails (fun nodes ctx => consuming_rule n nodes ctx f) (kt [Rule n k]) (Rule n k).
Proof.
  intros A n k f e H F G. eexists. split; [exact G|]. intros rest ctx. rewrite kt_head by exact H. apply consuming_err. apply F.
Qed.

Lemma fails_literal : forall x, t_lit x None -> forall fuel, fails (consume_literal_string fuel) (kt [x]) x.
Proof.
  intros x H fuel. unfold consume_literal_string. inversion H as [body E1 E2|]; subst. destruct body as [|c b]; [|discriminate].
  eapply (fails_rule _ (s_ "literal") _ _ (EPeg (s_ "consuming lit_noesc") (Some no_text))); reflexivity.
Qed.

Lemma fails_atom : forall x, t_atom x None -> forall fuel, fails (consume_atom fuel) (kt [x]) x.
Proof.
  intros x H fuel. unfold consume_atom. inversion H as [y p Hy E1 E2| | |]; subst. destruct p as [v|]; [discriminate|]. clear E2.
  destruct (fails_literal y Hy fuel) as (e & F & E). destruct (lit_name y None Hy) as [k ->].
  eapply fails_rule with (e := EPeg (s_ "n:literal") (Some e)); [reflexivity| |].
  - intros rest ctx. rewrite peek_rule by reflexivity. ev. change (str_eqb (s_ "literal") (s_ "literal")) with true. cbv iota.
    unfold consume_literal_expr. rewrite E. reflexivity.
  - exact (fault_part (s_ "atom") [] _ [] e eq_refl eq_refl eq_refl ltac:(intros y []) F).
Qed.

Ltac nopre := let y := fresh in let H := fresh in intros y H; cbn [In] in H; repeat (destruct H as [<-|H]; [fine|]); destruct H.

Lemma fails_error : forall x, t_error x None -> forall fuel, fails (consume_error fuel) (kt [x]) x.
Proof.
  intros x H fuel. inversion H as [k1 k2 k3 y p Hy]; subst.
  destruct (fails_literal y Hy fuel) as (e & F & E). destruct (lit_name y None Hy) as [k ->].
  assert (K : kt [Val (s_ "error"); b_node k1; Val (s_ "("); b_node k2; Rule (s_ "literal") k; b_node k3; Val (s_ ")")] =
    FVal (s_ "error") :: FVal (s_ "(") :: kt [Rule (s_ "literal") k] ++ [FVal (s_ ")")]).
  { unfold b_node. rewrite kt_val by (auto with nv). rewrite kt_blank by reflexivity. rewrite kt_val by (auto with nv).
    rewrite kt_blank by reflexivity. rewrite kt_cons. rewrite (kt_blank (s_ "_")) by reflexivity. rewrite kt_val by (auto with nv). reflexivity. }
  eexists. split.
  - refine (fault_part (s_ "error") [Val (s_ "error"); b_node k1; Val (s_ "("); b_node k2] _ [b_node k3; Val (s_ ")")] e eq_refl eq_refl eq_refl _ F). nopre.
  - intros rest ctx. unfold consume_error. rewrite kt_head by reflexivity. rewrite K.
    erewrite consuming_err; [reflexivity|]. cbn [app]. rewrite this_ok. ev. rewrite this_ok. ev. rewrite <- app_assoc. rewrite E. reflexivity.
Qed.

Definition fails_push (c : eov -> consumer eov) (toks : list fnode) (x : node) : Prop :=
  exists e, fault x = Some e /\ forall acc rest ctx, c acc (toks ++ rest) ctx = Err e.

Lemma map_none : forall A B (g : A -> B) o, option_map g o = None -> o = None.
Proof. intros A B g [a|]; [discriminate|reflexivity]. Qed.

Lemma fails_c_atom : forall x f, t_atom x None -> fails (c_unit f) (kt [Rule (s_ "atom_or_par") [x]]) (Rule (s_ "atom_or_par") [x]).
Proof.
  intros x f H. destruct (fails_atom x H f) as (e & F & E). destruct (atom_name x None H) as [k ->].
  eapply fails_rule with (e := EPeg (s_ "n:atom") (Some e)); [reflexivity| |].
  - intros rest ctx. rewrite peek_rule by reflexivity. ev. change (str_eqb (s_ "atom") (s_ "atom")) with true. cbv iota. rewrite E. reflexivity.
  - exact (fault_part (s_ "atom_or_par") [] _ [] e eq_refl eq_refl eq_refl ltac:(intros y []) F).
Qed.

Ltac alone F := match goal with |- fault (Rule ?n (?x :: ?l)) = _ =>
  refine (fault_part n [] x l _ eq_refl eq_refl eq_refl _ F); intros ? [] end.

Theorem fails_exprs :
  (forall x o, t_unit x o -> o = None -> forall f, tn x <= f -> fails (c_unit f) (kt [x]) x) /\
  (forall x o, t_item x o -> o = None -> forall f, tn x <= f -> fails (c_item f) (kt [x]) x) /\
  (forall x o, t_seq x o -> o = None -> forall f f', tn x <= f -> tn x <= f' ->
     fails_push (rec_consume_and f' (c_item f) (consume_error f)) (kt [x]) x) /\
  (forall x o, t_choice x o -> o = None -> forall f f', tn x <= f -> tn x <= f' ->
     fails_push (rec_consume_or f' (consume_and f (c_item f) (consume_error f))) (kt [x]) x) /\
  (forall x o, t_expr x o -> o = None -> forall f, tn x <= f -> fails (consume_peg_expr f) (kt [x]) x).
Proof.
  pose proof eats_exprs as (EU & EI & EQ & EC & EX). pose proof exprs_fit as (FU & FI & FQ & FC & FX).
  apply t_expr_ind5.
  - (* atom *) intros x o H N f F. subst o. apply fails_c_atom; assumption.
  - (* parentheses *) intros k1 k2 x o H IH N f F. subst o. specialize (IH eq_refl).
    rewrite inner_bound in F by reflexivity. unfold tl in F.
    change (length (kt [Rule (s_ "parenth") [Val (s_ "("); b_node k1; x; b_node k2; Val (s_ ")")]]))
      with (tn (Rule (s_ "parenth") [Val (s_ "("); b_node k1; x; b_node k2; Val (s_ ")")])) in F.
    rewrite inner_bound in F by reflexivity. unfold tl in F. rewrite (kt_par k1 x None k2 H) in F. cbn [length] in F. rewrite app_length in F. cbn [length] in F.
    destruct (IH f ltac:(unfold tn; lia)) as (e & X & E).
    assert (P : fault (Rule (s_ "parenth") [Val (s_ "("); b_node k1; x; b_node k2; Val (s_ ")")]) = Some (EPeg (s_ "consuming parenth") (Some e))).
    { refine (fault_part (s_ "parenth") [Val (s_ "("); b_node k1] _ _ _ eq_refl eq_refl eq_refl _ X). nopre. }
    eapply fails_rule with (e := EPeg (s_ "n:parenth") (Some (EPeg (s_ "consuming parenth") (Some e)))); [reflexivity| |].
    + intros rest ctx. rewrite peek_rule by reflexivity. ev.
      change (str_eqb (s_ "parenth") (s_ "atom")) with false. change (str_eqb (s_ "parenth") (s_ "parenth")) with true. cbv iota.
      unfold consume_parenth. rewrite kt_head by reflexivity. erewrite consuming_err; [reflexivity|].
      rewrite (kt_par k1 x None k2 H). cbn [app]. rewrite this_ok. ev. rewrite <- app_assoc, E. reflexivity.
    + alone P.
  - (* one *) intros x o H IH N f F. subst o. rewrite inner_bound in F by reflexivity. unfold tl in F.
    destruct (IH eq_refl f ltac:(unfold tn; lia)) as (e & X & E). destruct (unit_name x None H) as [k ->].
    eapply fails_rule with (e := e); [reflexivity| |alone X].
    intros rest ctx. rewrite peek_rule by reflexivity. ev. unfold atom_and_rep. rewrite E. reflexivity.
  - (* star *) intros x o H IH N f F. apply map_none in N. subst o. rewrite inner_bound in F by reflexivity. unfold tl in F.
    destruct (unit_name x None H) as [k ->]. rewrite kt_cons in F. rewrite app_length in F.
    destruct (IH eq_refl f ltac:(unfold tn; lia)) as (e & X & E).
    eapply fails_rule with (e := e); [reflexivity| |alone X].
    intros rest ctx. rewrite kt_cons, <- app_assoc. rewrite peek_rule by reflexivity. ev. unfold atom_and_rep. rewrite E. reflexivity.
  - (* plus *) intros x o H IH N f F. apply map_none in N. subst o. rewrite inner_bound in F by reflexivity. unfold tl in F.
    destruct (unit_name x None H) as [k ->]. rewrite kt_cons in F. rewrite app_length in F.
    destruct (IH eq_refl f ltac:(unfold tn; lia)) as (e & X & E).
    eapply fails_rule with (e := e); [reflexivity| |alone X].
    intros rest ctx. rewrite kt_cons, <- app_assoc. rewrite peek_rule by reflexivity. ev. unfold atom_and_rep. rewrite E. reflexivity.
  - (* option *) intros x o H IH N f F. apply map_none in N. subst o. rewrite inner_bound in F by reflexivity. unfold tl in F.
    destruct (unit_name x None H) as [k ->]. rewrite kt_cons in F. rewrite app_length in F.
    destruct (IH eq_refl f ltac:(unfold tn; lia)) as (e & X & E).
    eapply fails_rule with (e := e); [reflexivity| |alone X].
    intros rest ctx. rewrite kt_cons, <- app_assoc. rewrite peek_rule by reflexivity. ev. unfold atom_and_rep. rewrite E. reflexivity.
  - (* not *) intros x o H IH N f F. apply map_none in N. subst o. rewrite inner_bound in F by reflexivity. unfold tl in F.
    destruct (unit_name x None H) as [k ->]. rewrite kt_val in F by (auto with nv). cbn [length] in F.
    destruct (IH eq_refl f ltac:(unfold tn; lia)) as (e & X & E).
    eapply fails_rule with (e := e); [reflexivity| |].
    + intros rest ctx. rewrite kt_val by (auto with nv). ev. change (str_eqb (s_ "!") (s_ "!")) with true. cbv iota.
      unfold neg_and_atom. rewrite this_ok. ev. rewrite E. reflexivity.
    + refine (fault_part (s_ "rep_or_neg") [Val (s_ "!")] _ _ _ eq_refl eq_refl eq_refl _ X). nopre.
  - (* error *) intros x o H N f f' F F'. apply map_none in N. subst o. rewrite inner_bound in F, F' by reflexivity. unfold tl in F. destruct f' as [|f']; [lia|].
    destruct (fails_error x H f) as (e & X & E). eexists. split; [refine (fault_and [] x [] e _ X); intros ? []|].
    intros acc rest ctx. cbn [rec_consume_and]. destruct (error_name x None H) as [k ->]. rewrite kt_head by reflexivity.
    apply consuming_err. rewrite peek_rule by reflexivity. ev. change (str_eqb (s_ "error") (s_ "error")) with true. cbv iota. rewrite E. reflexivity.
  - (* one *) intros x o H IH N f f' F F'. apply map_none in N. subst o. rewrite inner_bound in F, F' by reflexivity. unfold tl in F. destruct f' as [|f']; [lia|].
    destruct (IH eq_refl f ltac:(unfold tn; lia)) as (e & X & E). eexists. split; [refine (fault_and [] x [] e _ X); intros ? []|].
    intros acc rest ctx. cbn [rec_consume_and]. destruct (item_name x None H) as [k ->]. rewrite kt_head by reflexivity.
    apply consuming_err. rewrite peek_rule by reflexivity. ev. change (str_eqb (s_ "error") (s_ "rep_or_neg")) with false. cbv iota. rewrite E. reflexivity.
  - (* bad *) intros x l H IH _ f f' F F'. rewrite inner_bound in F, F' by reflexivity. unfold tl in F. destruct f' as [|f']; [lia|].
    destruct (item_name x None H) as [k ->]. rewrite kt_cons in F. rewrite app_length in F.
    destruct (IH eq_refl f ltac:(unfold tn; lia)) as (e & X & E). eexists. split; [refine (fault_and [] _ l e _ X); intros ? []|].
    intros acc rest ctx. cbn [rec_consume_and]. rewrite kt_head by reflexivity.
    apply consuming_err. rewrite kt_cons, <- app_assoc. rewrite peek_rule by reflexivity. ev. change (str_eqb (s_ "error") (s_ "rep_or_neg")) with false. cbv iota. rewrite E. reflexivity.
  - (* more *) intros x d k1 k2 y o H _ H2 IH2 N f f' F F'. apply map_none in N. subst o. specialize (IH2 eq_refl).
    rewrite inner_bound in F, F' by reflexivity. unfold tl in F, F'. destruct f' as [|f']; [lia|].
    pose proof (FI _ _ H) as FH. cbn [fits] in FH. pose proof (item_not_and _ _ H) as NA.
    destruct (item_name x _ H) as [k ->]. destruct (seq_name y None H2) as [kq ->].
    assert (K : kt [Rule (s_ "rep_or_neg") k; b1_node k1; b_node k2; Rule (s_ "and") kq] = kt [Rule (s_ "rep_or_neg") k] ++ kt [Rule (s_ "and") kq]).
    { rewrite kt_cons. unfold b1_node, b_node. rewrite (kt_blank (s_ "_1")) by reflexivity. rewrite (kt_blank (s_ "_")) by reflexivity. reflexivity. }
    rewrite K in F, F'. rewrite app_length in F, F'.
    destruct (IH2 f f' ltac:(unfold tn; lia) ltac:(unfold tn; lia)) as (e & X & E). eexists. split.
    + refine (fault_and [_; b1_node k1; b_node k2] _ [] e _ X). intros z [<-|[<-|[<-|[]]]]; split; try reflexivity; try exact FH; fine.
    + intros acc rest ctx. cbn [rec_consume_and]. rewrite kt_head by reflexivity. apply consuming_err. rewrite K.
      rewrite <- app_assoc. rewrite peek_rule by reflexivity. ev. change (str_eqb (s_ "error") (s_ "rep_or_neg")) with false. cbv iota.
      rewrite (EI _ _ H f ltac:(unfold tn; lia) (kt [Rule (s_ "and") kq] ++ FEnd (s_ "and") :: rest) ctx). ev. rewrite peek_rule by reflexivity. ev.
      change (str_eqb (s_ "and") (s_ "and")) with true. cbv iota. apply E.
  - (* extra *) intros x d k1 k2 y o k3 k4 k5 l H _ H2 IH2 _ f f' F F'.
    rewrite inner_bound in F, F' by reflexivity. unfold tl in F, F'. destruct f' as [|f']; [lia|].
    pose proof (FI _ _ H) as FH. cbn [fits] in FH. pose proof (item_not_and _ _ H) as NA. pose proof (FQ _ _ H2) as FY.
    destruct (item_name x _ H) as [k ->]. destruct (seq_name y o H2) as [kq ->].
    assert (K : kt (Rule (s_ "rep_or_neg") k :: b1_node k1 :: b_node k2 :: Rule (s_ "and") kq :: b1_node k3 :: b_node k4 :: Rule (s_ "and") k5 :: l)
      = kt [Rule (s_ "rep_or_neg") k] ++ kt [Rule (s_ "and") kq] ++ kt [Rule (s_ "and") k5] ++ kt l).
    { rewrite kt_cons. unfold b1_node, b_node. rewrite (kt_blank (s_ "_1")) by reflexivity. rewrite (kt_blank (s_ "_")) by reflexivity.
      rewrite (kt_cons (s_ "and") kq). rewrite (kt_blank (s_ "_1")) by reflexivity. rewrite (kt_blank (s_ "_")) by reflexivity. rewrite (kt_cons (s_ "and") k5). reflexivity. }
    rewrite K in F, F'. rewrite !app_length in F, F'.
    assert (Pre : forall z, In z [Rule (s_ "rep_or_neg") k; b1_node k1; b_node k2] -> ~ defect z /\ is_rule (s_ "and") z = false).
    { intros z [<-|[<-|[<-|[]]]]; split; try reflexivity; try exact FH; fine. }
    assert (St : forall acc rest ctx, let more := (kt [Rule (s_ "and") k5] ++ kt l) ++ FEnd (s_ "and") :: rest in
      (let? nd := ast_ (fpeek_first_node ((kt [Rule (s_ "rep_or_neg") k] ++ kt [Rule (s_ "and") kq] ++ kt [Rule (s_ "and") k5] ++ kt l) ++ FEnd (s_ "and") :: rest)) in
        let? nm := ast_ (fget_nodename nd) in
        if str_eqb (s_ "error") nm then
          let? (e, nodes, ctx) := consume_error f ((kt [Rule (s_ "rep_or_neg") k] ++ kt [Rule (s_ "and") kq] ++ kt [Rule (s_ "and") k5] ++ kt l) ++ FEnd (s_ "and") :: rest) ctx in
          Ok (eov_ipush acc e, nodes, ctx)
        else
          let? (e, nodes, ctx) := c_item f ((kt [Rule (s_ "rep_or_neg") k] ++ kt [Rule (s_ "and") kq] ++ kt [Rule (s_ "and") k5] ++ kt l) ++ FEnd (s_ "and") :: rest) ctx in
          let acc := eov_ipush acc e in
          let? next_node := ast_ (fpeek_first_node nodes) in
          match next_node with
          | FBegin n => if str_eqb n (s_ "and") then rec_consume_and f' (c_item f) (consume_error f) acc nodes ctx
                        else Ok (acc, nodes, ctx)
          | _ => Ok (acc, nodes, ctx)
          end) = rec_consume_and f' (c_item f) (consume_error f) (eov_ipush acc d) (kt [Rule (s_ "and") kq] ++ more) ctx).
    { intros acc rest ctx more. rewrite <- app_assoc. rewrite peek_rule by reflexivity. ev. change (str_eqb (s_ "error") (s_ "rep_or_neg")) with false. cbv iota.
      rewrite <- app_assoc.
      rewrite (EI _ _ H f ltac:(unfold tn; lia) (kt [Rule (s_ "and") kq] ++ (kt [Rule (s_ "and") k5] ++ kt l) ++ FEnd (s_ "and") :: rest) ctx).
      ev. rewrite peek_rule by reflexivity. ev. change (str_eqb (s_ "and") (s_ "and")) with true. reflexivity. }
    destruct o as [es|].
    + eexists. split.
      * refine (fault_goes_on [Rule (s_ "rep_or_neg") k; b1_node k1; b_node k2] (Rule (s_ "and") kq) _ Pre FY eq_refl _). reflexivity.
      * intros acc rest ctx. cbn [rec_consume_and]. rewrite kt_head by reflexivity. rewrite K.
        unfold consuming_rule. rewrite begin_ok. ev. specialize (St acc rest ctx). ev. cbn zeta in St.
        match goal with |- push_err _ (bind ?X _) = _ => replace X with (rec_consume_and f' (c_item f) (consume_error f) (eov_ipush acc d)
          (kt [Rule (s_ "and") kq] ++ (kt [Rule (s_ "and") k5] ++ kt l) ++ FEnd (s_ "and") :: rest) ctx) by (symmetry; exact St) end.
        rewrite (EQ _ _ H2 f f' ltac:(unfold tn; lia) ltac:(unfold tn; lia) (eov_ipush acc d)). ev.
        rewrite <- app_assoc, (kt_head (s_ "and") k5) by reflexivity. reflexivity.
    + destruct (IH2 eq_refl f f' ltac:(unfold tn; lia) ltac:(unfold tn; lia)) as (e & X & E). eexists. split.
      * refine (fault_and [Rule (s_ "rep_or_neg") k; b1_node k1; b_node k2] _ _ e Pre X).
      * intros acc rest ctx. cbn [rec_consume_and]. rewrite kt_head by reflexivity. rewrite K. apply consuming_err.
        etransitivity; [exact (St acc rest ctx)|]. apply E.
  - (* one *) intros x o H IH N f f' F F'. apply map_none in N. subst o. rewrite inner_bound in F, F' by reflexivity. unfold tl in F. destruct f' as [|f']; [lia|].
    destruct (IH eq_refl f f ltac:(unfold tn; lia) ltac:(unfold tn; lia)) as (e & X & E). eexists. split; [alone X|].
    intros acc rest ctx. cbn [rec_consume_or]. destruct (seq_name x None H) as [k ->]. rewrite kt_head by reflexivity.
    apply consuming_err. unfold consume_and. rewrite E. reflexivity.
  - (* bad *) intros x l H IH _ f f' F F'. rewrite inner_bound in F, F' by reflexivity. unfold tl in F. destruct f' as [|f']; [lia|].
    destruct (seq_name x None H) as [k ->]. rewrite kt_cons in F. rewrite app_length in F.
    destruct (IH eq_refl f f ltac:(unfold tn; lia) ltac:(unfold tn; lia)) as (e & X & E). eexists. split; [alone X|].
    intros acc rest ctx. cbn [rec_consume_or]. rewrite kt_head by reflexivity.
    apply consuming_err. rewrite kt_cons, <- app_assoc. unfold consume_and. rewrite E. reflexivity.
  - (* more *) intros x es k1 k2 y o H _ H2 IH2 N f f' F F'. apply map_none in N. subst o. specialize (IH2 eq_refl).
    rewrite inner_bound in F, F' by reflexivity. unfold tl in F, F'. destruct f' as [|f']; [lia|].
    pose proof (FQ _ _ H) as FH. cbn [fits] in FH.
    destruct (seq_name x _ H) as [k ->]. destruct (choice_name y None H2) as [kq ->].
    assert (K : kt [Rule (s_ "and") k; b_node k1; Val (s_ "/"); b_node k2; Rule (s_ "or") kq] = kt [Rule (s_ "and") k] ++ FVal (s_ "/") :: kt [Rule (s_ "or") kq]).
    { rewrite kt_cons. unfold b_node. rewrite (kt_blank (s_ "_")) by reflexivity. rewrite kt_val by (auto with nv). rewrite (kt_blank (s_ "_")) by reflexivity. reflexivity. }
    rewrite K in F, F'. rewrite app_length in F, F'. cbn [length] in F, F'.
    destruct (IH2 f f' ltac:(unfold tn; lia) ltac:(unfold tn; lia)) as (e & X & E). eexists. split.
    + refine (fault_part (s_ "or") [_; b_node k1; Val (s_ "/"); b_node k2] _ [] e eq_refl eq_refl eq_refl _ X).
      intros z [<-|[<-|[<-|[<-|[]]]]]; try exact FH; fine.
    + intros acc rest ctx. cbn [rec_consume_or]. rewrite kt_head by reflexivity. apply consuming_err. rewrite K, <- app_assoc. cbn [app].
      pose proof (consume_and_of _ _ f _ _ H (EQ _ _ H f f ltac:(unfold tn; lia) ltac:(unfold tn; lia)) (FVal (s_ "/") :: kt [Rule (s_ "or") kq] ++ FEnd (s_ "or") :: rest) ctx) as Y.
      cbn [option_map] in Y. rewrite Y. ev. rewrite this_ok. ev. apply E.
  - (* expr *) intros x o H IH N f F. apply map_none in N. subst o. rewrite inner_bound in F by reflexivity. unfold tl in F. destruct f as [|f]; [lia|].
    destruct (IH eq_refl f f ltac:(unfold tn; lia) ltac:(unfold tn; lia)) as (e & X & E).
    eapply (fails_rule expr (s_ "expr") [x] (consume_or f (consume_and f (c_item f) (consume_error f))) (EPeg (s_ "or:") (Some e))); [reflexivity| |alone X].
    intros rest ctx. unfold consume_or. rewrite E. reflexivity.
Qed.

Lemma fails_rule_def : forall x n y k1 k2 k3 k4 k5 f, t_name x n -> t_expr y None ->
  let nd := Rule (s_ "rule") [b_node k1; x; b_node k2; Val (s_ "="); b_node k3; y; be_node k4; b_node k5] in
  tn nd <= f -> fails (consume_rule f) (kt [nd]) nd.
Proof.
  intros x n y k1 k2 k3 k4 k5 f H1 H2 nd F. subst nd. rewrite inner_bound in F by reflexivity. unfold tl in F.
  pose proof (name_fine _ _ H1) as NF.
  destruct (name_name x n H1) as [kx ->]. destruct (expr_name y None H2) as [ky ->].
  assert (K : kt [b_node k1; Rule (s_ "rule_name") kx; b_node k2; Val (s_ "="); b_node k3; Rule (s_ "expr") ky; be_node k4; b_node k5] =
    kt [Rule (s_ "rule_name") kx] ++ FVal (s_ "=") :: kt [Rule (s_ "expr") ky]).
  { unfold b_node, be_node. rewrite (kt_blank (s_ "_")) by reflexivity. rewrite kt_cons. rewrite (kt_blank (s_ "_")) by reflexivity.
    rewrite kt_val by (auto with nv). rewrite (kt_blank (s_ "_")) by reflexivity. rewrite (kt_cons (s_ "expr")).
    rewrite (kt_blank (s_ "_eol")) by reflexivity. rewrite (kt_blank (s_ "_")) by reflexivity. rewrite kt_nil, app_nil_r. reflexivity. }
  rewrite K in F. rewrite app_length in F. cbn [length] in F.
  destruct (proj2 (proj2 (proj2 (proj2 fails_exprs))) _ _ H2 eq_refl f ltac:(unfold tn; lia)) as (e & X & E).
  eapply (fails_rule _ (s_ "rule") _ _ e); [reflexivity| |].
  - intros rest ctx. rewrite K, <- app_assoc. rewrite (eats_name _ _ H1) by (unfold tn; lia). ev. rewrite this_ok. ev. rewrite E. reflexivity.
  - refine (fault_part (s_ "rule") [b_node k1; _; b_node k2; Val (s_ "="); b_node k3] _ _ e eq_refl eq_refl eq_refl _ X). nopre.
Qed.

Lemma fails_module_def : forall x m y k1 k2 k3 k4 k5 k6 f, t_sym x m -> t_grammar y None ->
  let nd := Rule (s_ "module") [b_node k1; Rule (s_ "mod_name") [x]; b_node k2; Val (s_ "{"); b_node k3; y; b_node k4;
      Val (s_ "}"); be_node k5; b_node k6] in
  (tn y < tn nd -> fails (consume_grammar f) (kt [y]) y) ->
  fails (consume_module (consume_grammar f)) (kt [nd]) nd.
Proof.
  intros x m y k1 k2 k3 k4 k5 k6 f H1 H2 nd IH. unfold nd in *. rewrite inner_bound in IH by reflexivity. unfold tl, tn in IH.
  pose proof (sym_fine _ _ H1) as NF. destruct (grammar_name y None H2) as [ky ->].
  assert (K : kt [b_node k1; Rule (s_ "mod_name") [x]; b_node k2; Val (s_ "{"); b_node k3; Rule (s_ "grammar") ky; b_node k4;
      Val (s_ "}"); be_node k5; b_node k6] =
    kt [Rule (s_ "mod_name") [x]] ++ FVal (s_ "{") :: kt [Rule (s_ "grammar") ky] ++ [FVal (s_ "}")]).
  { unfold b_node, be_node. rewrite (kt_blank (s_ "_")) by reflexivity. rewrite kt_cons. rewrite (kt_blank (s_ "_")) by reflexivity.
    rewrite kt_val by (auto with nv). rewrite (kt_blank (s_ "_")) by reflexivity. rewrite (kt_cons (s_ "grammar")).
    rewrite (kt_blank (s_ "_")) by reflexivity. rewrite kt_val by (auto with nv).
    rewrite (kt_blank (s_ "_eol")) by reflexivity. rewrite (kt_blank (s_ "_")) by reflexivity. rewrite kt_nil. reflexivity. }
  rewrite K in IH. rewrite app_length in IH. cbn [length] in IH. rewrite app_length in IH. cbn [length] in IH.
  destruct (IH ltac:(lia)) as (e & X & E).
  eapply (fails_rule _ (s_ "module") _ _ e); [reflexivity| |].
  - intros rest ctx. rewrite K, <- app_assoc. rewrite (eats_mod_name _ _ H1). ev. rewrite this_ok. ev. rewrite <- app_assoc. rewrite E. reflexivity.
  - refine (fault_part (s_ "module") [b_node k1; Rule (s_ "mod_name") [x]; b_node k2; Val (s_ "{"); b_node k3] _ _ e eq_refl eq_refl eq_refl _ X). nopre.
Qed.

Theorem fails_grammars :
  (forall x o, t_def x o -> o = None -> forall f, tn x <= f -> exists e, fault x = Some e /\
     forall f' rs rest ctx, c_defs f (S f') rs (kt [x] ++ rest) ctx = Err e) /\
  (forall l o, t_defs l o -> o = None -> forall f f', tl l <= f -> tl l < f' -> exists e, first fault l = Some e /\
     forall rs nm rest ctx, c_defs f f' rs (kt l ++ FEnd nm :: rest) ctx = Err e) /\
  (forall x o, t_grammar x o -> o = None -> forall f, tn x <= f -> fails (consume_grammar f) (kt [x]) x).
Proof.
  pose proof eats_grammars as (ED & _ & _). pose proof grammars_fit as (FD & _ & _).
  apply t_grammar_ind3.
  - intros k1 x n k2 k3 y o k4 k5 H1 H2 N f F. apply map_none in N. subst o.
    destruct (fails_rule_def x n y k1 k2 k3 k4 k5 f H1 H2 F) as (e & X & E). exists e. split; [exact X|]. intros f' rs rest ctx.
    unfold c_defs. cbn [rec_consume_rules_or_modules]. rewrite peek_rule by reflexivity. ev. change (str_eqb (s_ "rule") (s_ "rule")) with true. cbv iota.
    rewrite E. reflexivity.
  - intros k1 x m k2 k3 y o k4 k5 k6 H1 H2 IH N f F. apply map_none in N. subst o.
    destruct (fails_module_def x m y k1 k2 k3 k4 k5 k6 f H1 H2 ltac:(intro; apply IH; [reflexivity|lia])) as (e & X & E). exists e. split; [exact X|]. intros f' rs rest ctx.
    unfold c_defs. cbn [rec_consume_rules_or_modules]. rewrite peek_rule by reflexivity. ev.
    change (str_eqb (s_ "module") (s_ "rule")) with false. change (str_eqb (s_ "module") (s_ "module")) with true. cbv iota.
    rewrite E. reflexivity.
  - discriminate.
  - intros x l H IH _ _ f f' F F'. destruct f' as [|f']; [lia|]. destruct (def_name x None H) as (n & k & -> & B).
    unfold tl in F. rewrite kt_cons in F. rewrite app_length in F. destruct (IH eq_refl f ltac:(unfold tn; lia)) as (e & X & E).
    exists e. split; [rewrite first_cons, X; reflexivity|]. intros rs nm rest ctx. rewrite kt_cons, <- app_assoc. apply E.
  - intros x d l o H _ H2 IH2 N f f' F F'. apply map_none in N. subst o. destruct f' as [|f']; [lia|].
    pose proof (FD _ _ H) as FH. cbn [fits] in FH. destruct (def_name x _ H) as (n & k & -> & B).
    unfold tl in F, F'. rewrite kt_cons in F, F'. rewrite app_length in F, F'.
    pose proof (inner_bound n k B) as L. unfold tn in L.
    destruct (IH2 eq_refl f f' ltac:(unfold tl; lia) ltac:(unfold tl; lia)) as (e & X & E).
    exists e. split; [rewrite first_cons, (fault_fine _ FH); exact X|]. intros rs nm rest ctx. rewrite kt_cons, <- app_assoc.
    rewrite (ED _ _ H f f' rs (kt l ++ FEnd nm :: rest) ctx ltac:(unfold tn; lia)). apply E.
  - intros l o H IH N f F. subst o. rewrite inner_bound in F by reflexivity. destruct f as [|f]; [lia|].
    destruct (IH eq_refl f f ltac:(lia) ltac:(lia)) as (e & X & E).
    eapply (fails_rule rules (s_ "grammar") l (c_defs f f rules_new) e); [reflexivity| |].
    + intros rest ctx. apply E.
    + rewrite fault_rule. change (name_in _ (s_ "grammar")) with false. change (str_eqb (s_ "grammar") (s_ "lit_noesc")) with false.
      change (str_eqb (s_ "grammar") (s_ "and")) with false. cbn [andb]. cbv iota. rewrite X. reflexivity.
Qed.

Theorem fails_main : forall x f, t_grammar x None -> tn (Rule (s_ "main") [x]) <= f ->
  exists e, fault (Rule (s_ "main") [x]) = Some e /\
    rules_from_flat_ast f (flatten (prune peg_blanks (compact (Rule (s_ "main") [x])))) = Err e.
Proof.
  intros x f H F. rewrite inner_bound in F by reflexivity.
  assert (K : flatten (prune peg_blanks (compact (Rule (s_ "main") [x]))) = kt [Rule (s_ "main") [x]]).
  { rewrite compact_rule. rewrite prune_unfold. rewrite flatten_rule. rewrite kt_rule by reflexivity. reflexivity. }
  rewrite K. destruct (proj2 (proj2 fails_grammars) x None H eq_refl f ltac:(unfold tl, tn in *; lia)) as (e & X & E).
  assert (Y : fails (consume_main f) (kt [Rule (s_ "main") [x]]) (Rule (s_ "main") [x])).
  { eapply (fails_rule _ (s_ "main") _ _ e); [reflexivity| |alone X]. intros rest ctx. apply E. }
  destruct Y as (e' & Y & Z). exists e'. split; [exact Y|]. unfold rules_from_flat_ast. specialize (Z [] context_new). rewrite app_nil_r in Z. rewrite Z. reflexivity.
Qed.

(** ** Through the API *)

Lemma faulty : forall f s e, rules_from_peg f s = Err e ->
  (exists er, e = EParser er /\ parse f s parse_peg = Err er) \/
  (exists ast, parse f s parse_peg = Ok ast /\ fault ast = Some e).
Proof.
  intros f s e H. destruct (rules_from_peg_err f s e H) as [(er & E & P)|(ast & e' & P & D & E & X)]; [left; exists er; split; assumption|right].
  exists ast. split; [exact P|]. destruct (peg_read f s ast P) as (As & x & o & -> & T & _). apply (main_fits x o T) in D. subst o.
  destruct (fails_main x (f + tn (Rule (s_ "main") [x])) T ltac:(lia)) as (e2 & F & E2). rewrite F. f_equal.
  set (n := flatten (prune peg_blanks (compact (Rule (s_ "main") [x])))) in *.
  destruct (flat_ast_mono f (f + tn (Rule (s_ "main") [x])) n ltac:(lia)) as [Y|Y]; congruence.
Qed.

Lemma accepted : forall f s ast, parse f s parse_peg = Ok ast ->
  match fault ast with Some e => answers s (Err e) | None => exists rs, answers s (Ok rs) end.
Proof.
  intros f s ast P. destruct (rules_from_peg_accepted f s ast P) as [D N]. destruct (peg_read f s ast P) as (As & x & o & -> & T & _).
  pose proof (main_fits x o T) as M. destruct o as [l|].
  - rewrite fault_fine by (intro Q; apply M in Q; discriminate). apply N. intro Q. apply M in Q. discriminate.
  - destruct (D (proj1 M eq_refl)) as [e A]. destruct (fails_main x (tn (Rule (s_ "main") [x])) T (le_n _)) as (e2 & F & _). rewrite F.
    destruct A as [A1 [f0 A2]]. pose proof (A2 f0 (le_n _)) as A3. destruct (faulty f0 s e A3) as [(er & -> & P2)|(ast & P2 & F2)].
    + exfalso. pose proof (parse_mono f (f + f0) s parse_peg ltac:(lia)) as Q1. rewrite P in Q1. specialize (Q1 ltac:(discriminate)).
      pose proof (parse_mono f0 (f + f0) s parse_peg ltac:(lia)) as Q2. rewrite P2 in Q2. specialize (Q2 ltac:(discriminate)). congruence.
    + pose proof (parse_mono f (f + f0) s parse_peg ltac:(lia)) as Q1. rewrite P in Q1. specialize (Q1 ltac:(discriminate)).
      pose proof (parse_mono f0 (f + f0) s parse_peg ltac:(lia)) as Q2. rewrite P2 in Q2. specialize (Q2 ltac:(discriminate)).
      assert (ast = Rule (s_ "main") [x]) by congruence. subst ast. assert (e = e2) by congruence. subst e2. split; [exact A1|]. exists f0. exact A2.
Qed.

(** ** The first defect *)

Lemma until_some : forall (f : node -> option ModelPeg.peg_error) after l b, first_until f (is_rule (s_ "and")) after l = Some b ->
  exists pre x post, l = pre ++ x :: post /\ Forall (fun y => f y = None) pre /\ no_and pre /\
    (f x = Some b \/ (f x = None /\ is_rule (s_ "and") x = true /\ after post = Some b)).
Proof.
  intros f after l b. induction l as [|x l IH]; [discriminate|]. rewrite until_cons. destruct (f x) eqn:E.
  - intro H. injection H as ->. exists [], x, l. split; [reflexivity|]. split; [constructor|]. split; [intros y []|left; exact E].
  - destruct (is_rule (s_ "and") x) eqn:X; intro H.
    + exists [], x, l. split; [reflexivity|]. split; [constructor|]. split; [intros y []|right; auto].
    + destruct (IH H) as (pre & y & post & -> & F & N & Y). exists (x :: pre), y, post. split; [reflexivity|].
      split; [constructor; assumption|]. split; [|exact Y]. intros z [<-|I]; [exact X|apply N; exact I].
Qed.

Lemma first_intro : forall A B (f : A -> option B) pre x post b, Forall (fun y => f y = None) pre -> f x = Some b -> first f (pre ++ x :: post) = Some b.
Proof.
  intros A B f pre x post b F X. induction F as [|y pre Y F IH]; cbn [app]; rewrite first_cons; [rewrite X; reflexivity|]. rewrite Y. exact IH.
Qed.

Lemma until_intro : forall (f : node -> option ModelPeg.peg_error) after pre x post, Forall (fun y => f y = None) pre -> no_and pre ->
  first_until f (is_rule (s_ "and")) after (pre ++ x :: post) = first_until f (is_rule (s_ "and")) after (x :: post).
Proof.
  intros f after pre x post F N. induction F as [|y pre Y F IH]; [reflexivity|]. cbn [app]. rewrite until_cons, Y, (N y (or_introl eq_refl)).
  apply IH. intros z I. apply N. right. exact I.
Qed.

Lemma fine_none : forall l, (forall y, In y l -> fault y = None <-> ~ defect y) -> (Forall (fun y => fault y = None) l <-> fine l).
Proof.
  intros l H. rewrite Forall_forall. unfold fine. split; intros F y I; apply (H y I); apply F; exact I.
Qed.

(** Something is wrong exactly if there is a defect. *)
Lemma fault_none_iff : forall x, fault x = None <-> ~ defect x.
Proof.
  intro x. split; [|apply fault_fine]. intros H D. revert H. induction D as [q1 q2|l L|n l y N I D IH]; intro H; rewrite fault_rule in H.
  - discriminate.
  - change (name_in _ (s_ "and")) with false in H. change (str_eqb (s_ "and") (s_ "lit_noesc")) with false in H.
    change (str_eqb (s_ "and") (s_ "and")) with true in H. cbn [andb] in H. cbv iota in H.
    destruct (first_until _ _ _ l) eqn:E in H; [discriminate|]. clear H.
    induction l as [|x l IH]; [cbn in L; lia|]. rewrite until_cons in E. destruct (fault x); [discriminate|].
    cbn [filter] in L. destruct (is_rule (s_ "and") x) eqn:X; [|apply IH; assumption].
    destruct (existsb (is_rule (s_ "and")) l) eqn:Y; [discriminate|]. cbn [length] in L.
    destruct (filter (is_rule (s_ "and")) l) as [|z r] eqn:Z; [cbn in L; lia|].
    assert (W : In z (filter (is_rule (s_ "and")) l)) by (rewrite Z; left; reflexivity). apply filter_In in W.
    assert (V : existsb (is_rule (s_ "and")) l = true) by (apply existsb_exists; exists z; exact W). congruence.
  - change [s_ "_"; s_ "_1"; s_ "_eol"] with peg_blanks in H. rewrite (proj2 (name_in_false peg_blanks n) N) in H.
    destruct (str_eqb n (s_ "lit_noesc") && (length l =? 2)); [discriminate|].
    destruct (str_eqb n (s_ "and")) eqn:E2.
    + destruct (first_until _ _ _ l) eqn:E in H; [discriminate|]. clear H E2 N.
      revert I E. induction l as [|x l IHl]; intros I E; [destruct I|]. rewrite until_cons in E. destruct (fault x) eqn:X; [discriminate|].
      destruct I as [->|I]; [apply IH; exact X|]. destruct (is_rule (s_ "and") x) eqn:W; [|apply IHl; assumption].
      destruct (existsb (is_rule (s_ "and")) l); [discriminate|]. apply first_none in E. rewrite Forall_forall in E. apply IH. apply E. exact I.
    + destruct (first fault l) eqn:E in H; [discriminate|]. apply first_none in E. rewrite Forall_forall in E. apply IH. apply E. exact I.
Qed.

Lemma fine_iff : forall l, Forall (fun y => fault y = None) l <-> fine l.
Proof. intro l. apply fine_none. intros y _. apply fault_none_iff. Qed.

Lemma two_ands : forall pre a mid b post, is_rule (s_ "and") a = true -> is_rule (s_ "and") b = true ->
  2 <= length (filter (is_rule (s_ "and")) (pre ++ a :: mid ++ b :: post)).
Proof.
  intros pre a mid b post A B. rewrite filter_app. cbn [filter]. rewrite A. rewrite filter_app. cbn [filter]. rewrite B. rewrite app_length. cbn [length].
  rewrite app_length. cbn [length]. lia.
Qed.

Lemma chain_app : forall ds1 ds2 e, chain (ds1 ++ ds2) e = chain ds1 (chain ds2 e).
Proof. intros. unfold chain. apply fold_right_app. Qed.

Lemma told_cons : forall n l path root, chain (told (Rule n l :: path)) root = chain (labels n l) (chain (told path) root).
Proof. intros. unfold told. cbn [flat_map]. apply chain_app. Qed.

Lemma told_one : forall n l root, chain (told [Rule n l]) root = chain (labels n l) root.
Proof. intros. rewrite told_cons. reflexivity. Qed.

Lemma fault_first : forall x e, fault x = Some e -> exists path root, first_defect x path root /\ e = chain (told path) root.
Proof.
  induction x as [v|n l IH|] using node_ind'; intros e H; try discriminate. rewrite fault_rule in H.
  destruct (name_in [s_ "_"; s_ "_1"; s_ "_eol"] n) eqn:B; [discriminate|]. apply name_in_false in B. rewrite Forall_forall in IH.
  destruct (str_eqb n (s_ "lit_noesc") && (length l =? 2)) eqn:E1.
  - apply andb_true_iff in E1. destruct E1 as [E1 E2]. apply str_eqb_eq in E1. subst n. destruct l as [|q1 [|q2 [|q3 l]]]; try discriminate.
    injection H as <-. eexists _, _. split; [apply fd_empty|]. rewrite told_one. reflexivity.
  - assert (NL : n = s_ "lit_noesc" -> length l <> 2).
    { intros -> L. rewrite L in E1. discriminate. }
    destruct (str_eqb n (s_ "and")) eqn:E2.
    + apply str_eqb_eq in E2. subst n. destruct (first_until _ _ _ l) as [e0|] eqn:E in H; [|discriminate]. cbn [option_map] in H. injection H as <-.
      apply until_some in E. destruct E as (pre & y & post & -> & F & N & [Y|(Y & A & P)]).
      * destruct (IH y ltac:(apply in_or_app; right; left; reflexivity) e0 Y) as (path & root & D & ->).
        eexists _, _. split; [eapply fd_in with (pre := pre) (y := y); [exact B|apply fine_iff; exact F|exact NL|intros _; left; exact N|exact D]|].
        rewrite told_cons. reflexivity.
      * destruct (existsb (is_rule (s_ "and")) post) eqn:X.
        -- injection P as <-. apply exists_and in X. destruct X as (mid & b & post' & -> & Bd).
           eexists _, _. split; [apply fd_two; [apply fine_iff; exact F|exact N|exact A|apply fault_none_iff; exact Y|exact Bd]|]. rewrite told_one. reflexivity.
        -- apply first_some in P. destruct P as (pre2 & z & post2 & -> & F2 & Z).
           destruct (IH z ltac:(apply in_or_app; right; right; apply in_or_app; right; left; reflexivity) e0 Z) as (path & root & D & ->).
           assert (Q : pre ++ y :: pre2 ++ z :: post2 = (pre ++ y :: pre2) ++ z :: post2) by (rewrite <- app_assoc; reflexivity).
           rewrite Q in *. eexists _, _. split; [eapply fd_in with (pre := pre ++ y :: pre2) (y := z); [exact B| |exact NL| |exact D]|].
           ++ apply fine_iff. apply Forall_app. split; [exact F|]. constructor; assumption.
           ++ intros _. right. rewrite <- Q, filter_app. rewrite (proj1 (filter_none pre) N). cbn [app filter]. rewrite A. cbn [length].
              assert (W : filter (is_rule (s_ "and")) (pre2 ++ z :: post2) = []).
              { apply filter_none. intros w I. destruct (is_rule (s_ "and") w) eqn:Wd; [|reflexivity].
                assert (V : existsb (is_rule (s_ "and")) (pre2 ++ z :: post2) = true) by (apply existsb_exists; exists w; auto). congruence. }
              rewrite W. cbn. lia.
           ++ rewrite told_cons. reflexivity.
    + destruct (first fault l) as [e0|] eqn:E in H; [|discriminate]. cbn [option_map] in H. injection H as <-.
      apply first_some in E. destruct E as (pre & y & post & -> & F & Y).
      destruct (IH y ltac:(apply in_or_app; right; left; reflexivity) e0 Y) as (path & root & D & ->).
      eexists _, _. split; [eapply fd_in with (pre := pre) (y := y); [exact B|apply fine_iff; exact F|exact NL| |exact D]|].
      * intros ->. discriminate.
      * rewrite told_cons. reflexivity.
Qed.

Lemma first_fault : forall x path root, first_defect x path root -> fault x = Some (chain (told path) root).
Proof.
  intros x path root H. induction H as [q1 q2|pre a mid b post F N A Da Bd|n pre y post path root B F NL NA D IH].
  - reflexivity.
  - subst x. rewrite told_one, fault_rule. change (name_in _ (s_ "and")) with false. change (str_eqb (s_ "and") (s_ "lit_noesc")) with false.
    change (str_eqb (s_ "and") (s_ "and")) with true. cbn [andb]. cbv iota.
    rewrite until_intro by (try assumption; apply fine_iff; exact F). rewrite until_cons, (proj2 (fault_none_iff a) Da), A.
    rewrite existsb_app. cbn [existsb]. rewrite Bd. rewrite orb_true_r. reflexivity.
  - subst x. rewrite told_cons, fault_rule. rewrite (proj2 (name_in_false _ n) B).
    assert (E1 : str_eqb n (s_ "lit_noesc") && (length (pre ++ y :: post) =? 2) = false).
    { destruct (str_eqb n (s_ "lit_noesc")) eqn:E; [|reflexivity]. apply str_eqb_eq in E. cbn [andb]. apply Nat.eqb_neq. exact (NL E). }
    rewrite E1. apply fine_iff in F. destruct (str_eqb n (s_ "and")) eqn:E2.
    + apply str_eqb_eq in E2. specialize (NA E2). subst n.
      destruct (le_lt_dec (length (filter (is_rule (s_ "and")) pre)) 0) as [L0|L0].
      * assert (N : no_and pre) by (apply filter_none; destruct (filter (is_rule (s_ "and")) pre); [reflexivity|cbn in L0; lia]).
        rewrite until_intro by assumption. rewrite until_cons, IH. reflexivity.
      * destruct NA as [N|L]; [apply filter_none in N; rewrite N in L0; cbn in L0; lia|].
        destruct (filter (is_rule (s_ "and")) pre) as [|w r] eqn:Fw; [cbn in L0; lia|].
        assert (X : existsb (is_rule (s_ "and")) pre = true).
        { apply existsb_exists. exists w. apply filter_In. rewrite Fw. left. reflexivity. }
        assert (S1 : exists p1 a p2, pre = p1 ++ a :: p2 /\ no_and p1 /\ is_rule (s_ "and") a = true).
        { clear - X. induction pre as [|z pre IHp]; [discriminate|]. destruct (is_rule (s_ "and") z) eqn:Z.
          - exists [], z, pre. split; [reflexivity|]. split; [intros ? []|exact Z].
          - cbn [existsb] in X. rewrite Z in X. destruct (IHp X) as (p1 & a & p2 & -> & N & A). exists (z :: p1), a, p2. split; [reflexivity|].
            split; [intros u [<-|I]; [exact Z|apply N; exact I]|exact A]. }
        destruct S1 as (p1 & a & p2 & -> & N & A). apply Forall_app in F. destruct F as [F1 F2]. inversion F2 as [|? ? F3 F4]; subst.
        rewrite <- app_assoc. cbn [app]. rewrite until_intro by assumption. rewrite until_cons, F3, A.
        rewrite <- app_assoc in L. cbn [app] in L. rewrite filter_app in L. cbn [filter] in L. rewrite A in L. rewrite app_length in L. cbn [length] in L.
        assert (Z : existsb (is_rule (s_ "and")) (p2 ++ y :: post) = false).
        { destruct (existsb (is_rule (s_ "and")) (p2 ++ y :: post)) eqn:Z; [|reflexivity]. exfalso. apply existsb_exists in Z. destruct Z as (u & I & U).
          assert (V : In u (filter (is_rule (s_ "and")) (p2 ++ y :: post))) by (apply filter_In; split; assumption).
          destruct (filter (is_rule (s_ "and")) (p2 ++ y :: post)); [destruct V|cbn [length] in L; lia]. }
        rewrite Z. rewrite (first_intro _ _ fault p2 y post (chain (told path) root)) by assumption. reflexivity.
    + rewrite (first_intro _ _ fault pre y post (chain (told path) root)) by assumption. reflexivity.
Qed.
