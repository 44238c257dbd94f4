(** The trees the token consumer refuses are exactly those with a defect. *)
From Verif Require Import Base ModelAst ModelParser ModelPegRules ModelPeg SpecPos SpecSyntax SpecPegApi ProofParser ProofEngine ProofConsume.

Lemma eqb_neq : forall a b : str, str_eqb a b = false -> a <> b.
Proof. intros a b H ->. rewrite (proj2 (str_eqb_eq b b) eq_refl) in H. discriminate. Qed.

Lemma fine_val : forall v, ~ defect (Val v).
Proof. intros v H. inversion H. Qed.

Lemma inv_defect : forall n l, defect (Rule n l) ->
  (n = s_ "lit_noesc" /\ length l = 2) \/ (n = s_ "and" /\ 2 <= length (filter (is_rule (s_ "and")) l)) \/
  (~ In n peg_blanks /\ exists x, In x l /\ defect x).
Proof.
  intros n l H. remember (Rule n l) as y eqn:E. destruct H as [q1 q2|l0 C|m l0 x N I D]; injection E as <- <-.
  - left. split; reflexivity.
  - right. left. split; [reflexivity|exact C].
  - right. right. split; [exact N|]. exists x. split; assumption.
Qed.

Lemma fine_rule : forall n l, str_eqb n (s_ "lit_noesc") = false -> str_eqb n (s_ "and") = false ->
  (forall x, In x l -> ~ defect x) -> ~ defect (Rule n l).
Proof.
  intros n l E1 E2 F H. apply eqb_neq in E1, E2. apply inv_defect in H. destruct H as [[Q _]|[[Q _]|(N & x & I & D)]].
  - contradiction.
  - contradiction.
  - exact (F x I D).
Qed.

Lemma fine_and : forall l, length (filter (is_rule (s_ "and")) l) <= 1 -> (forall x, In x l -> ~ defect x) -> ~ defect (Rule (s_ "and") l).
Proof.
  intros l C F H. apply inv_defect in H. destruct H as [[Q _]|[[_ C']|(N & x & I & D)]].
  - discriminate Q.
  - lia.
  - exact (F x I D).
Qed.

Lemma fine_blank : forall n l, In n peg_blanks -> str_eqb n (s_ "lit_noesc") = false -> str_eqb n (s_ "and") = false -> ~ defect (Rule n l).
Proof.
  intros n l B E1 E2 H. apply eqb_neq in E1, E2. apply inv_defect in H. destruct H as [[Q _]|[[Q _]|(N & x & I & D)]].
  - contradiction.
  - contradiction.
  - contradiction.
Qed.

Lemma fine_b : forall k, ~ defect (b_node k).
Proof. intro k. apply fine_blank; [left; reflexivity|reflexivity|reflexivity]. Qed.
Lemma fine_b1 : forall k, ~ defect (b1_node k).
Proof. intro k. apply fine_blank; [right; left; reflexivity|reflexivity|reflexivity]. Qed.
Lemma fine_be : forall k, ~ defect (be_node k).
Proof. intro k. apply fine_blank; [right; right; left; reflexivity|reflexivity|reflexivity]. Qed.

Ltac fine := repeat match goal with
  | |- forall x, In x _ -> ~ defect x => let x := fresh "x" in let I := fresh "I" in intros x I; cbn [In app] in I
  | I : _ \/ _ |- ~ defect _ => destruct I as [I|I]
  | I : False |- _ => destruct I
  | I : _ = ?x |- ~ defect ?x => subst x
  | |- ~ defect (Val _) => apply fine_val
  | |- ~ defect (v1 _) => apply fine_val
  | |- ~ defect (b_node _) => apply fine_b
  | |- ~ defect (b1_node _) => apply fine_b1
  | |- ~ defect (be_node _) => apply fine_be
  | |- ~ defect _ => assumption
  | |- ~ defect (Rule _ _) => apply fine_rule; [reflexivity|reflexivity|]
  end.

Lemma fine_vals : forall cs x, In x (map v1 cs) -> ~ defect x.
Proof. intros cs x I. apply in_map_iff in I. destruct I as (c & <- & _). apply fine_val. Qed.

Lemma defect_in : forall n l x, name_in peg_blanks n = false -> In x l -> defect x -> defect (Rule n l).
Proof.
  intros n l x B I D. apply (dfx_in n l x); [|exact I|exact D]. intro H. cbn in B, H.
  destruct H as [<-|[<-|[<-|[]]]]; discriminate.
Qed.

Definition fits {A} (x : node) (o : option A) : Prop := match o with None => defect x | Some _ => ~ defect x end.

Lemma fits_map : forall A B (g : A -> B) x o, fits x (option_map g o) <-> fits x o.
Proof. intros A B g x [a|]; reflexivity. Qed.

(** One interesting child. *)
Lemma fits_child : forall A n l x (o : option A), fits x o -> In x l -> name_in peg_blanks n = false ->
  ((forall y, In y l -> y = x \/ ~ defect y) -> ~ defect x -> ~ defect (Rule n l)) -> (forall y, In y l -> y = x \/ ~ defect y) -> fits (Rule n l) o.
Proof.
  intros A n l x o F I B G H. destruct o as [a|]; cbn in *; [apply G; assumption|]. exact (defect_in n l x B I F).
Qed.

Lemma fits_rule : forall A n l x (o : option A), fits x o -> In x l -> name_in peg_blanks n = false ->
  str_eqb n (s_ "lit_noesc") = false -> str_eqb n (s_ "and") = false ->
  (forall y, In y l -> y = x \/ ~ defect y) -> fits (Rule n l) o.
Proof.
  intros A n l x o F I B E1 E2 H. eapply fits_child; try eassumption. intros H' D. apply fine_rule; [exact E1|exact E2|].
  intros y Iy. destruct (H' y Iy) as [->|N]; assumption.
Qed.

Lemma sym_fine : forall x n, t_sym x n -> ~ defect x.
Proof. intros x n H. destruct H as [n N]. fine. exact (fine_vals _ _ I). Qed.

Lemma dots_fine : forall l m, t_dots l m -> forall x, In x l -> ~ defect x.
Proof.
  intros l m H. induction H as [|x n l m S D IH]; intros y I; [destruct I|]. cbn in I.
  destruct I as [<-|[<-|I]]; [apply fine_val|exact (sym_fine _ _ S)|exact (IH y I)].
Qed.

Lemma name_fine : forall x n, t_name x n -> ~ defect x.
Proof.
  intros x n H. destruct H as [x n l m S D|x n l m S D]; pose proof (sym_fine _ _ S); fine; exact (dots_fine _ _ D _ I).
Qed.

Lemma elems_fine : forall l v, t_elems l v -> forall x, In x l -> ~ defect x.
Proof.
  intros l v H. induction H as [|x v l w E D IH]; intros y I; [destruct I|]. destruct I as [<-|I]; [|exact (IH y I)].
  destruct E; fine.
Qed.

Lemma fine_q1 : ~ defect q1_node. Proof. unfold q1_node. fine. Qed.
Lemma fine_q2 : ~ defect q2_node. Proof. unfold q2_node. fine. Qed.

Lemma lit_fits : forall x o, t_lit x o -> fits x o.
Proof.
  intros x o H. destruct H as [body|l v E].
  - destruct body as [|c body]; cbn [fits map app].
    + apply (defect_in _ _ (Rule (s_ "lit_noesc") [q1_node; q1_node])); [reflexivity|left; reflexivity|constructor].
    + fine. intro H. apply inv_defect in H. destruct H as [[_ Q]|[[Q _]|(N & x & I & D)]].
      * rewrite app_comm_cons in Q. cbn in Q. rewrite app_length in Q. cbn in Q. lia.
      * discriminate Q.
      * destruct I as [<-|[<-|I]]; [exact (fine_q1 D)|exact (fine_val _ D)|]. apply in_app_iff in I.
        destruct I as [I|[<-|[]]]; [exact (fine_vals _ _ I D)|exact (fine_q1 D)].
  - cbn [fits]. fine; [exact fine_q2|]. apply in_app_iff in I. destruct I as [I|[<-|[]]]; [exact (elems_fine _ _ E _ I)|exact fine_q2].
Qed.

Lemma class_fine : forall x cs rg, t_class x cs rg -> ~ defect x.
Proof.
  assert (R : forall rg x, In x (map range_node rg) -> ~ defect x).
  { intros rg x I. apply in_map_iff in I. destruct I as (p & <- & _). unfold range_node. fine. }
  intros x cs rg H. destruct H as [cs rg N|rg N]; fine.
  - exact (fine_vals _ _ I).
  - apply in_app_iff in I. destruct I as [I|[<-|[]]]; [exact (R _ _ I)|apply fine_val].
  - apply in_app_iff in I. destruct I as [I|[<-|[]]]; [exact (R _ _ I)|apply fine_val].
Qed.

Ltac kids := let y := fresh "y" in let I := fresh "I" in
  intros y I; cbn [In] in I; repeat (destruct I as [I|I]); try contradiction; subst y;
  first [left; reflexivity|right; fine].

Ltac one_kid F := eapply fits_rule; [exact F|cbn [In]; tauto|reflexivity|reflexivity|reflexivity|kids].

Lemma atom_fits : forall x o, t_atom x o -> fits x o.
Proof.
  intros x o H. destruct H as [x o L|x cs rg C|x n N|].
  - apply fits_map. pose proof (lit_fits x o L) as F. one_kid F.
  - cbn. pose proof (class_fine _ _ _ C). fine.
  - cbn. pose proof (name_fine _ _ N). fine.
  - cbn. fine.
Qed.

Lemma error_fits : forall x o, t_error x o -> fits x o.
Proof. intros x o H. destruct H as [k1 k2 k3 x o L]. pose proof (lit_fits x o L) as F. one_kid F. Qed.

Lemma seq_is_and : forall y o, t_seq y o -> is_rule (s_ "and") y = true.
Proof. intros y o H. destruct H; reflexivity. Qed.
Lemma item_not_and : forall y o, t_item y o -> is_rule (s_ "and") y = false.
Proof. intros y o H. destruct H; reflexivity. Qed.
Lemma error_not_and : forall y o, t_error y o -> is_rule (s_ "and") y = false.
Proof. intros y o H. destruct H; reflexivity. Qed.

Lemma exprs_fit : (forall x o, t_unit x o -> fits x o) /\ (forall x o, t_item x o -> fits x o) /\
  (forall x o, t_seq x o -> fits x o) /\ (forall x o, t_choice x o -> fits x o) /\ (forall x o, t_expr x o -> fits x o).
Proof.
  apply t_expr_ind5.
  - intros x o A. pose proof (atom_fits x o A) as F. one_kid F.
  - intros k1 k2 x o T F.
    assert (P : fits (Rule (s_ "parenth") [Val (s_ "("); b_node k1; x; b_node k2; Val (s_ ")")]) o) by one_kid F. one_kid P.
  - intros x o T F. one_kid F.
  - intros x o T F. apply fits_map. one_kid F.
  - intros x o T F. apply fits_map. one_kid F.
  - intros x o T F. apply fits_map. one_kid F.
  - intros x o T F. apply fits_map. one_kid F.
  - intros x o T. apply fits_map. pose proof (error_fits x o T) as F. eapply fits_child; [exact F|left; reflexivity|reflexivity| |kids].
    intros _ D. apply fine_and; [|fine]. cbn [filter]. rewrite (error_not_and x o T). cbn. lia.
  - intros x o T F. apply fits_map. eapply fits_child; [exact F|left; reflexivity|reflexivity| |kids].
    intros _ D. apply fine_and; [|fine]. cbn [filter]. rewrite (item_not_and x o T). cbn. lia.
  - intros x l T F. cbn in *. eapply defect_in; [reflexivity|left; reflexivity|exact F].
  - intros x e k1 k2 y o T1 F1 T2 F2. apply fits_map. cbn in F1.
    eapply fits_child with (x := y); [exact F2|cbn; tauto|reflexivity| |kids].
    intros _ D. apply fine_and; [|fine].
    change (length (filter (is_rule (s_ "and")) [x; b1_node k1; b_node k2; y]) <= 1).
    cbn [filter]. rewrite (item_not_and _ _ T1), (seq_is_and _ _ T2).
    change (is_rule (s_ "and") (b1_node k1)) with false. change (is_rule (s_ "and") (b_node k2)) with false. cbn. lia.
  - intros x e k1 k2 y o k3 k4 k5 l T1 F1 T2 F2. cbn [fits]. apply dfx_two. cbn [filter]. rewrite (item_not_and _ _ T1), (seq_is_and _ _ T2).
    change (is_rule (s_ "and") (b1_node k1)) with false. change (is_rule (s_ "and") (b_node k2)) with false.
    change (is_rule (s_ "and") (b1_node k3)) with false. change (is_rule (s_ "and") (b_node k4)) with false.
    change (is_rule (s_ "and") (Rule (s_ "and") k5)) with true. cbn [length]. lia.
  - intros x o T F. apply fits_map. one_kid F.
  - intros x l T F. cbn in *. eapply defect_in; [reflexivity|left; reflexivity|exact F].
  - intros x es k1 k2 y o T1 F1 T2 F2. apply fits_map. cbn in F1. one_kid F2.
  - intros x o T F. apply fits_map. one_kid F.
Qed.

Lemma grammars_fit : (forall x o, t_def x o -> fits x o) /\
  (forall l o, t_defs l o -> match o with None => exists x, In x l /\ defect x | Some _ => forall x, In x l -> ~ defect x end) /\
  (forall x o, t_grammar x o -> fits x o).
Proof.
  apply t_grammar_ind3.
  - intros k1 x n k2 k3 y o k4 k5 T1 T2. apply fits_map. pose proof (name_fine _ _ T1).
    pose proof (proj2 (proj2 (proj2 (proj2 exprs_fit))) y o T2) as F. one_kid F.
  - intros k1 x m k2 k3 y o k4 k5 k6 T1 T2 F. apply fits_map. pose proof (sym_fine _ _ T1). one_kid F.
  - intros x [].
  - intros x l T F _. exists x. split; [left; reflexivity|exact F].
  - intros x d l o T F Tl Fl. cbn in F. destruct o as [ds|]; cbn [option_map].
    + intros y [<-|I]; [exact F|exact (Fl y I)].
    + destruct Fl as (y & I & D). exists y. split; [right; exact I|exact D].
  - intros l o T F. destruct o as [ds|]; cbn [fits].
    + apply fine_rule; [reflexivity|reflexivity|exact F].
    + destruct F as (y & I & D). eapply defect_in; [reflexivity|exact I|exact D].
Qed.

Lemma main_fits : forall x o, t_grammar x o -> (o = None <-> defect (Rule (s_ "main") [x])).
Proof.
  intros x o T. pose proof (proj2 (proj2 grammars_fit) x o T) as F. destruct o as [l|]; cbn in F.
  - split; [discriminate|]. intro D. exfalso. revert D. change (~ defect (Rule (s_ "main") [x])). fine.
  - split; [intros _|reflexivity]. eapply defect_in; [reflexivity|left; reflexivity|exact F].
Qed.
