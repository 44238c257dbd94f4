(** Proofs: rows of fields. *)
From Verif Require Import Base ModelAst ModelParser ModelCost SpecPeg SpecPos SpecApi SpecPower SpecLines SpecTable SpecFields.
From Verif Require Import ProofParser ProofEngine ProofPower ProofLines ProofFields.

Section Rows.
Variable rs : rules.
Variable e : expr.
Variables f r : char.
Hypothesis SR : sane_rules rs.
Hypothesis SE : sane e.
Hypothesis MU : main_unused rs [e].
Hypothesis SF : stranger (grammar_of rs) f e.
Hypothesis SRr : stranger (grammar_of rs) r e.
Hypothesis D : f <> r.
Let row := And [e; rep0 (And [lit [f]; e]) 0].

Lemma row_refs : forall n, has_ref n row -> has_ref n e.
Proof.
  intros n H. inversion H as [|x es I H1| | |]; subst. destruct I as [<-|[<-|[]]]; [exact H1|].
  inversion H1 as [| | | |x mn mx H2]; subst. inversion H2 as [|y ys I H3| | |]; subst. destruct I as [<-|[<-|[]]]; [inversion H3|exact H3].
Qed.
Lemma row_atoms : forall a, has_atom a row -> has_atom a e \/ a = Literal [f].
Proof.
  intros a H. inversion H as [|x es I H1| | |]; subst. destruct I as [<-|[<-|[]]]; [left; exact H1|].
  inversion H1 as [| | | |x mn mx H2]; subst. inversion H2 as [|y ys I H3| | |]; subst. destruct I as [<-|[<-|[]]]; [inversion H3; right; reflexivity|left; exact H3].
Qed.
Lemma row_fits : sane row /\ main_unused rs [row] /\ stranger (grammar_of rs) r row.
Proof.
  split; [cbn; repeat split; exact SE|]. split.
  - destruct MU as [M1 M2]. split; [exact M1|]. constructor; [|constructor]. inversion M2 as [|? ? N _]; subst. intro H. exact (N (row_refs _ H)).
  - intros a U. inversion U as [x b H|n x x' b H E U']; subst.
    + destruct (row_atoms a H) as [H' | ->]; [exact (SRr a (us_here _ e a H'))|]. cbn. intros [X|[]]. exact (D X).
    + exact (SRr a (us_rule _ n e x' a (row_refs n H) E U')).
Qed.

Lemma row_iff : forall l ks, ascii l -> reads rs row l ks <-> exists fields kss, fields <> [] /\ l = join f fields /\ Forall2 (reads rs e) fields kss /\ ks = join_kids f kss.
Proof.
  intros l ks A. refine (iff_trans (fields_accepted rs e f SR SE MU SF [] (or_introl eq_refl) l false (Rule main ks) A) _). split.
  - intros (fs & kss & Z & F & [(E & X) | (X & _)]); [|discriminate]. injection X as ->. exists fs, kss. repeat split; assumption.
  - intros (fs & kss & Z & E & F & ->). exists fs, kss. split; [exact Z|]. split; [exact F|]. left. split; [exact E|reflexivity].
Qed.

Lemma rows_of : forall ls kss, ascii (ended r ls) -> Forall2 (reads rs row) ls kss ->
  exists rows ksss, ls = map (join f) rows /\ kss = map (join_kids f) ksss /\ Forall2 (fun fields kss => fields <> [] /\ Forall2 (reads rs e) fields kss) rows ksss.
Proof.
  intros ls kss A F. induction F as [|l ks ls kss H F IH]; [exists [], []; repeat split; constructor|].
  unfold ended in A. cbn [flat_map] in A. apply Forall_app in A. destruct A as [A1 A2]. apply Forall_app in A1. destruct A1 as [A1 _].
  destruct (IH A2) as (rows & ksss & -> & -> & H2). apply (row_iff l ks A1) in H. destruct H as (fs & k & Z & -> & H & ->).
  exists (fs :: rows), (k :: ksss). split; [reflexivity|]. split; [reflexivity|]. constructor; [split; assumption|exact H2].
Qed.
Lemma of_rows : forall rows ksss, ascii (ended r (map (join f) rows)) -> Forall2 (fun fields kss => fields <> [] /\ Forall2 (reads rs e) fields kss) rows ksss ->
  Forall2 (reads rs row) (map (join f) rows) (map (join_kids f) ksss).
Proof.
  intros rows ksss A F. induction F as [|fs k rows ksss [Z H] F IH]; [constructor|].
  unfold ended in A. cbn [map flat_map] in A. apply Forall_app in A. destruct A as [A1 A2]. apply Forall_app in A1. destruct A1 as [A1 _].
  cbn [map]. constructor; [|exact (IH A2)]. apply (row_iff _ _ A1). exists fs, k. repeat split; assumption.
Qed.
End Rows.
