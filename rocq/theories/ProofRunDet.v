(** The number of calls of a run is determined, and can be read off the parser. *)
From Verif Require Import Base ModelAst ModelParser ModelCost SpecPeg SpecPos SpecApi ProofParser ProofEngine ProofApi PegTools ProofRun.

Section Det.
Variable G : str -> option expr.

Lemma costs_det :
  (forall e s o k, costs G e s o k -> o <> OC -> forall o' k', costs G e s o' k' -> o' <> OC -> o = o' /\ k = k') /\
  (forall es s o k, costs_and G es s o k -> o <> OC -> forall o' k', costs_and G es s o' k' -> o' <> OC -> o = o' /\ k = k') /\
  (forall es s o k, costs_or G es s o k -> o <> OC -> forall o' k', costs_or G es s o' k' -> o' <> OC -> o = o' /\ k = k') /\
  (forall e mn mx s o k, costs_rep G e mn mx s o k -> o <> OC -> forall o' k', costs_rep G e mn mx s o' k' -> o' <> OC -> o = o' /\ k = k').
Proof.
  assert (HN : forall o, halts o -> o <> OC -> o = OA) by (intros o [->| ->] N; congruence).
  apply (costs_mind G).
  - intros e s N. congruence.
  - intros a s N. congruence.
  - intros a s ts rest P _ o' k' H N'. inversion H as [| |? ? ? ? Q|? ? Q|? ? ? ? Q| | | | | | | |]; subst; try congruence; pose proof (peg_det _ _ _ _ P _ Q) as X; try discriminate X.
    injection X as -> ->. auto.
  - intros a s P _ o' k' H N'. inversion H as [| |? ? ? ? Q|? ? Q|? ? ? ? Q| | | | | | | |]; subst; try congruence; pose proof (peg_det _ _ _ _ P _ Q) as X; try discriminate X; auto.
  - intros a s m rest P _ o' k' H N'. inversion H as [| |? ? ? ? Q|? ? Q|? ? ? ? Q| | | | | | | |]; subst; try congruence; pose proof (peg_det _ _ _ _ P _ Q) as X; try discriminate X; auto.
  - intros es s o k _ IH N o' k' H N'. inversion H as [| | | | |? ? ? ? Q| | | | | | |]; subst; try congruence. destruct (IH N _ _ Q N') as [-> ->]. auto.
  - intros es s o k _ IH N o' k' H N'. inversion H as [| | | | | |? ? ? ? Q| | | | | |]; subst; try congruence. destruct (IH N _ _ Q N') as [-> ->]. auto.
  - intros e s rest k _ IH N o' k' H N'. inversion H as [| | | | | | |? ? ? ? Q|? ? ? ? Q D|? ? ? ? Q| | |]; subst; try congruence.
    + destruct (IH ltac:(discriminate) _ _ Q ltac:(discriminate)) as [_ ->]. auto.
    + destruct (IH ltac:(discriminate) _ _ Q ltac:(destruct D; congruence)) as [<- _]. destruct D; discriminate.
  - intros e s o k _ IH D N o' k' H N'. assert (NO : o <> OC) by (destruct D; congruence).
    inversion H as [| | | | | | |? ? ? ? Q|? ? ? ? Q D'|? ? ? ? Q| | |]; subst; try congruence.
    + destruct (IH NO _ _ Q ltac:(discriminate)) as [-> _]. destruct D; discriminate.
    + destruct (IH NO _ _ Q ltac:(destruct D'; congruence)) as [_ ->]. auto.
  - intros e s o k _ _ N. congruence.
  - intros e mn mx s o k _ IH N o' k' H N'. inversion H as [| | | | | | | | | |? ? ? ? ? ? Q| |]; subst; try congruence. destruct (IH N _ _ Q N') as [-> ->]. auto.
  - intros n e s o k E _ IH N o' k' H N'. inversion H as [| | | | | | | | | | |? ? ? ? ? E' Q|? ? ? E' Q]; subst; try congruence.
    rewrite E in E'. injection E' as <-. destruct (IH N _ _ Q N') as [-> ->]. auto.
  - intros n s o E D N o' k' H N'. inversion H as [| | | | | | | | | | |? ? ? ? ? E' Q|? ? ? E' Q]; subst; try congruence.
    rewrite (HN _ D N), (HN _ Q N'). auto.
  - intros s _ o' k' H N'. inversion H; subst; auto.
  - intros e es s s1 o k k0 _ IH1 _ IH2 N o' k' H N'. inversion H as [|? ? ? ? ? ? ? Q1 Q2|? ? ? ? Q|? ? ? ? ? Q D]; subst.
    + destruct (IH1 ltac:(discriminate) _ _ Q1 ltac:(discriminate)) as [E ->]. injection E as <-. destruct (IH2 N _ _ Q2 N') as [-> ->]. auto.
    + destruct (IH1 ltac:(discriminate) _ _ Q ltac:(discriminate)) as [E _]. discriminate E.
    + destruct (IH1 ltac:(discriminate) _ _ Q N') as [E _]. subst. destruct D; discriminate.
  - intros e es s k _ IH _ o' k' H N'. inversion H as [|? ? ? ? ? ? ? Q1 Q2|? ? ? ? Q|? ? ? ? ? Q D]; subst.
    + destruct (IH ltac:(discriminate) _ _ Q1 ltac:(discriminate)) as [E _]. discriminate E.
    + destruct (IH ltac:(discriminate) _ _ Q ltac:(discriminate)) as [_ ->]. auto.
    + destruct (IH ltac:(discriminate) _ _ Q N') as [E _]. subst. destruct D; discriminate.
  - intros e es s o k _ IH D N o' k' H N'. inversion H as [|? ? ? ? ? ? ? Q1 Q2|? ? ? ? Q|? ? ? ? ? Q D']; subst.
    + destruct (IH N _ _ Q1 ltac:(discriminate)) as [E _]. subst. destruct D; discriminate.
    + destruct (IH N _ _ Q ltac:(discriminate)) as [E _]. subst. destruct D; discriminate.
    + exact (IH N _ _ Q N').
  - intros s _ o' k' H N'. inversion H; subst; [auto|congruence].
  - intros s N. congruence.
  - intros e es s s1 k _ IH _ o' k' H N'. inversion H as [| |? ? ? ? ? Q|? ? ? ? ? Q D|? ? ? ? ? ? Q1 Q2]; subst.
    + exact (IH ltac:(discriminate) _ _ Q ltac:(discriminate)).
    + exact (IH ltac:(discriminate) _ _ Q N').
    + destruct (IH ltac:(discriminate) _ _ Q1 ltac:(discriminate)) as [E _]. discriminate E.
  - intros e es s o k _ IH D N o' k' H N'. inversion H as [| |? ? ? ? ? Q|? ? ? ? ? Q D'|? ? ? ? ? ? Q1 Q2]; subst.
    + exact (IH N _ _ Q ltac:(discriminate)).
    + exact (IH N _ _ Q N').
    + destruct (IH N _ _ Q1 ltac:(discriminate)) as [E _]. subst. destruct D; discriminate.
  - intros e es s o k k0 _ IH1 _ IH2 N o' k' H N'. inversion H as [| |? ? ? ? ? Q|? ? ? ? ? Q D|? ? ? ? ? ? Q1 Q2]; subst.
    + destruct (IH1 ltac:(discriminate) _ _ Q ltac:(discriminate)) as [E _]. discriminate E.
    + destruct (IH1 ltac:(discriminate) _ _ Q N') as [E _]. subst. destruct D; discriminate.
    + destruct (IH1 ltac:(discriminate) _ _ Q1 ltac:(discriminate)) as [_ ->]. destruct (IH2 N _ _ Q2 N') as [-> ->]. auto.
  - intros e mn mx s N. congruence.
  - intros e mn s s1 k _ IH _ o' k' H N'. inversion H as [|? ? ? ? ? Q|? ? ? ? ? ? ? ? X Q1 Q2|? ? ? ? Q|? ? ? ? ? L Q|? ? ? ? ? ? Q D]; subst; try congruence.
    + exact (IH ltac:(discriminate) _ _ Q ltac:(discriminate)).
    + destruct (IH ltac:(discriminate) _ _ Q ltac:(discriminate)) as [E _]. discriminate E.
    + destruct (IH ltac:(discriminate) _ _ Q ltac:(discriminate)) as [E _]. discriminate E.
    + destruct (IH ltac:(discriminate) _ _ Q N') as [E _]. subst. destruct D; discriminate.
  - intros e mn mx s s1 o k k0 X _ IH1 _ IH2 N o' k' H N'. inversion H as [|? ? ? ? ? Q|? ? ? ? ? ? ? ? X' Q1 Q2|? ? ? ? Q|? ? ? ? ? L Q|? ? ? ? ? ? Q D]; subst; try congruence.
    + destruct (IH1 ltac:(discriminate) _ _ Q1 ltac:(discriminate)) as [E ->]. injection E as <-. destruct (IH2 N _ _ Q2 N') as [-> ->]. auto.
    + destruct (IH1 ltac:(discriminate) _ _ Q ltac:(discriminate)) as [E _]. discriminate E.
    + destruct (IH1 ltac:(discriminate) _ _ Q ltac:(discriminate)) as [E _]. discriminate E.
    + destruct (IH1 ltac:(discriminate) _ _ Q N') as [E _]. subst. destruct D; discriminate.
  - intros e mx s k _ IH _ o' k' H N'. inversion H as [|? ? ? ? ? Q|? ? ? ? ? ? ? ? X' Q1 Q2|? ? ? ? Q|? ? ? ? ? L Q|? ? ? ? ? ? Q D]; subst; try congruence; try lia.
    + destruct (IH ltac:(discriminate) _ _ Q ltac:(discriminate)) as [E _]. discriminate E.
    + destruct (IH ltac:(discriminate) _ _ Q1 ltac:(discriminate)) as [E _]. discriminate E.
    + destruct (IH ltac:(discriminate) _ _ Q ltac:(discriminate)) as [_ ->]. auto.
    + destruct (IH ltac:(discriminate) _ _ Q N') as [E _]. subst. destruct D; discriminate.
  - intros e mn mx s k L _ IH _ o' k' H N'. inversion H as [|? ? ? ? ? Q|? ? ? ? ? ? ? ? X' Q1 Q2|? ? ? ? Q|? ? ? ? ? L' Q|? ? ? ? ? ? Q D]; subst; try congruence; try lia.
    + destruct (IH ltac:(discriminate) _ _ Q ltac:(discriminate)) as [E _]. discriminate E.
    + destruct (IH ltac:(discriminate) _ _ Q1 ltac:(discriminate)) as [E _]. discriminate E.
    + destruct (IH ltac:(discriminate) _ _ Q ltac:(discriminate)) as [_ ->]. auto.
    + destruct (IH ltac:(discriminate) _ _ Q N') as [E _]. subst. destruct D; discriminate.
  - intros e mn mx s o k _ IH D N o' k' H N'. inversion H as [|? ? ? ? ? Q|? ? ? ? ? ? ? ? X' Q1 Q2|? ? ? ? Q|? ? ? ? ? L' Q|? ? ? ? ? ? Q D']; subst; try congruence.
    + destruct (IH N _ _ Q ltac:(discriminate)) as [E _]. subst. destruct D; discriminate.
    + destruct (IH N _ _ Q1 ltac:(discriminate)) as [E _]. subst. destruct D; discriminate.
    + destruct (IH N _ _ Q ltac:(discriminate)) as [E _]. subst. destruct D; discriminate.
    + destruct (IH N _ _ Q ltac:(discriminate)) as [E _]. subst. destruct D; discriminate.
    + exact (IH N _ _ Q N').
Qed.
End Det.

(** The calls of a parse that ends are those of the run. *)
Lemma parse_calls_run : forall rs s fuel d o k, sane_rules rs -> ascii s -> parse_with_debug fuel s rs d <> Fuel ->
  costs (grammar_of rs) (RuleName main) s o k -> o <> OC -> S (parse_calls fuel s rs d) = k.
Proof.
  intros rs s fuel d o k SR A NF H N.
  pose proof (expr_counts rs SR (S fuel) (status_init_debug s d) (RuleName main) I (inv_init s d)) as R.
  change (tally Nat.add rs (S fuel) (status_init_debug s d) (RuleName main)) with (S (parse_calls fuel s rs d)) in R.
  change (it_parsing (status_init_debug s d)) with s in R.
  refine (proj2 (proj1 (costs_det (grammar_of rs)) _ _ _ _ R _ _ _ H N)).
  rewrite expression_parse_expr. pose proof (parse_no_panic fuel s rs d A) as NP. rewrite parse_unfold in NF, NP.
  destruct (expression_parse rs fuel (status_init_debug s d)) as [[st nd]|er| |]; cbn [bind ends] in *; [discriminate| |congruence|congruence].
  destruct (is_critical (e_priority er)); discriminate.
Qed.
