(** Which children the nodes of a tree can have. *)
From Verif Require Import Base ModelAst ModelParser SpecPeg SpecPos SpecApi SpecAst SpecWf SpecBnf SpecShape.
From Verif Require Import ProofParser ProofEngine ProofApi ProofAst ProofWf ProofBnf.

(** A node with its list of siblings. *)
Definition fit (W : shapes) (l : list node) : Prop := forall n kids, In (Rule n kids) l \/ (exists y, In y l /\ below (Rule n kids) y) -> W n (map item_of kids).

Lemma fits_rule : forall W n l, fits W (Rule n l) <-> W n (map item_of l) /\ fit W l.
Proof.
  intros W n l. split.
  - intro F. split; [apply F; left; reflexivity|]. intros m kids [IN|(y & IN & B)]; apply F; right; [apply below_child; exact IN|exact (below_deep _ _ _ _ IN B)].
  - intros [H F] m kids [E|B]; [injection E as -> ->; exact H|]. inversion B as [? ? IN|? y ? IN B']; subst; apply F; [left; exact IN|right; exists y; auto].
Qed.

Lemma fit_cons : forall W x l, fit W (x :: l) <-> fits W x /\ fit W l.
Proof.
  intros W x l. split.
  - intro F. split; [intros n kids [->|B]; apply F; [left; left; reflexivity|right; exists x; split; [left; reflexivity|exact B]]|].
    intros n kids [IN|(y & IN & B)]; apply F; [left; right; exact IN|right; exists y; split; [right; exact IN|exact B]].
  - intros [H F] n kids [[E|IN]|(y & [<-|IN] & B)]; [apply H; left; exact E|apply F; left; exact IN|apply H; right; exact B|apply F; right; exists y; auto].
Qed.

Lemma fit_nil : forall W, fit W [].
Proof. intros W n kids [[]|(y & [] & _)]. Qed.

Lemma fit_app : forall W a b, fit W (a ++ b) <-> fit W a /\ fit W b.
Proof.
  intros W a b. induction a as [|x a IH]; cbn [app]; [split; [intro F; split; [apply fit_nil|exact F]|intros [_ F]; exact F]|]. rewrite !fit_cons, IH. tauto.
Qed.

Lemma fits_leaf : forall W nd, (forall n l, nd <> Rule n l) -> fits W nd.
Proof. intros W nd N n kids [E|B]; [exfalso; exact (N _ _ E)|]. inversion B; subst; exfalso; exact (N _ _ eq_refl). Qed.

(** * Parsing *)

Lemma derives_kinds : forall rs e w ts, derives (grammar_of rs) e w ts -> kinds e (map item_of ts) /\ fit (rule_shapes rs) ts.
Proof.
  intros rs e w ts D. induction D as [l|cs rs' c IC|c| | |e es w v ts us D [K1 F1] D' [K2 F2]|e es w ts IN D [K F]|e|e mx|e mn mx w v ts us N D [K1 F1] D' [K2 F2]|n e w ts E D [K F]].
  1-4: (split; [apply k_atom; discriminate|apply fit_cons; split; [apply fits_leaf; discriminate|apply fit_nil]]).
  - split; [constructor|apply fit_nil].
  - rewrite map_app. split; [constructor; assumption|apply fit_app; auto].
  - split; [econstructor; eassumption|exact F].
  - split; [constructor|apply fit_nil].
  - split; [constructor|apply fit_nil].
  - rewrite map_app. split; [constructor; assumption|apply fit_app; auto].
  - split; [constructor|]. apply fit_cons. split; [|apply fit_nil]. apply fits_rule. split; [|exact F]. exists e. split; [exact E|exact K].
Qed.

Lemma parse_fits : forall rs fuel s debug ast, sane_rules rs -> parse_with_debug fuel s rs debug = Ok ast -> fits (rule_shapes rs) ast.
Proof.
  intros rs fuel s debug ast SR P. apply accepted_derives in P; [|exact SR]. apply derives_kinds in P as [_ F]. apply fit_cons in F as [F _]. exact F.
Qed.

(** * The tools *)

Lemma named_in : forall names n, named names (Sub n) = true <-> In n names.
Proof.
  induction names as [|x r IH]; intro n; cbn [named In]; [split; [discriminate|intros []]|]. rewrite orb_true_iff, str_eqb_eq, IH. tauto.
Qed.

Lemma pruned_items : forall names l l', pruned names l l' -> forall W, fit W l ->
  map item_of l' = filter (fun i => negb (named names i)) (map item_of l) /\ fit (without names W) l'.
Proof.
  intros names l l' P. induction P as [|v l l' _ IH|l l' _ IH|n k l l' IN _ IH|n k k' l l' NI _ IHk _ IH]; intros W F.
  - split; [reflexivity|apply fit_nil].
  - apply fit_cons in F as [_ F]. destruct (IH W F) as [E F']. split; [destruct names; cbn; rewrite E; reflexivity|]. apply fit_cons. split; [apply fits_leaf; discriminate|exact F'].
  - apply fit_cons in F as [_ F]. destruct (IH W F) as [E F']. split; [destruct names; cbn; rewrite E; reflexivity|]. apply fit_cons. split; [apply fits_leaf; discriminate|exact F'].
  - apply fit_cons in F as [_ F]. destruct (IH W F) as [E F']. split; [|exact F']. cbn [map item_of filter]. rewrite (proj2 (named_in names n) IN). exact E.
  - apply fit_cons in F as [H F]. apply fits_rule in H as [H Fk]. destruct (IH W F) as [E F']. destruct (IHk W Fk) as [Ek Fk'].
    split.
    + cbn [map item_of filter]. destruct (named names (Sub n)) eqn:X; [apply named_in in X; contradiction|]. cbn [negb]. rewrite E. reflexivity.
    + apply fit_cons. split; [|exact F']. apply fits_rule. split; [|exact Fk']. exists (map item_of k). auto.
Qed.

Lemma prune_fits : forall W names nd, fits W nd -> fits (without names W) (prune names nd).
Proof.
  intros W names [v|n l|] F; [apply fits_leaf; discriminate| |apply fits_leaf; discriminate]. apply fits_rule in F as [H F].
  assert (exists l', prune names (Rule n l) = Rule n l' /\ pruned names l l') as (l' & E & P).
  { exists (prune_list names l). split; [apply prune_spec|]; apply prune_list_pruned. }
  rewrite E. destruct (pruned_items names l l' P W F) as [E' F']. apply fits_rule. split; [exists (map item_of l); auto|exact F'].
Qed.

Lemma merge_run : forall k r, (forall r', r <> Leaf :: r') -> merge (repeat Leaf (S k) ++ r) = Leaf :: merge r.
Proof.
  induction k as [|k IH]; intros r N.
  - cbn [repeat app merge]. destruct r as [|[| |n] r]; try reflexivity. exfalso. exact (N r eq_refl).
  - change (merge (repeat Leaf (S (S k)) ++ r)) with (merge (repeat Leaf (S k) ++ r)). apply IH. exact N.
Qed.

Lemma map_vals : forall vs, map item_of (map Val vs) = repeat Leaf (length vs).
Proof. induction vs as [|v vs IH]; [reflexivity|]. cbn. rewrite IH. reflexivity. Qed.

Lemma compacted_items : forall l l', compacted l l' -> forall W, fit W l -> map item_of l' = merge (map item_of l) /\ fit (merged W) l'.
Proof.
  intros l l' P. induction P as [|l l' _ IH|n k k' l l' _ IHk _ IH|vs l l' NE NS _ IH]; intros W F.
  - split; [reflexivity|apply fit_nil].
  - apply fit_cons in F as [_ F]. destruct (IH W F) as [E F']. split; [cbn; rewrite E; reflexivity|]. apply fit_cons. split; [apply fits_leaf; discriminate|exact F'].
  - apply fit_cons in F as [H F]. apply fits_rule in H as [H Fk]. destruct (IH W F) as [E F']. destruct (IHk W Fk) as [Ek Fk'].
    split; [cbn; rewrite E; reflexivity|]. apply fit_cons. split; [|exact F']. apply fits_rule. split; [|exact Fk']. exists (map item_of k). auto.
  - apply fit_app in F as [_ F]. destruct (IH W F) as [E F']. split.
    + rewrite map_app, map_vals. destruct vs as [|v vs]; [contradiction|]. cbn [map item_of length]. rewrite merge_run; [rewrite E; reflexivity|].
      intros r' X. apply NS. destruct l as [|[u|n k|] l]; [discriminate| |discriminate|discriminate]. exists u, l. reflexivity.
    + apply fit_cons. split; [apply fits_leaf; discriminate|exact F'].
Qed.

Lemma compact_fits : forall W nd, fits W nd -> fits (merged W) (compact nd).
Proof.
  intros W [v|n l|] F; [apply fits_leaf; discriminate| |apply fits_leaf; discriminate]. apply fits_rule in F as [H F].
  assert (exists l', compact (Rule n l) = Rule n l' /\ compacted l l') as (l' & E & P).
  { exists (compact_loop [] l). split; [apply compact_spec|]; apply compact_loop_compacted. }
  rewrite E. destruct (compacted_items l l' P W F) as [E' F']. apply fits_rule. split; [exists (map item_of l); auto|exact F'].
Qed.

Lemma opens_app : forall names W a a', opens names W a a' -> forall b b', opens names W b b' -> opens names W (a ++ b) (a' ++ b').
Proof.
  intros names W a a' O. induction O as [|u w _ IH|u w _ IH|n u w IN _ IH|n v v' u w NI H V _ _ IH]; intros b b' O'; cbn [app]; [exact O'| | | |].
  - constructor. apply IH, O'.
  - constructor. apply IH, O'.
  - constructor; [exact IN|apply IH, O'].
  - rewrite <- app_assoc. econstructor; [exact NI|exact H|exact V|apply IH, O'].
Qed.

Lemma spliced_items : forall names l l', spliced names l l' -> forall W, fit W l -> opens names W (map item_of l) (map item_of l') /\ fit (opened names W) l'.
Proof.
  intros names l l' P. induction P as [|v l l' _ IH|l l' _ IH|n k k' l l' IN _ IHk _ IH|n k k' l l' NI _ IHk _ IH]; intros W F.
  - split; [constructor|apply fit_nil].
  - apply fit_cons in F as [_ F]. destruct (IH W F) as [E F']. split; [constructor; exact E|]. apply fit_cons. split; [apply fits_leaf; discriminate|exact F'].
  - apply fit_cons in F as [_ F]. destruct (IH W F) as [E F']. split; [constructor; exact E|]. apply fit_cons. split; [apply fits_leaf; discriminate|exact F'].
  - apply fit_cons in F as [H F]. apply fits_rule in H as [H Fk]. destruct (IH W F) as [E F']. destruct (IHk W Fk) as [Ek Fk'].
    split; [constructor; assumption|]. apply fit_cons. split; [|exact F']. apply fits_rule. split; [|exact Fk']. exists (map item_of k). auto.
  - apply fit_cons in F as [H F]. apply fits_rule in H as [H Fk]. destruct (IH W F) as [E F']. destruct (IHk W Fk) as [Ek Fk'].
    split; [|apply fit_app; auto]. rewrite map_app. econstructor; [exact NI|exact H|exact Ek|exact E].
Qed.

Lemma pass_fits : forall W names nd, fits W nd -> fits (opened names W) (pass_through_except names nd).
Proof.
  intros W names [v|n l|] F; [apply fits_leaf; discriminate| |apply fits_leaf; discriminate]. apply fits_rule in F as [H F].
  assert (exists l', pass_through_except names (Rule n l) = Rule n l' /\ spliced names l l') as (l' & E & P).
  { exists (pthr_vn names l). split; [apply pass_through_spec|]; apply pthr_spliced. }
  rewrite E. destruct (spliced_items names l l' P W F) as [E' F']. apply fits_rule. split; [exists (map item_of l); auto|exact F'].
Qed.

Lemma fits_mono : forall (W W' : shapes) nd, (forall n w, W n w -> W' n w) -> fits W nd -> fits W' nd.
Proof. intros W W' nd H F n kids X. apply H, F, X. Qed.

(** * All of them occur *)

Section All.
Variable G : str -> option expr.

(** The parts of [e] generate ASCII texts. *)
Definition alive (e : expr) : Prop := forall x, occurs x e -> exists w ts, ascii w /\ derives G x w ts.

Lemma ascii_app2 : forall a b, ascii a -> ascii b -> ascii (a ++ b).
Proof. intros a b A B. apply Forall_app. auto. Qed.

Lemma kinds_derived : forall e w, kinds e w -> (forall x, occurs x e -> (exists a, x = Simple a) \/ (exists n, x = RuleName n) -> exists v ts, ascii v /\ derives G x v ts) ->
  exists v ts, ascii v /\ derives G e v ts /\ map item_of ts = w.
Proof.
  intros e w K. induction K as [a NE| |e es w v K IH K' IH'|e es w IN K IH|e|e mx|e mn mx w v N K IH K' IH'|n]; intro AL.
  - destruct (AL (Simple a) (oc_here _)) as (v & ts & A & D); [left; eauto|]. exists v, ts. split; [exact A|]. split; [exact D|]. inversion D; reflexivity.
  - exists [], []. split; [constructor|]. split; [constructor|reflexivity].
  - destruct IH as (v1 & t1 & A1 & D1 & E1); [intros x O; apply AL; apply (oc_and _ e); [left; reflexivity|exact O]|].
    destruct IH' as (v2 & t2 & A2 & D2 & E2).
    { intros x O S. inversion O; subst; [destruct S as [[a X]|[n X]]; discriminate|]. apply AL; [|exact S]. eapply oc_and; [right; eassumption|assumption]. }
    exists (v1 ++ v2), (t1 ++ t2). split; [apply ascii_app2; assumption|]. split; [constructor; assumption|]. rewrite map_app. congruence.
  - destruct IH as (v1 & t1 & A1 & D1 & E1); [intros x O; apply AL; exact (oc_or _ e es IN O)|]. exists v1, t1. split; [exact A1|]. split; [exact (d_or G e es _ _ IN D1)|exact E1].
  - exists [], []. split; [constructor|]. split; [constructor|reflexivity].
  - exists [], []. split; [constructor|]. split; [constructor|reflexivity].
  - destruct IH as (v1 & t1 & A1 & D1 & E1); [intros x O; apply AL; apply oc_rep; exact O|].
    destruct IH' as (v2 & t2 & A2 & D2 & E2).
    { intros x O S. inversion O; subst; [destruct S as [[a X]|[n X]]; discriminate|]. apply AL; [|exact S]. apply oc_rep. assumption. }
    exists (v1 ++ v2), (t1 ++ t2). split; [apply ascii_app2; assumption|]. split; [constructor; assumption|]. rewrite map_app. congruence.
  - destruct (AL (RuleName n) (oc_here _)) as (v & ts & A & D); [right; eauto|]. exists v, ts. split; [exact A|]. split; [exact D|]. inversion D; reflexivity.
Qed.

Fixpoint no_not (e : expr) : Prop :=
  match e with
  | Simple _ | RuleName _ => True
  | And es | Or es => fold_right (fun x P => no_not x /\ P) True es
  | Not _ => False
  | Repeat e1 _ _ => no_not e1
  end.

Definition holds_tree (t : node) (l : list node) : Prop := exists y, In y l /\ (y = t \/ below t y).

Lemma holds_app : forall t a b, holds_tree t a \/ holds_tree t b -> holds_tree t (a ++ b).
Proof. intros t a b [(y & IN & H)|(y & IN & H)]; exists y; (split; [apply in_or_app; auto|exact H]). Qed.

Lemma turns : forall e k mx w ts, (match mx with Some m => k <= m | None => True end) -> ascii w -> derives G e w ts ->
  exists v us, ascii v /\ derives G (Repeat e k mx) v us.
Proof.
  induction k as [|k IH]; intros mx w ts L A D; [exists [], []; split; [constructor|constructor]|].
  destruct (IH (option_map pred mx) w ts) as (v & us & A' & D'); [destruct mx as [m|]; cbn; [lia|exact Logic.I]|exact A|exact D|].
  exists (w ++ v), (ts ++ us). split; [apply ascii_app2; assumption|]. constructor; [destruct mx as [m|]; [intro X; injection X as ->; lia|discriminate]|exact D|exact D'].
Qed.

(** A tree for a rule that an expression refers to can stand in a tree of that expression. *)
Lemma ref_derived : forall n w0 t, ascii w0 -> derives G (RuleName n) w0 [t] -> forall e, has_ref n e -> sane e -> no_not e -> alive e ->
  exists v ts, ascii v /\ derives G e v ts /\ holds_tree t ts.
Proof.
  intros n w0 t A0 D0 e R. induction R as [|e es IN R IH|e es IN R IH|e R IH|e mn mx R IH]; intros SA NN AL.
  - exists w0, [t]. split; [exact A0|]. split; [exact D0|]. exists t. split; [left; reflexivity|left; reflexivity].
  - cbn [sane no_not] in SA, NN.
    assert (S' : sane e /\ no_not e).
    { clear - IN SA NN. induction es as [|x es IHes]; [destruct IN|]. cbn [fold_right] in SA, NN. destruct SA, NN, IN as [->|IN]; [auto|apply IHes; assumption]. }
    destruct IH as (v & ts & A & D & H); [apply S'|apply S'|intros x O; apply AL; exact (oc_and _ e es IN O)|]. clear SA NN.
    assert (AL' : forall x y, In x es -> occurs y x -> exists w ts, ascii w /\ derives G y w ts) by (intros x y I' O; apply AL; exact (oc_and _ x es I' O)). clear AL.
    revert IN AL'. induction es as [|x es IHes]; intros IN AL'; [destruct IN|].
    assert (REST : exists v' ts', ascii v' /\ derives G (And es) v' ts').
    { clear - AL'. induction es as [|y es IHes]; [exists [], []; split; [constructor|constructor]|].
      destruct (AL' y y ltac:(right; left; reflexivity) (oc_here _)) as (v1 & t1 & A1 & D1).
      destruct IHes as (v2 & t2 & A2 & D2); [intros x' z [->|I']; [apply (AL' x'); left; reflexivity|apply (AL' x'); right; right; exact I']|].
      exists (v1 ++ v2), (t1 ++ t2). split; [apply ascii_app2; assumption|constructor; assumption]. }
    destruct IN as [->|IN].
    + destruct REST as (v' & ts' & A' & D'). exists (v ++ v'), (ts ++ ts'). split; [apply ascii_app2; assumption|]. split; [constructor; assumption|apply holds_app; left; exact H].
    + destruct (IHes IN (fun x' y I' => AL' x' y (or_intror I'))) as (v' & ts' & A' & D' & H'). destruct (AL' x x (or_introl eq_refl) (oc_here _)) as (v1 & t1 & A1 & D1).
      exists (v1 ++ v'), (t1 ++ ts'). split; [apply ascii_app2; assumption|]. split; [constructor; assumption|apply holds_app; right; exact H'].
  - cbn [sane no_not] in SA, NN.
    assert (S' : sane e /\ no_not e).
    { clear - IN SA NN. induction es as [|x es IHes]; [destruct IN|]. cbn [fold_right] in SA, NN. destruct SA, NN, IN as [->|IN]; [auto|apply IHes; assumption]. }
    destruct IH as (v & ts & A & D & H); [apply S'|apply S'|intros x O; apply AL; exact (oc_or _ e es IN O)|].
    exists v, ts. split; [exact A|]. split; [exact (d_or G e es _ _ IN D)|exact H].
  - destruct NN.
  - cbn [sane no_not] in SA, NN. destruct SA as [SA B].
    destruct IH as (v & ts & A & D & H); [exact SA|exact NN|intros x O; apply AL; apply oc_rep; exact O|].
    destruct (turns e (pred mn) (option_map pred mx) v ts) as (v' & ts' & A' & D'); [destruct mx as [m|]; cbn; [lia|exact Logic.I]|exact A|exact D|].
    exists (v ++ v'), (ts ++ ts'). split; [apply ascii_app2; assumption|]. split; [constructor; [destruct mx as [m|]; [intro X; injection X as ->; lia|discriminate]|exact D|exact D']|].
    apply holds_app. left. exact H.
Qed.

Lemma predictive_no_not : forall follow e F, predictive G follow e F -> no_not e.
Proof.
  intros follow. fix IH 1. intros [a|es|es|e|e mn mx|n] F P; cbn [predictive no_not] in *.
  - exact Logic.I.
  - revert P. induction es as [|x es IHes]; intro P; [exact Logic.I|]. destruct P as [P1 P2]. split; [exact (IH _ _ P1)|exact (IHes P2)].
  - revert P. induction es as [|x es IHes]; intro P; [exact Logic.I|]. destruct P as (P1 & _ & _ & P2). split; [exact (IH _ _ P1)|exact (IHes P2)].
  - exact P.
  - exact (IH _ _ (proj1 P)).
  - exact Logic.I.
Qed.

End All.

Lemma below_trans : forall a b c, below a b -> below b c -> below a c.
Proof. intros a b c AB BC. induction BC as [n l IN|n y l IN _ IH]; [exact (below_deep _ _ _ _ IN AB)|exact (below_deep _ _ _ _ IN IH)]. Qed.

(** In a predictive grammar all children that the rules say occur. *)
Lemma shapes_occur : forall rs n w, sane_rules rs -> well_formed (grammar_of rs) -> predictive_grammar (grammar_of rs) -> productive_in_ascii (grammar_of rs) ->
  reachable rs n -> rule_shapes rs n w ->
  exists s fuel ast kids, ascii s /\ parse fuel s rs = Ok ast /\ (ast = Rule n kids \/ below (Rule n kids) ast) /\ map item_of kids = w.
Proof.
  intros rs n w SR WF PG PR RE (e & E & K).
  destruct (kinds_derived (grammar_of rs) e w K) as (v & ts & A & D & EW); [intros x O _; exact (PR n e x E O)|].
  assert (NN : forall m e', rules_get rs m = Some e' -> no_not e').
  { intros m e' E'. destruct PG as (follow & _ & _ & P). exact (predictive_no_not _ follow _ _ (P m e' E')). }
  assert (UP : forall m, reachable rs m -> forall v t, ascii v -> derives (grammar_of rs) (RuleName m) v [t] ->
            exists s u, ascii s /\ derives (grammar_of rs) (RuleName main) s [u] /\ (u = t \/ below t u)).
  { intros m R. induction R as [|m e' k R IH E' HR]; intros v' t A' D'; [exists v', t; auto|].
    destruct (ref_derived (grammar_of rs) k v' t A' D' e' HR (SR _ _ E') (NN _ _ E')) as (v2 & ts2 & A2 & D2 & (y & IN & H)); [intros x O; exact (PR m e' x E' O)|].
    destruct (IH v2 (Rule m ts2) A2 (d_rule (grammar_of rs) m e' v2 ts2 E' D2)) as (s & u & AS & DU & HU). exists s, u. split; [exact AS|]. split; [exact DU|]. right.
    assert (B : below t (Rule m ts2)) by (destruct H as [->|H]; [apply below_child; exact IN|exact (below_deep _ _ _ _ IN H)]).
    destruct HU as [->|HU]; [exact B|exact (below_trans _ _ _ B HU)]. }
  destruct (UP n RE v (Rule n ts) A (d_rule (grammar_of rs) n e v ts E D)) as (s & u & AS & DU & HU).
  exists s, (depth_factor rs * (length s + 1)), u, ts. split; [exact AS|]. split; [apply (proj2 (predictive_parse rs s false _ u SR WF PG AS (le_n _))); exact DU|].
  split; [destruct HU as [->|HU]; auto|exact EW].
Qed.

(** Where all atoms can match ASCII texts, generating a text and generating an ASCII text is the same. *)
Definition atom_ascii (a : atom) : Prop :=
  match a with Literal l => ascii l | Match cs rs => exists c, in_class cs rs c /\ (c < 128)%N | _ => True end.

Lemma ascii_derives : forall G, (forall n e a, G n = Some e -> occurs (Simple a) e -> atom_ascii a) ->
  forall e w ts, derives G e w ts -> (forall a, occurs (Simple a) e -> atom_ascii a) -> exists w' ts', ascii w' /\ derives G e w' ts'.
Proof.
  intros G HG e w ts D. induction D as [l|cs rs' c IC|c| | |e es w v ts us D IH1 D' IH2|e es w ts IN D IH|e|e mx|e mn mx w v ts us N D IH1 D' IH2|n e w ts E D IH]; intro AL.
  - exists l, [Val l]. split; [exact (AL _ (oc_here _))|constructor].
  - destruct (AL _ (oc_here _)) as (d & IC' & L). exists [d], [Val [d]]. split; [constructor; [exact L|constructor]|constructor; exact IC'].
  - exists [97%N], [Val [97%N]]. split; [repeat constructor|constructor].
  - exists [], [Val (s_ "EOF")]. split; [constructor|constructor].
  - exists [], []. split; constructor.
  - destruct IH1 as (w1 & t1 & A1 & D1); [intros a O; apply AL; apply (oc_and _ e); [left; reflexivity|exact O]|].
    destruct IH2 as (w2 & t2 & A2 & D2); [intros a O; apply AL; inversion O; subst; eapply oc_and; [right; eassumption|assumption]|].
    exists (w1 ++ w2), (t1 ++ t2). split; [apply ascii_app2; assumption|constructor; assumption].
  - destruct IH as (w1 & t1 & A1 & D1); [intros a O; apply AL; exact (oc_or _ e es IN O)|]. exists w1, t1. split; [exact A1|exact (d_or G e es _ _ IN D1)].
  - exists [], []. split; constructor.
  - exists [], []. split; constructor.
  - destruct IH1 as (w1 & t1 & A1 & D1); [intros a O; apply AL; apply oc_rep; exact O|].
    destruct IH2 as (w2 & t2 & A2 & D2); [intros a O; apply AL; inversion O; subst; apply oc_rep; assumption|].
    exists (w1 ++ w2), (t1 ++ t2). split; [apply ascii_app2; assumption|constructor; assumption].
  - destruct IH as (w1 & t1 & A1 & D1); [intros a O; exact (HG n e a E O)|]. exists w1, [Rule n t1]. split; [exact A1|exact (d_rule G n e w1 t1 E D1)].
Qed.

Lemma occurs_trans : forall x y z, occurs x y -> occurs y z -> occurs x z.
Proof.
  intros x y z XY YZ. induction YZ as [|e es IN _ IH|e es IN _ IH|e _ IH|e mn mx _ IH]; [exact XY|exact (oc_and _ e es IN IH)|exact (oc_or _ e es IN IH)|exact (oc_not _ _ IH)|exact (oc_rep _ _ _ _ IH)].
Qed.

Lemma productive_ascii : forall G, productive G -> (forall n e a, G n = Some e -> occurs (Simple a) e -> atom_ascii a) -> productive_in_ascii G.
Proof.
  intros G P HG n e x E O. destruct (P n e x E O) as (w & ts & D). apply (ascii_derives G HG x w ts D). intros a O'. exact (HG n e a E (occurs_trans _ _ _ O' O)).
Qed.

Definition atom_ascii_b (a : atom) : bool :=
  match a with
  | Literal l => forallb (fun c => N.ltb c 128) l
  | Match cs rs => existsb (fun c => N.ltb c 128) cs || existsb (fun r => N.ltb (fst r) 128 && N.leb (fst r) (snd r)) rs
  | _ => true
  end.

Fixpoint atoms_ascii (e : expr) : bool :=
  match e with
  | Simple a => atom_ascii_b a
  | And es | Or es => forallb atoms_ascii es
  | Not e1 | Repeat e1 _ _ => atoms_ascii e1
  | RuleName _ => true
  end.

Lemma atom_ascii_ok : forall a, atom_ascii_b a = true -> atom_ascii a.
Proof.
  intros [l|cs rs| | |] H; try exact Logic.I.
  - cbn [atom_ascii_b] in H. rewrite forallb_forall in H. apply Forall_forall. intros c IN. apply N.ltb_lt, H, IN.
  - cbn [atom_ascii_b] in H. apply orb_true_iff in H as [H|H]; apply existsb_exists in H as (x & IN & H).
    + exists x. split; [left; exact IN|apply N.ltb_lt; exact H].
    + apply andb_true_iff in H as [H1 H2]. apply N.ltb_lt in H1. apply N.leb_le in H2. exists (fst x). split; [|exact H1]. right. exists (fst x), (snd x). rewrite <- surjective_pairing. split; [exact IN|lia].
Qed.

Lemma atoms_ascii_ok : forall a e, occurs (Simple a) e -> atoms_ascii e = true -> atom_ascii a.
Proof.
  intros a e O. induction O as [|e es IN _ IH|e es IN _ IH|e _ IH|e mn mx _ IH]; cbn [atoms_ascii]; intro H.
  - exact (atom_ascii_ok a H).
  - rewrite forallb_forall in H. exact (IH (H e IN)).
  - rewrite forallb_forall in H. exact (IH (H e IN)).
  - exact (IH H).
  - exact (IH H).
Qed.

Lemma productive_ascii_check : forall rs, productive (grammar_of rs) -> forallb (fun p => atoms_ascii (snd p)) rs = true -> productive_in_ascii (grammar_of rs).
Proof.
  intros rs P H. apply (productive_ascii _ P). intros n e a E O. apply (atoms_ascii_ok a e O). rewrite forallb_forall in H.
  assert (IN : exists m, In (m, e) rs).
  { clear - E. unfold grammar_of in E. induction rs as [|[m x] rs IH]; [discriminate|]. cbn [rules_get] in E. destruct (str_eqb m n); [injection E as ->; exists m; left; reflexivity|].
    destruct (IH E) as [k IN]. exists k. right. exact IN. }
  destruct IN as [m IN]. exact (H _ IN).
Qed.
