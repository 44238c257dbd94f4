(** Nested lists are read exactly. *)
From Verif Require Import Base ModelAst ModelParser SpecPeg SpecPos SpecApi SpecAst SpecTable SpecWords SpecNested.
From Verif Require Import ProofParser ProofEngine ProofApi ProofRefactor ProofReport ProofAst ProofTable ProofWords.

Lemma value_ind' : forall P : value -> Prop, (forall w, P (Word w)) -> (forall l, Forall P l -> P (List l)) -> forall v, P v.
Proof.
  intros P PW PL. fix IH 1. intros [w|l]; [apply PW|]. apply PL. induction l as [|v l IHl]; [constructor|]. constructor; [apply IH|exact IHl].
Qed.

Section Nested.
Variable cs : str.
Variable rg : list (char * char).
Variable O F C : char.
Hypothesis NO : ~ in_class cs rg O.
Hypothesis NF : ~ in_class cs rg F.
Hypothesis NC : ~ in_class cs rg C.
Hypothesis OC : O <> C.
Hypothesis FC : F <> C.

Let rs := nested_rules cs rg O F C.
Let G := grammar_of rs.
Let tx := value_text O F C.
Let tr := value_tree F by_chars (apart O C).

Definition no_class (rest : str) : Prop := match rest with c :: _ => ~ in_class cs rg c | [] => True end.

Let more := And [lit [F]; RuleName nm_value].
Let items := And [RuleName nm_value; Repeat more 0 None].

Lemma word_rule : forall w rest, w <> [] -> Forall (in_class cs rg) w -> no_class rest ->
  peg G (RuleName nm_word) (w ++ rest) (PMatch [Rule nm_word (by_chars w)] rest).
Proof.
  intros [|c w] rest NE FW ST; [contradiction|]. inversion FW as [|? ? Cc FW']; subst.
  refine (peg_rule G nm_word (Repeat (ematch cs rg) 1 None) _ (PMatch (by_chars (c :: w)) rest) eq_refl _).
  change (by_chars (c :: w)) with ([Val [c]] ++ by_chars w).
  exact (peg_rep_more G (ematch cs rg) 1 None (c :: w ++ rest) [Val [c]] (w ++ rest) (PMatch (by_chars w) rest) ltac:(discriminate) (peg_class_ok G cs rg c _ Cc) (class_run G cs rg w rest FW' ST)).
Qed.

Lemma word_rule_fails : forall s, no_class s -> peg G (RuleName nm_word) s PFail.
Proof.
  intros s ST. refine (peg_rule G nm_word (Repeat (ematch cs rg) 1 None) _ PFail eq_refl _).
  apply peg_rep_short; [discriminate|lia|]. apply stop_class. exact ST.
Qed.

Lemma lit1 : forall c rest, peg G (lit [c]) (c :: rest) (PMatch [Val [c]] rest).
Proof. intros c rest. exact (peg_lit_ok G [c] rest). Qed.

Lemma lit1_fails : forall c s, (forall rest, s <> c :: rest) -> peg G (lit [c]) s PFail.
Proof. intros c s H. exact (peg_lit_fail G [c] s H). Qed.

Lemma value_is_list : forall s p, no_class s -> peg G (RuleName nm_list) s p -> peg G (RuleName nm_value) s (wrap nm_value p).
Proof.
  intros s p ST D. refine (peg_rule G nm_value (Or [RuleName nm_word; RuleName nm_list]) _ _ eq_refl _).
  apply peg_or_next; [apply word_rule_fails, ST|]. destruct p as [ts r| |m r].
  - apply peg_or_first; [exact D|discriminate].
  - apply peg_or_next; [exact D|constructor].
  - apply peg_or_first; [exact D|discriminate].
Qed.

Lemma no_value : forall s, no_class s -> (forall r, s <> O :: r) -> peg G (RuleName nm_value) s PFail.
Proof.
  intros s ST N. apply (value_is_list s PFail ST).
  refine (peg_rule G nm_list (And [lit [O]; Repeat items 0 (Some 1); lit [C]]) _ PFail eq_refl _).
  apply peg_and_stop; [apply lit1_fails, N|exact Logic.I].
Qed.

Definition reads (v : value) : Prop := forall rest, no_class rest -> peg G (RuleName nm_value) (tx v ++ rest) (PMatch [tr v] rest).

Lemma turns_match : forall l rest, Forall reads l -> no_class rest -> (forall r, rest <> F :: r) ->
  peg G (Repeat more 0 None) (flat_map (fun v => F :: tx v) l ++ rest) (PMatch (flat_map (fun v => [Val [F]; tr v]) l) rest).
Proof.
  intros l rest FR ST N. induction FR as [|v l R FR IH].
  - apply peg_rep_done; [discriminate|]. apply peg_and_stop; [apply lit1_fails, N|exact Logic.I].
  - cbn [flat_map]. rewrite <- app_assoc. cbn [app].
    assert (S1 : no_class (flat_map (fun v => F :: tx v) l ++ rest)) by (destruct l; [exact ST|exact NF]).
    change (Val [F] :: tr v :: flat_map (fun v => [Val [F]; tr v]) l) with ([Val [F]; tr v] ++ flat_map (fun v => [Val [F]; tr v]) l).
    refine (peg_rep_more G more 0 None _ [Val [F]; tr v] _ (PMatch (flat_map (fun v => [Val [F]; tr v]) l) rest) ltac:(discriminate) _ IH).
    exact (peg_and_cons G _ _ _ [Val [F]] _ (PMatch [tr v] _) (lit1 F _) (peg_and_cons G _ _ _ [tr v] _ (PMatch [] _) (R _ S1) (peg_and_nil G _))).
Qed.

Lemma items_match : forall l rest, l <> [] -> Forall reads l -> no_class rest -> (forall r, rest <> F :: r) ->
  peg G items (join F (map tx l) ++ rest) (PMatch (join_trees F (map tr l)) rest).
Proof.
  intros [|v l] rest NE FR ST N; [contradiction|]. rewrite list_text, list_tree, <- app_assoc. inversion FR as [|? ? R FR']; subst.
  assert (S1 : no_class (flat_map (fun v => F :: tx v) l ++ rest)) by (destruct l; [exact ST|exact NF]).
  pose proof (peg_and_cons G _ _ _ _ _ _ (R _ S1) (peg_and_cons G _ [] _ _ _ _ (turns_match l rest FR' ST N) (peg_and_nil G rest))) as H.
  cbn [prepend] in H. rewrite app_nil_r in H. exact H.
Qed.

Lemma list_reads : forall l, Forall reads l -> reads (List l).
Proof.
  intros l FR rest ST. unfold tx. cbn [value_text app]. fold tx.
  apply (value_is_list _ (PMatch [Rule nm_list (apart O C (join_trees F (map tr l)))] rest)); [exact NO|].
  refine (peg_rule G nm_list (And [lit [O]; Repeat items 0 (Some 1); lit [C]]) _ (PMatch (apart O C (join_trees F (map tr l))) rest) eq_refl _).
  assert (H : peg G (Repeat items 0 (Some 1)) (join F (map tx l) ++ C :: rest) (PMatch (join_trees F (map tr l)) (C :: rest))).
  { destruct l as [|v l].
    - apply peg_rep_done; [discriminate|]. apply peg_and_stop; [|exact Logic.I]. apply no_value; [exact NC|]. intros r E. injection E as E _. congruence.
    - rewrite <- (app_nil_r (join_trees F (map tr (v :: l)))).
      refine (peg_rep_more G items 0 (Some 1) _ _ _ (PMatch [] (C :: rest)) ltac:(discriminate) (items_match (v :: l) (C :: rest) ltac:(discriminate) FR NC _) _).
      + intros r E. injection E as E _. congruence.
      + apply peg_rep_full. }
  rewrite <- app_assoc. cbn [app].
  pose proof (peg_and_cons G _ _ _ _ _ _ (lit1 O (join F (map tx l) ++ C :: rest)) (peg_and_cons G _ _ _ _ _ _ H (peg_and_cons G _ [] _ _ _ _ (lit1 C rest) (peg_and_nil G rest)))) as D.
  exact D.
Qed.

Lemma value_reads : forall v, is_value cs rg v -> reads v.
Proof.
  induction v as [w|l IH] using value_ind'; intro V; inversion V as [? NE FW|? FV]; subst.
  - intros rest ST. unfold tx, tr. cbn [value_text value_tree].
    refine (peg_rule G nm_value (Or [RuleName nm_word; RuleName nm_list]) _ (PMatch [Rule nm_word (by_chars w)] rest) eq_refl _).
    apply peg_or_first; [apply word_rule; assumption|discriminate].
  - apply list_reads. rewrite Forall_forall in *. intros v IN. apply IH; [exact IN|apply FV, IN].
Qed.

(** * Nothing else is read *)

(** What a reader of values may answer. *)
Definition read_or_not (s : str) (p : presult) : Prop :=
  p = PFail \/ exists v rest, is_value cs rg v /\ s = tx v ++ rest /\ p = PMatch [tr v] rest.

Lemma tx_pos : forall v, is_value cs rg v -> 0 < length (tx v).
Proof. intros v [w NE _|l _]; [destruct w; [contradiction|cbn; lia]|cbn; lia]. Qed.

Lemma turns_answer : forall n, (forall s, length s < n -> exists p, peg G (RuleName nm_value) s p /\ read_or_not s p) ->
  forall k s, length s <= k -> length s <= n -> exists l rest, Forall (is_value cs rg) l /\ s = flat_map (fun v => F :: tx v) l ++ rest /\
    peg G (Repeat more 0 None) s (PMatch (flat_map (fun v => [Val [F]; tr v]) l) rest).
Proof.
  intros n H. induction k as [|k IH]; intros s L Ln.
  - destruct s; [|cbn in L; lia]. exists [], []. split; [constructor|]. split; [reflexivity|].
    apply peg_rep_done; [discriminate|]. apply peg_and_stop; [apply lit1_fails; discriminate|exact Logic.I].
  - assert (STOP : peg G more s PFail -> exists l rest, Forall (is_value cs rg) l /\ s = flat_map (fun v => F :: tx v) l ++ rest /\
      peg G (Repeat more 0 None) s (PMatch (flat_map (fun v => [Val [F]; tr v]) l) rest)).
    { intro D. exists [], s. split; [constructor|]. split; [reflexivity|]. apply peg_rep_done; [discriminate|exact D]. }
    destruct s as [|c s]; [apply STOP, peg_and_stop; [apply lit1_fails; discriminate|exact Logic.I]|]. cbn [length] in L, Ln.
    destruct (N.eq_dec c F) as [->|X].
    2:{ apply STOP, peg_and_stop; [|exact Logic.I]. apply lit1_fails. intros r E. injection E as E _. contradiction. }
    destruct (H s ltac:(lia)) as (p & D & [->|(v & rest & V & -> & ->)]).
    + apply STOP. exact (peg_and_cons G _ _ _ [Val [F]] _ PFail (lit1 F s) (peg_and_stop G _ _ _ _ D Logic.I)).
    + rewrite app_length in L, Ln. destruct (IH rest) as (l & rest' & FV & -> & T); [lia|lia|].
      exists (v :: l), rest'. split; [constructor; assumption|]. split; [cbn [flat_map app]; rewrite <- app_assoc; reflexivity|].
      cbn [flat_map].
      refine (peg_rep_more G more 0 None _ [Val [F]; tr v] _ (PMatch (flat_map (fun v => [Val [F]; tr v]) l) rest') ltac:(discriminate) _ T).
      exact (peg_and_cons G _ _ _ [Val [F]] _ (PMatch [tr v] _) (lit1 F _) (peg_and_cons G _ _ _ [tr v] _ (PMatch [] _) D (peg_and_nil G _))).
Qed.

Lemma items_answer : forall n, (forall s, length s < n -> exists p, peg G (RuleName nm_value) s p /\ read_or_not s p) ->
  forall s, length s < n -> exists l rest, Forall (is_value cs rg) l /\ s = join F (map tx l) ++ rest /\
    peg G (Repeat items 0 (Some 1)) s (PMatch (join_trees F (map tr l)) rest).
Proof.
  intros n H s L. destruct (H s L) as (p & D & [->|(v & rest & V & -> & ->)]).
  - exists [], s. split; [constructor|]. split; [reflexivity|]. apply peg_rep_done; [discriminate|]. apply peg_and_stop; [exact D|exact Logic.I].
  - rewrite app_length in L. destruct (turns_answer n H (length rest) rest ltac:(lia) ltac:(lia)) as (l & rest' & FV & -> & T).
    exists (v :: l), rest'. split; [constructor; assumption|]. rewrite list_text, list_tree. split; [rewrite <- app_assoc; reflexivity|].
    rewrite <- (app_nil_r (tr v :: _)). refine (peg_rep_more G items 0 (Some 1) _ _ _ (PMatch [] rest') ltac:(discriminate) _ (peg_rep_full G items rest')).
    pose proof (peg_and_cons G _ _ _ _ _ _ D (peg_and_cons G _ [] _ _ _ _ T (peg_and_nil G rest'))) as X. cbn [prepend] in X. rewrite app_nil_r in X. exact X.
Qed.

Lemma value_answer : forall n s, length s < n -> exists p, peg G (RuleName nm_value) s p /\ read_or_not s p.
Proof.
  induction n as [|n IH]; intros s L; [lia|].
  destruct (first_word_ex cs rg s) as (w & rest & E & FW & ST). destruct w as [|c w].
  - cbn [app] in E. subst rest.
    assert (LF : forall p, peg G (And [lit [O]; Repeat items 0 (Some 1); lit [C]]) s p -> peg G (RuleName nm_value) s (wrap nm_value (wrap nm_list p))).
    { intros p D. apply value_is_list; [exact ST|]. exact (peg_rule G nm_list _ _ _ eq_refl D). }
    assert (FAIL : peg G (And [lit [O]; Repeat items 0 (Some 1); lit [C]]) s PFail -> exists p, peg G (RuleName nm_value) s p /\ read_or_not s p).
    { intro D. exists PFail. split; [exact (LF PFail D)|left; reflexivity]. }
    destruct s as [|c s]; [apply FAIL, peg_and_stop; [apply lit1_fails; discriminate|exact Logic.I]|]. cbn [length] in L.
    destruct (N.eq_dec c O) as [->|X].
    2:{ apply FAIL, peg_and_stop; [|exact Logic.I]. apply lit1_fails. intros r E. injection E as E _. contradiction. }
    destruct (items_answer n (fun s L => IH s L) s ltac:(lia)) as (l & rest & FV & -> & T).
    assert (Z : (exists r, rest = C :: r) \/ forall r, rest <> C :: r).
    { destruct rest as [|d r]; [right; discriminate|]. destruct (N.eq_dec d C) as [->|Y]; [left; eauto|right]. intros r' E. injection E as E _. contradiction. }
    destruct Z as [(r & ->)|Z].
    + pose proof (peg_and_cons G _ _ _ _ _ _ (lit1 O _) (peg_and_cons G _ _ _ _ _ _ T (peg_and_cons G _ [] _ _ _ _ (lit1 C r) (peg_and_nil G r)))) as D.
      cbn [prepend app] in D. exists (PMatch [tr (List l)] r). split; [exact (LF _ D)|right]. exists (List l), r. split; [constructor; exact FV|]. split; [|reflexivity].
      unfold tx at 2. cbn [value_text app]. rewrite <- app_assoc. reflexivity.
    + apply FAIL. exact (peg_and_cons G _ _ _ _ _ PFail (lit1 O _) (peg_and_cons G _ _ _ _ _ PFail T (peg_and_stop G _ _ _ _ (lit1_fails C rest Z) Logic.I))).
  - subst s. assert (V : is_value cs rg (Word (c :: w))) by (constructor; [discriminate|exact FW]).
    exists (PMatch [tr (Word (c :: w))] rest). split; [exact (value_reads _ V rest ST)|]. right. exists (Word (c :: w)), rest. split; [exact V|]. split; reflexivity.
Qed.

Lemma nested_sane : sane_rules rs.
Proof.
  intros n e H. unfold rs, nested_rules, rules_macro in H. cbn [fold_left fst snd] in H.
  unfold rules_add, hm_insert in H. cbn in H.
  repeat match type of H with context [if ?b then _ else _] => destruct b end; try discriminate; injection H as <-; cbn; repeat split; auto.
Qed.

Lemma main_reads : forall s p, peg G (RuleName nm_value) s p -> peg_main rs s (wrap main p).
Proof. intros s p D. exact (peg_rule G main (RuleName nm_value) s p eq_refl D). Qed.

Lemma nested_accepts : forall s d, ascii s -> forall ast, (exists fuel, parse_with_debug fuel s rs d = Ok ast) <->
  exists v, is_value cs rg v /\ s = tx v /\ ast = Rule main [tr v].
Proof.
  intros s d A ast. rewrite (parse_accepts_iff s rs d nested_sane A ast). split.
  - intro D. destruct (value_answer (S (length s)) s ltac:(lia)) as (p & D' & X). pose proof (peg_det _ _ _ _ D _ (main_reads s p D')) as E.
    destruct X as [->|(v & rest & V & -> & ->)]; [discriminate|]. cbn [wrap] in E. injection E as -> E. subst rest. exists v. split; [exact V|]. split; [apply app_nil_r|reflexivity].
  - intros (v & V & -> & ->). pose proof (value_reads v V [] Logic.I) as D. rewrite app_nil_r in D. exact (main_reads _ _ D).
Qed.

Lemma nested_decides : forall s d, ascii s -> exists bound, forall fuel, bound <= fuel ->
  (exists v, is_value cs rg v /\ s = tx v /\ parse_with_debug fuel s rs d = Ok (Rule main [tr v])) \/
  ((forall v, is_value cs rg v -> s <> tx v) /\ exists er, parse_with_debug fuel s rs d = Err er /\ e_priority er = Normal).
Proof.
  intros s d A. destruct (value_answer (S (length s)) s ltac:(lia)) as (p & D & X). pose proof (main_reads s p D) as M.
  destruct (proj2 (parse_terminates_iff s rs d nested_sane A) (ex_intro _ _ M)) as [fuel NF']. exists fuel. intros fuel' L.
  assert (E : parse_with_debug fuel' s rs d <> Fuel) by (destruct (parse_with_debug_mono fuel fuel' s rs d L) as [E|E]; [contradiction|congruence]).
  pose proof (parse_sound fuel' s rs d nested_sane) as H.
  destruct (parse_with_debug fuel' s rs d) as [t|er| |] eqn:R; [| |contradiction|contradiction].
  - left. destruct (proj1 (nested_accepts s d A t) (ex_intro _ _ R)) as (v & V & Ev & ->). exists v. split; [exact V|]. split; [exact Ev|reflexivity].
  - right. split.
    + intros v V Ev. destruct (proj2 (nested_accepts s d A (Rule main [tr v]))) as [f' H']; [exists v; split; [exact V|split; [exact Ev|reflexivity]]|].
      pose proof (parse_same _ _ _ _ _ _ _ nested_sane A R H' ltac:(discriminate) ltac:(discriminate)). discriminate.
    + exists er. split; [reflexivity|]. destruct H as [_ H]. destruct (e_priority er); [reflexivity|]. destruct H as (rest & H & _).
      pose proof (peg_det _ _ _ _ M _ H) as Q. destruct X as [->|(v & r & _ & _ & ->)]; discriminate.
Qed.

Lemma one_value : forall v v', is_value cs rg v -> is_value cs rg v' -> tx v = tx v' -> tr v = tr v'.
Proof.
  intros v v' V V' E. pose proof (value_reads v V [] Logic.I) as H. pose proof (value_reads v' V' [] Logic.I) as H'. rewrite E in H.
  pose proof (peg_det _ _ _ _ H _ H') as D. congruence.
Qed.

End Nested.

(** * Trees *)

Lemma compact_joined_then : forall (A : Type) sep (f : A -> node) c l, l <> [] -> (forall a, exists n k, f a = Rule n k) ->
  compact_loop [] (join_trees sep (map f l) ++ [Val c]) = join_trees sep (map (fun a => compact (f a)) l) ++ [Val c].
Proof.
  intros A sep f c l NE RL. induction l as [|a l IH]; [contradiction|]. destruct (RL a) as (n & k & E). destruct l as [|b l].
  - cbn [map join_trees app]. rewrite E, compact_rule_then. reflexivity.
  - cbn [map] in *.
    change (join_trees sep (f a :: f b :: map f l)) with (f a :: Val [sep] :: join_trees sep (f b :: map f l)).
    change (join_trees sep (compact (f a) :: compact (f b) :: map (fun a0 => compact (f a0)) l)) with
      (compact (f a) :: Val [sep] :: join_trees sep (compact (f b) :: map (fun a0 => compact (f a0)) l)).
    cbn [app]. rewrite E, compact_rule_then, compact_val_then.
    + rewrite IH by discriminate. reflexivity.
    + destruct (RL b) as (n' & k' & E'). rewrite E'. intros (v & r & X). destruct l; discriminate.
Qed.

Lemma value_tree_rule : forall F word br v, exists n k, value_tree F word br v = Rule n k.
Proof. intros F word br [w|l]; eexists; eexists; reflexivity. Qed.

Lemma value_compact : forall O F C v, compact (value_tree F by_chars (apart O C) v) = value_tree F in_one (merged O C) v.
Proof.
  intros O F C v. induction v as [w|l IH] using value_ind'.
  - cbn [value_tree]. rewrite compact_rule, compact_rule_then, compact_rule, compact_chars. reflexivity.
  - cbn [value_tree]. rewrite compact_rule, compact_rule_then, compact_rule. do 4 f_equal.
    assert (RL := value_tree_rule F by_chars (apart O C)). revert IH RL. generalize (value_tree F by_chars (apart O C)). intros t IH RL.
    unfold apart at 1. destruct l as [|v l]; [reflexivity|]. rewrite compact_val_then.
    + rewrite compact_joined_then; [|discriminate|exact RL].
      replace (map (fun a => compact (t a)) (v :: l)) with (map (value_tree F in_one (merged O C)) (v :: l)).
      * cbn [map]. destruct (map (value_tree F in_one (merged O C)) l); reflexivity.
      * clear - IH. induction IH as [|x l0 H FH IHl]; [reflexivity|]. cbn [map]. rewrite H, IHl. reflexivity.
    + destruct (RL v) as (n & k & E). cbn [map]. rewrite E. intros (x & r & Q). destruct (map _ l); discriminate.
Qed.

Lemma join_inj : forall (A : Type) sep (f : A -> node) l, Forall (fun a => forall b, f a = f b -> a = b) l -> forall l',
  join_trees sep (map f l) = join_trees sep (map f l') -> l = l'.
Proof.
  intros A sep f l FI. induction FI as [|a l INJ FI IH]; intros l' E.
  - destruct l' as [|b [|c l']]; [reflexivity|discriminate|discriminate].
  - destruct l' as [|b l']; [destruct l; discriminate|].
    destruct l as [|a' l]; destruct l' as [|b' l']; cbn [map join_trees] in E.
    + injection E as E. rewrite (INJ _ E). reflexivity.
    + discriminate.
    + discriminate.
    + injection E as E1 E2. rewrite (INJ _ E1). f_equal. apply IH. exact E2.
Qed.

Lemma value_tree_inj : forall F word br, (forall a b, word a = word b -> a = b) -> (forall a b, br a = br b -> a = b) ->
  forall v v', value_tree F word br v = value_tree F word br v' -> v = v'.
Proof.
  intros F word br IW IB. induction v as [w|l IH] using value_ind'; intros [w'|l'] E; cbn [value_tree] in E.
  - injection E as E. rewrite (IW _ _ E). reflexivity.
  - discriminate.
  - discriminate.
  - injection E as E. apply IB in E. rewrite (join_inj _ _ _ _ IH _ E). reflexivity.
Qed.

Lemma apart_inj : forall O C a b, apart O C a = apart O C b -> a = b.
Proof. intros O C a b E. unfold apart in E. injection E as E. apply app_inv_tail in E. exact E. Qed.

Lemma merged_inj : forall O C a b, merged O C a = merged O C b -> a = b.
Proof. intros O C [|x a] [|y b] E; [reflexivity|discriminate|discriminate|]. apply (apart_inj O C). exact E. Qed.
