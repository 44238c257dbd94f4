(** Proofs about options in any order. *)
From Verif Require Import Base ModelAst ModelParser SpecPeg SpecPos SpecApi SpecOnce.
From Verif Require Import ProofParser ProofEngine ProofApi ProofDocs Examples.

Section Once.
Variable G : str -> option expr.
Variable mark : char.
Notation unit_ := (option_text mark).
Notation text := (options_text mark).
Definition clean (w : str) : Prop := ~ In mark w.

Lemma text_cons : forall w l, text (w :: l) = w ++ mark :: text l.
Proof. intros w l. unfold options_text, option_text. cbn [flat_map]. rewrite <- app_assoc. reflexivity. Qed.

(** Every text is a list of options and a rest without marks. *)
Lemma cut : forall s, exists l tail, s = text l ++ tail /\ Forall clean l /\ clean tail.
Proof.
  induction s as [|c s (l & tail & -> & L & T)]; [exists [], []; repeat split; [constructor|intros []]|].
  destruct (N.eq_dec c mark) as [->|N].
  - exists ([] :: l), tail. split; [rewrite text_cons; reflexivity|]. split; [constructor; [intros []|exact L]|exact T].
  - destruct l as [|w l].
    + exists [], (c :: tail). split; [reflexivity|]. split; [constructor|]. intros [E|E]; [exact (N E)|exact (T E)].
    + inversion L as [|? ? W L']; subst. exists ((c :: w) :: l), tail. rewrite !text_cons. split; [reflexivity|]. split; [|exact T]. constructor; [|exact L'].
      intros [E|E]; [exact (N E)|exact (W E)].
Qed.
Lemma first_mark : forall a b r r', clean a -> clean b -> a ++ mark :: r = b ++ mark :: r' -> a = b /\ r = r'.
Proof.
  induction a as [|x a IH]; intros [|y b] r r' A B E; cbn [app] in E.
  - injection E as ->. auto.
  - injection E as <- _. destruct B. left. reflexivity.
  - injection E as -> _. destruct A. left. reflexivity.
  - injection E as <- E. destruct (IH b r r') as [-> ->]; [intro X; apply A; right; exact X|intro X; apply B; right; exact X|exact E|auto].
Qed.
Lemma text_inj : forall l m t u, Forall clean l -> Forall clean m -> clean t -> clean u -> text l ++ t = text m ++ u -> l = m /\ t = u.
Proof.
  induction l as [|w l IH]; intros [|v m] t u L M T U E.
  - auto.
  - exfalso. rewrite text_cons in E. cbn in E. apply T. rewrite E. rewrite <- app_assoc. apply in_or_app. right. left. reflexivity.
  - exfalso. rewrite text_cons in E. cbn in E. apply U. rewrite <- E. rewrite <- app_assoc. apply in_or_app. right. left. reflexivity.
  - inversion L; inversion M; subst. rewrite !text_cons, <- !app_assoc in E. cbn [app] in E. apply first_mark in E; [|assumption|assumption]. destruct E as [-> E].
    destruct (IH m t u) as [-> ->]; auto.
Qed.

(** ** The parts of the rule *)
Lemma unit_at : forall w v l tail, clean w -> clean v -> (exists rest, text (v :: l) ++ tail = unit_ w ++ rest) -> v = w.
Proof.
  intros w v l tail W V (rest & E). rewrite text_cons, <- app_assoc in E. cbn [app] in E. unfold option_text in E. rewrite <- app_assoc in E. cbn [app] in E.
  apply first_mark in E; tauto.
Qed.
Lemma q_unit : forall w l tail, peg G (lit (unit_ w)) (text (w :: l) ++ tail) (PMatch [Val (unit_ w)] (text l ++ tail)).
Proof. intros w l tail. unfold options_text. cbn [flat_map]. rewrite <- app_assoc. apply peg_lit_ok. Qed.
Lemma q_other : forall w v l tail, clean w -> clean v -> v <> w -> peg G (lit (unit_ w)) (text (v :: l) ++ tail) PFail.
Proof. intros w v l tail W V N. apply peg_lit_fail. intros rest E. apply N. apply (unit_at w v l tail W V). eauto. Qed.
Lemma q_none : forall w tail, clean tail -> peg G (lit (unit_ w)) tail PFail.
Proof. intros w tail T. apply peg_lit_fail. intros rest ->. apply T. unfold option_text. apply in_or_app. left. apply in_or_app. right. left. reflexivity. Qed.

Lemma q_word : forall w r, clean w -> peg G (rep0 (And [Not (lit [mark]); dot_]) 0) (w ++ mark :: r) (PMatch (map (fun c => Val [c]) w) (mark :: r)).
Proof.
  induction w as [|c w IH]; intros r W.
  - apply peg_rep_done; [discriminate|]. apply peg_and_stop; [|exact I]. eapply peg_not_fail. exact (peg_lit_ok G [mark] r).
  - cbn [app map]. refine (peg_rep_more G _ 0 None _ [Val [c]] _ _ ltac:(discriminate) _ (IH r ltac:(intro X; apply W; right; exact X))).
    apply (peg_and_cons G _ _ _ [] (c :: w ++ mark :: r) (PMatch [Val [c]] (w ++ mark :: r))).
    + apply (peg_not_ok G _ _ PFail); [|exact I]. apply peg_lit_fail. intros rest E. injection E as -> _. apply W. left. reflexivity.
    + apply (peg_and_cons G _ _ _ [Val [c]] _ (PMatch [] _) (peg_dot_ok G c _)). apply peg_and_nil.
Qed.
Lemma q_skip : forall w l tail, clean w -> peg G (skip_option mark) (text (w :: l) ++ tail) (PMatch (map (fun c => Val [c]) w ++ [Val [mark]]) (text l ++ tail)).
Proof.
  intros w l tail W. rewrite text_cons, <- app_assoc. cbn [app]. refine (peg_and_cons G _ _ _ _ _ (PMatch [Val [mark]] _) (q_word w _ W) _).
  apply (peg_and_cons G _ _ _ [Val [mark]] _ (PMatch [] _) (peg_lit_ok G [mark] _)). apply peg_and_nil.
Qed.
Lemma q_noskip : forall tail, clean tail -> peg G (skip_option mark) tail PFail.
Proof.
  intros tail T.
  assert (X : peg G (rep0 (And [Not (lit [mark]); dot_]) 0) tail (PMatch (map (fun c => Val [c]) tail) [])).
  { induction tail as [|c w IH].
    - apply peg_rep_done; [discriminate|]. apply (peg_and_cons G _ _ _ [] [] PFail).
      + apply (peg_not_ok G _ _ PFail); [|exact I]. apply peg_lit_fail. discriminate.
      + apply peg_and_stop; [apply peg_dot_fail|exact I].
    - refine (peg_rep_more G _ 0 None _ [Val [c]] _ _ ltac:(discriminate) _ (IH ltac:(intro X; apply T; right; exact X))).
      apply (peg_and_cons G _ _ _ [] (c :: w) (PMatch [Val [c]] w)).
      + apply (peg_not_ok G _ _ PFail); [|exact I]. apply peg_lit_fail. intros rest E. injection E as -> _. apply T. left. reflexivity.
      + apply (peg_and_cons G _ _ _ [Val [c]] _ (PMatch [] _) (peg_dot_ok G c _)). apply peg_and_nil. }
  refine (peg_and_cons G _ _ _ _ _ PFail X _). apply peg_and_stop; [|exact I]. apply peg_lit_fail. discriminate.
Qed.

Lemma q_comes : forall w l tail, clean w -> Forall clean l -> clean tail ->
  (In w l /\ exists ts rest, peg G (comes mark w) (text l ++ tail) (PMatch ts rest)) \/ (~ In w l /\ peg G (comes mark w) (text l ++ tail) PFail).
Proof.
  intros w l tail W L T.
  assert (X : (In w l /\ exists ts m, peg G (rep0 (And [Not (lit (unit_ w)); skip_option mark]) 0) (text l ++ tail) (PMatch ts (text (w :: m) ++ tail))) \/
              (~ In w l /\ exists ts, peg G (rep0 (And [Not (lit (unit_ w)); skip_option mark]) 0) (text l ++ tail) (PMatch ts tail))).
  { induction L as [|v l V L IH].
    - right. split; [intros []|]. exists []. apply peg_rep_done; [discriminate|]. apply (peg_and_cons G _ _ _ [] tail PFail).
      + eapply peg_not_ok; [apply q_none; exact T|exact I].
      + apply peg_and_stop; [apply q_noskip; exact T|exact I].
    - destruct (list_eq_dec N.eq_dec v w) as [->|N].
      + left. split; [left; reflexivity|]. exists [], l. apply peg_rep_done; [discriminate|]. apply peg_and_stop; [|exact I]. eapply peg_not_fail. apply q_unit.
      + assert (B : peg G (And [Not (lit (unit_ w)); skip_option mark]) (text (v :: l) ++ tail) (PMatch ((map (fun c => Val [c]) v ++ [Val [mark]]) ++ []) (text l ++ tail))).
        { apply (peg_and_cons G _ _ _ [] (text (v :: l) ++ tail) (PMatch ((map (fun c => Val [c]) v ++ [Val [mark]]) ++ []) (text l ++ tail))).
          - eapply peg_not_ok; [apply q_other; assumption|exact I].
          - apply (peg_and_cons G _ _ _ _ _ (PMatch [] _) (q_skip v l tail V)). apply peg_and_nil. }
        destruct IH as [(IN & ts & m & D)|(NI & ts & D)].
        * left. split; [right; exact IN|]. eexists. exists m. exact (peg_rep_more G _ 0 None _ _ _ _ ltac:(discriminate) B D).
        * right. split; [intros [E|E]; [exact (N E)|exact (NI E)]|]. eexists. exact (peg_rep_more G _ 0 None _ _ _ _ ltac:(discriminate) B D). }
  destruct X as [(IN & ts & m & D)|(NI & ts & D)].
  - left. split; [exact IN|]. eexists. exists (text m ++ tail). refine (peg_and_cons G _ _ _ _ _ (PMatch _ _) D _).
    apply (peg_and_cons G _ _ _ _ _ (PMatch [] _) (q_unit w m tail)). apply peg_and_nil.
  - right. split; [exact NI|]. refine (peg_and_cons G _ _ _ _ _ PFail D _). apply peg_and_stop; [apply q_none; exact T|exact I].
Qed.

(** ** All options *)
Definition is_in (w : str) (l : list str) : bool := if in_dec (list_eq_dec N.eq_dec) w l then true else false.
(** The options that are taken, and those that are left. *)
Fixpoint eat (known l : list str) : list str * list str :=
  match l with
  | [] => ([], [])
  | v :: r => if is_in v known && negb (is_in v r) then let (a, b) := eat known r in (v :: a, b) else ([], v :: r)
  end.

Notation one known := (Or (map (fun w => And [lit (unit_ w); Not (comes mark w)]) known)).
Lemma q_one : forall known v l tail, Forall clean known -> clean v -> Forall clean l -> clean tail ->
  peg G (one known) (text (v :: l) ++ tail) (if is_in v known && negb (is_in v l) then PMatch [Val (unit_ v)] (text l ++ tail) else PFail).
Proof.
  intros known v l tail K V L T. induction K as [|w known W K IH]; [apply peg_or_nil|]. cbn [map].
  destruct (list_eq_dec N.eq_dec v w) as [->|N].
  - assert (E : is_in w (w :: known) = true) by (unfold is_in; destruct (in_dec (list_eq_dec N.eq_dec) w (w :: known)) as [I|I]; [reflexivity|destruct I; left; reflexivity]). rewrite E. cbn [andb].
    assert (F : is_in w l = true -> peg G (one known) (text (w :: l) ++ tail) PFail).
    { intro X. rewrite X in IH. rewrite andb_false_r in IH. exact IH. }
    destruct (q_comes w l tail W L T) as [(IN & ts & rest & D)|(NI & D)].
    + assert (X : is_in w l = true) by (unfold is_in; destruct (in_dec (list_eq_dec N.eq_dec) w l) as [I|I]; [reflexivity|destruct (I IN)]). rewrite X in *. cbn [negb].
      apply peg_or_next; [|apply F; reflexivity]. refine (peg_and_cons G _ _ _ _ _ PFail (q_unit w l tail) _). apply peg_and_stop; [|exact I]. exact (peg_not_fail G _ _ _ _ D).
    + assert (X : is_in w l = false) by (unfold is_in; destruct (in_dec (list_eq_dec N.eq_dec) w l) as [I|I]; [destruct (NI I)|reflexivity]). rewrite X. cbn [negb].
      apply peg_or_first; [|discriminate]. refine (peg_and_cons G _ _ _ _ _ (PMatch [] _) (q_unit w l tail) _).
      refine (peg_and_cons G _ _ _ [] _ (PMatch [] _) (peg_not_ok G _ _ _ D I) _). apply peg_and_nil.
  - assert (E : is_in v (w :: known) = is_in v known).
    { unfold is_in. destruct (in_dec (list_eq_dec N.eq_dec) v (w :: known)) as [I|I]; destruct (in_dec (list_eq_dec N.eq_dec) v known) as [J|J]; try reflexivity.
      - destruct I as [I|I]; [destruct (N (eq_sym I))|destruct (J I)].
      - destruct I. right. exact J. }
    rewrite E. apply peg_or_next; [|exact IH]. apply peg_and_stop; [|exact I]. apply q_other; assumption.
Qed.
Lemma q_end : forall known tail, Forall clean known -> clean tail -> peg G (one known) tail PFail.
Proof.
  intros known tail K T. induction K as [|w known W K IH]; [apply peg_or_nil|]. cbn [map]. apply peg_or_next; [|exact IH]. apply peg_and_stop; [|exact I]. apply q_none. exact T.
Qed.
Lemma q_all : forall known l tail, Forall clean known -> Forall clean l -> clean tail ->
  peg G (rep0 (one known) 0) (text l ++ tail) (PMatch (map (fun w => Val (unit_ w)) (fst (eat known l))) (text (snd (eat known l)) ++ tail)).
Proof.
  intros known l tail K L T. induction L as [|v l V L IH].
  - apply peg_rep_done; [discriminate|]. apply q_end; assumption.
  - pose proof (q_one known v l tail K V L T) as D. cbn [eat]. destruct (is_in v known && negb (is_in v l)).
    + destruct (eat known l) as [a b]. exact (peg_rep_more G _ 0 None _ _ _ _ ltac:(discriminate) D IH).
    + apply peg_rep_done; [discriminate|exact D].
Qed.
Lemma q_main : forall required known l tail, Forall clean required -> Forall clean known -> Forall clean l -> clean tail ->
  (incl required l /\ peg G (And (map (fun w => Not (Not (comes mark w))) required ++ [rep0 (one known) 0])) (text l ++ tail)
     (PMatch (map (fun w => Val (unit_ w)) (fst (eat known l))) (text (snd (eat known l)) ++ tail))) \/
  (~ incl required l /\ peg G (And (map (fun w => Not (Not (comes mark w))) required ++ [rep0 (one known) 0])) (text l ++ tail) PFail).
Proof.
  intros required known l tail R K L T. induction R as [|w required W R IH]; cbn [map app].
  - left. split; [intros x []|]. pose proof (peg_and_cons G _ [] _ _ _ _ (q_all known l tail K L T) (peg_and_nil G _)) as X. cbn [prepend] in X. rewrite app_nil_r in X. exact X.
  - destruct (q_comes w l tail W L T) as [(IN & ts & rest & D)|(NI & D)].
    + assert (N : peg G (Not (Not (comes mark w))) (text l ++ tail) (PMatch [] (text l ++ tail))) by (eapply peg_not_ok; [eapply peg_not_fail; exact D|exact I]).
      destruct IH as [(INC & X)|(NI & X)].
      * left. split; [intros x [<-|I]; auto|]. exact (peg_and_cons G _ _ _ [] _ _ N X).
      * right. split; [intro I; apply NI; intros x X'; apply I; right; exact X'|]. exact (peg_and_cons G _ _ _ [] _ _ N X).
    + right. split; [intro X; apply NI, X; left; reflexivity|]. apply peg_and_stop; [|exact I]. eapply peg_not_fail. eapply peg_not_ok; [exact D|exact I].
Qed.

Lemma eat_all : forall known l, snd (eat known l) = [] <-> incl l known /\ NoDup l.
Proof.
  intros known. induction l as [|v l IH]; [split; [split; [intros x []|constructor]|reflexivity]|]. cbn [eat].
  unfold is_in at 1 2. destruct (in_dec (list_eq_dec N.eq_dec) v known) as [I|I]; destruct (in_dec (list_eq_dec N.eq_dec) v l) as [J|J]; cbn [andb negb snd].
  - split; [discriminate|]. intros [_ N]. inversion N; contradiction.
  - destruct (eat known l) as [a b]. cbn [snd] in *. rewrite IH. split.
    + intros [X N]. split; [intros x [<-|Y]; auto|constructor; assumption].
    + intros [X N]. split; [intros x Y; apply X; right; exact Y|inversion N; assumption].
  - split; [discriminate|]. intros [X _]. destruct (I (X v ltac:(left; reflexivity))).
  - split; [discriminate|]. intros [X _]. destruct (I (X v ltac:(left; reflexivity))).
Qed.
Lemma eat_taken : forall known l, snd (eat known l) = [] -> fst (eat known l) = l.
Proof.
  intros known. induction l as [|v l IH]; [reflexivity|]. cbn [eat]. destruct (is_in v known && negb (is_in v l)); [|discriminate].
  destruct (eat known l) as [a b]. cbn [fst snd] in *. intro E. f_equal. exact (IH E).
Qed.
End Once.

(** ** The rules *)
Lemma sane_once : forall mark required known, sane_rules (once_rules mark required known).
Proof.
  intros mark required known. apply sane_rules_all. constructor; [|constructor]. cbn [snd].
  induction required as [|w required IH]; [|split; [cbn; tauto|exact IH]].
  split; [|exact I]. split; [|exact I]. cbn [sane]. induction known as [|w known IH]; [exact I|]. split; [cbn; tauto|exact IH].
Qed.

Lemma once_text_ascii : forall mark l, ascii_char mark -> Forall ascii l -> ascii (options_text mark l).
Proof.
  intros mark l M F. induction F as [|w l W F IH]; [constructor|]. cbn. apply Forall_app. split; [|exact IH]. apply Forall_app. split; [exact W|]. constructor; [exact M|constructor].
Qed.

Definition once_list (mark : char) (required known l : list str) : Prop := incl required l /\ incl l known /\ NoDup l.

Lemma once_main : forall mark required known, Forall (clean mark) required -> Forall (clean mark) known -> forall s,
  exists r, peg_main (once_rules mark required known) s r /\
  ((exists l, once_list mark required known l /\ s = options_text mark l /\ r = PMatch [Rule main (map (fun w => Val (option_text mark w)) l)] []) \/
   ((forall l, once_list mark required known l -> s <> options_text mark l) /\ (r = PFail \/ exists ts rest, r = PMatch ts rest /\ rest <> []))).
Proof.
  intros mark required known R K s. destruct (cut mark s) as (l & tail & -> & L & T).
  assert (E : grammar_of (once_rules mark required known) main =
    Some (And (map (fun w => Not (Not (comes mark w))) required ++ [rep0 (Or (map (fun w => And [lit (option_text mark w); Not (comes mark w)]) known)) 0]))) by reflexivity.
  assert (U : forall l', once_list mark required known l' -> options_text mark l ++ tail = options_text mark l' -> l' = l /\ tail = []).
  { intros l' (_ & I & _) EQ. rewrite <- (app_nil_r (options_text mark l')) in EQ.
    apply text_inj in EQ; [destruct EQ; auto|exact L| |exact T|intros []]. rewrite Forall_forall in K |- *. intros x X. apply K, I, X. }
  destruct (q_main (grammar_of (once_rules mark required known)) mark required known l tail R K L T) as [(INC & D)|(NI & D)].
  - pose proof (peg_rule _ _ _ _ _ E D) as X. cbn [wrap] in X. eexists. split; [exact X|].
    destruct (snd (eat known l)) as [|v b] eqn:B.
    + destruct tail as [|c tail].
      * left. exists l. pose proof (proj1 (eat_all known l) B) as [I N]. rewrite (eat_taken known l B). rewrite app_nil_r. split; [split; [exact INC|split; assumption]|]. split; reflexivity.
      * right. split; [|right; eexists; eexists; split; [reflexivity|discriminate]]. intros l' O EQ. destruct (U l' O EQ) as [_ X']. discriminate.
    + right. split.
      * intros l' O EQ. destruct (U l' O EQ) as [-> _]. destruct O as (_ & I & N). pose proof (proj2 (eat_all known l) (conj I N)) as Y. congruence.
      * right. eexists. eexists. split; [reflexivity|]. rewrite text_cons. intro Z. apply app_eq_nil in Z. destruct Z as [Z _]. apply app_eq_nil in Z. destruct Z as [_ Z]. discriminate.
  - pose proof (peg_rule _ _ _ _ _ E D) as X. exists PFail. split; [exact X|]. right. split; [|left; reflexivity].
    intros l' O EQ. destruct (U l' O EQ) as [-> _]. destruct O as (I & _). exact (NI I).
Qed.

Lemma once_accepts : forall mark required known, ascii_char mark -> Forall ascii known -> Forall (clean mark) required -> Forall (clean mark) known -> forall s debug t,
  (exists fuel, parse_with_debug fuel s (once_rules mark required known) debug = Ok t) <->
  exists l, incl required l /\ incl l known /\ NoDup l /\ s = options_text mark l /\ t = Rule main (map (fun w => Val (option_text mark w)) l).
Proof.
  intros mark required known M A R K s debug t. pose proof (sane_once mark required known) as SR. destruct (once_main mark required known R K s) as (r & Q & H). split.
  - intros [fuel P]. destruct (Forall_dec ascii_char ascii_char_dec s) as [As|As]; [|destruct (parse_non_ascii fuel s _ debug t As P)].
    pose proof (proj1 (parse_accepts_iff s _ debug SR As t) (ex_intro _ fuel P)) as D. pose proof (peg_det _ _ _ _ Q _ D) as E.
    destruct H as [(l & (O1 & O2 & O3) & -> & ->)|(_ & [->|(ts & rest & -> & N)])]; [|discriminate|].
    + injection E as <-. exists l. auto.
    + injection E as _ ->. destruct (N eq_refl).
  - intros (l & O1 & O2 & O3 & -> & ->). assert (As : ascii (options_text mark l)).
    { apply once_text_ascii; [exact M|]. rewrite Forall_forall in A |- *. intros x X. apply A, O2, X. }
    apply (parse_accepts_iff _ _ debug SR As). destruct H as [(l' & (P1 & P2 & P3) & E & ->)|(N & _)]; [|destruct (N l (conj O1 (conj O2 O3)) eq_refl)].
    assert (X : l = l').
    { apply (text_inj mark l l' [] []); [| |intros []|intros []|rewrite !app_nil_r; exact E]; rewrite Forall_forall in K |- *; intros x X; apply K; auto. }
    subst l'. exact Q.
Qed.
Lemma once_rejects : forall mark required known, Forall (clean mark) required -> Forall (clean mark) known -> forall s debug, ascii s ->
  (forall l, incl required l -> incl l known -> NoDup l -> s <> options_text mark l) ->
  exists fuel er, parse_with_debug fuel s (once_rules mark required known) debug = Err er /\ e_priority er = Normal.
Proof.
  intros mark required known R K s debug A N. pose proof (sane_once mark required known) as SR. destruct (once_main mark required known R K s) as (r & Q & H).
  destruct H as [(l & (O1 & O2 & O3) & E & _)|(_ & H)]; [destruct (N l O1 O2 O3 E)|].
  destruct (proj2 (parse_terminates_iff s _ debug SR A) (ex_intro _ r Q)) as [fuel F]. exists fuel. pose proof (parse_sound fuel s _ debug SR) as Y.
  destruct (parse_with_debug fuel s (once_rules mark required known) debug) as [t|er| |]; [| |destruct (Y A)|destruct (F eq_refl)].
  - destruct Y as [_ Y]. pose proof (peg_det _ _ _ _ Q _ Y) as E. destruct H as [->|(ts & rest & -> & NE)]; [discriminate|]. injection E as _ ->. destruct (NE eq_refl).
  - exists er. split; [reflexivity|]. destruct (e_priority er); [reflexivity|]. destruct Y as [_ (rest & Y & _)]. pose proof (peg_det _ _ _ _ Q _ Y) as E. destruct H as [->|(ts & rest' & -> & NE)]; discriminate.
Qed.
