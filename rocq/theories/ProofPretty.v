(** The pretty output determines what was printed. *)
From Verif Require Import Base ModelAst ModelParser ModelPeg ModelDebug ModelPretty SpecRust ProofParser ProofEngine ProofAst ProofGcode ProofDebug.

(* ---- names -------------------------------------------------------------------------------- *)

Definition letterb (c : char) : bool := ((65 <=? c) && (c <=? 90) || (97 <=? c) && (c <=? 122) || (c =? 95))%N.
Definition letters (s : str) : bool := forallb letterb s.

(** The text does not go on with a letter. *)
Definition over (r : str) : Prop := match r with [] => True | c :: _ => letterb c = false end.

Lemma letters_span : forall a b r r', letters a = true -> letters b = true -> over r -> over r' -> a ++ r = b ++ r' -> a = b /\ r = r'.
Proof.
  induction a as [|c a IH]; intros [|d b] r r' A B R R' H; cbn [app] in H.
  - auto.
  - exfalso. cbn in B. apply andb_true_iff in B. subst r. cbn in R. destruct B. congruence.
  - exfalso. cbn in A. apply andb_true_iff in A. subst r'. cbn in R'. destruct A. congruence.
  - injection H as -> H. cbn in A, B. apply andb_true_iff in A, B. destruct (IH b r r' (proj2 A) (proj2 B) R R' H) as [-> ->]. auto.
Qed.

(* ---- expressions with names made of letters ------------------------------------------------ *)

Fixpoint named (d : shown) : Prop :=
  match d with
  | ShStr _ | ShChar _ | ShNum _ => True
  | ShUnit n => letters n = true
  | ShTuple n l => letters n = true /\ fold_right (fun x P => named x /\ P) True l
  | ShStruct n l => letters n = true /\ fold_right (fun p P => match p with (a, x) => letters a = true /\ named x end /\ P) True l
  | ShList l => fold_right (fun x P => named x /\ P) True l
  | ShMap l => fold_right (fun p P => match p with (a, x) => named x end /\ P) True l
  end.

Section ShownInd.
Variable P : shown -> Prop.
Hypothesis HS : forall s, P (ShStr s).
Hypothesis HC : forall c, P (ShChar c).
Hypothesis HN : forall n, P (ShNum n).
Hypothesis HU : forall n, P (ShUnit n).
Hypothesis HT : forall n l, Forall P l -> P (ShTuple n l).
Hypothesis HR : forall n l, Forall (fun p => P (snd p)) l -> P (ShStruct n l).
Hypothesis HL : forall l, Forall P l -> P (ShList l).
Hypothesis HM : forall l, Forall (fun p => P (snd p)) l -> P (ShMap l).

Fixpoint shown_ind' (d : shown) : P d :=
  match d with
  | ShStr s => HS s
  | ShChar c => HC c
  | ShNum n => HN n
  | ShUnit n => HU n
  | ShTuple n l => HT n l ((fix go (l : list shown) : Forall P l := match l with [] => Forall_nil _ | x :: r => Forall_cons _ (shown_ind' x) (go r) end) l)
  | ShStruct n l => HR n l ((fix go (l : list (str * shown)) : Forall (fun p => P (snd p)) l :=
      match l with [] => Forall_nil _ | (a, y) :: r => @Forall_cons _ (fun p => P (snd p)) (a, y) r (shown_ind' y) (go r) end) l)
  | ShList l => HL l ((fix go (l : list shown) : Forall P l := match l with [] => Forall_nil _ | x :: r => Forall_cons _ (shown_ind' x) (go r) end) l)
  | ShMap l => HM l ((fix go (l : list (str * shown)) : Forall (fun p => P (snd p)) l :=
      match l with [] => Forall_nil _ | (a, y) :: r => @Forall_cons _ (fun p => P (snd p)) (a, y) r (shown_ind' y) (go r) end) l)
  end.
End ShownInd.

Section Free.
Variable comma : bool.

(** What follows an item: a comma, a line break, or nothing. *)
Definition ends (r : str) : Prop := r = [] \/ exists x, r = 44%N :: x \/ r = ch_nl :: x.

Definition free_on {A} (ok : A -> Prop) (f : A -> str) (x : A) : Prop :=
  forall y r r', ok x -> ok y -> ends r -> ends r' -> f x ++ r = f y ++ r' -> x = y /\ r = r'.

Lemma repeat_spaces : forall k z u v w, z <> 32%N -> z :: u = v -> repeat 32%N k ++ v <> repeat 32%N (k + 4) ++ w.
Proof.
  induction k as [|k IH]; intros z u v w Z E H; cbn [repeat Nat.add app] in H.
  - subst v. injection H as H _. congruence.
  - injection H as H. exact (IH z u v w Z E H).
Qed.

Lemma lines_free : forall (A : Type) (ok : A -> Prop) (f : A -> str) k z, z <> 32%N ->
  forall l, Forall (free_on ok f) l -> Forall ok l -> forall l' u u', Forall ok l' ->
  lines comma k f l ++ new_line k ++ z :: u = lines comma k f l' ++ new_line k ++ z :: u' -> l = l' /\ u = u'.
Proof.
  intros A ok f k z Z. induction l as [|x l IH]; intros F O [|y l'] u u' O' H.
  - cbn [lines app] in H. apply app_inv_head in H. injection H as H. auto.
  - exfalso. cbn [lines app new_line] in H. rewrite <- !app_assoc in H. injection H as H. eapply repeat_spaces; [exact Z|reflexivity|exact H].
  - exfalso. cbn [lines app new_line] in H. rewrite <- !app_assoc in H. injection H as H. symmetry in H. eapply repeat_spaces; [exact Z|reflexivity|exact H].
  - inversion F as [|? ? F1 F2]; subst. inversion O as [|? ? O1 O2]; subst. inversion O' as [|? ? P1 P2]; subst.
    cbn [lines] in H. fold (lines comma k f l) in H. fold (lines comma k f l') in H. rewrite <- !app_assoc in H. apply app_inv_head in H.
    apply F1 in H; try assumption.
    + destruct H as [-> H].
      assert (Q : lines comma k f l ++ new_line k ++ z :: u = lines comma k f l' ++ new_line k ++ z :: u').
      { clear - H. destruct l as [|a l], l' as [|b l']; try (apply app_inv_head in H; exact H); destruct comma; try (apply app_inv_head in H; exact H);
          cbn [lines app new_line] in H; lits H; discriminate H. }
      destruct (IH F2 O2 l' u u' P2 Q) as [-> ->]. auto.
    + right. destruct l; [destruct comma|]; cbn; eauto.
    + right. destruct l'; [destruct comma|]; cbn; eauto.
Qed.

(** A block is told from what opens it. *)
Lemma block_free : forall (A : Type) (ok : A -> Prop) (f : A -> str) k op z, z <> 32%N -> z <> ch_nl ->
  forall l, Forall (free_on ok f) l -> Forall ok l -> forall l' r r', Forall ok l' ->
  block comma k op f l [z] ++ r = block comma k op f l' [z] ++ r' -> l = l' /\ r = r'.
Proof.
  intros A ok f k op z Z N l F O l' r r' O' H. unfold block in H. rewrite <- !app_assoc in H. apply app_inv_head in H.
  destruct l as [|x l], l' as [|y l'].
  - cbn [app] in H. injection H as H. auto.
  - exfalso. cbn [lines app new_line] in H. congruence.
  - exfalso. cbn [lines app new_line] in H. congruence.
  - rewrite <- !app_assoc in H. cbn [app] in H. exact (lines_free A ok f k z Z (x :: l) F O (y :: l') r r' O' H).
Qed.

Lemma fold_all : forall (A : Type) (P : A -> Prop) l, fold_right (fun x Q => P x /\ Q) True l -> Forall P l.
Proof. intros A P. induction l as [|x l IH]; cbn; [constructor|]. intros [H1 H2]. constructor; auto. Qed.

Definition label (p : str * shown) : Prop := letters (fst p) = true /\ named (snd p).

(** The first char tells the kind. *)
Definition front (d : shown) : option char :=
  match d with
  | ShStr _ => Some ch_dquote
  | ShChar _ => Some ch_quote
  | ShTuple _ _ => Some 40%N
  | ShStruct _ _ => Some 32%N
  | ShList _ => Some 91%N
  | ShMap _ => Some 123%N
  | _ => None
  end.

Definition name_of (d : shown) : str := match d with ShUnit n | ShTuple n _ | ShStruct n _ => n | _ => [] end.
Definition rest_of (k : nat) (d : shown) : str :=
  match d with
  | ShUnit _ => []
  | ShTuple _ l => block comma k (s_ "(") (pretty comma (k + 4)) l (s_ ")")
  | ShStruct _ l => block comma k (s_ " {") (fun p => match p with (a, x) => a ++ s_ ": " ++ pretty comma (k + 4) x end) l (s_ "}")
  | d => pretty comma k d
  end.

Lemma pretty_split : forall k d, pretty comma k d = name_of d ++ rest_of k d.
Proof. intros k d. destruct d; cbn [name_of rest_of pretty]; rewrite ?app_nil_r; reflexivity. Qed.

Lemma name_letters : forall d, named d -> letters (name_of d) = true.
Proof. intros d N. destruct d; cbn in N |- *; tauto. Qed.

Lemma dec_head : forall n, exists c x, dec n = c :: x /\ digit c.
Proof.
  intros n. pose proof (dec_digits n) as D. destruct (dec n) as [|c x] eqn:E.
  - exfalso. assert (H : dec n <> []).
    { assert (G : forall f m acc, acc <> [] -> dec_aux f m acc <> []).
      { induction f as [|f IH]; intros m acc A; cbn [dec_aux]; [exact A|]. cbv zeta. destruct (m / 10 =? 0); [discriminate|]. apply IH. discriminate. }
      unfold dec. cbn [dec_aux]. cbv zeta. destruct (n / 10 =? 0); [discriminate|]. apply G. discriminate. }
    exact (H E).
  - exists c, x. split; [reflexivity|]. inversion D; assumption.
Qed.

Lemma rest_head : forall k d r, ends r -> match front d with
  | Some c => exists x, rest_of k d ++ r = c :: x
  | None => match d with ShNum _ => exists c x, rest_of k d ++ r = c :: x /\ digit c | _ => rest_of k d ++ r = r end
  end.
Proof.
  intros k d r E. destruct d; cbn [front rest_of pretty]; unfold block; try (eexists; reflexivity).
  destruct (dec_head n) as (c & x & -> & D). exists c, (x ++ r). split; [reflexivity|exact D].
Qed.

Lemma ends_over : forall r, ends r -> over r.
Proof. intros r [->|(x & [->| ->])]; exact I || reflexivity. Qed.

Lemma rest_over : forall k d r, ends r -> over (rest_of k d ++ r).
Proof.
  intros k d r E. pose proof (rest_head k d r E) as H. destruct d; cbn [front] in H;
    try (destruct H as [x H]; rewrite H; reflexivity).
  - destruct H as (c & x & -> & D). unfold digit in D. cbn. unfold letterb.
    destruct (N.leb_spec 65 c); [lia|]. destruct (N.leb_spec 97 c); [lia|]. destruct (N.eqb_spec c 95); [lia|]. reflexivity.
  - rewrite H. apply ends_over, E.
Qed.

Lemma dec_ends : forall n m r r', ends r -> ends r' -> dec n ++ r = dec m ++ r' -> n = m /\ r = r'.
Proof.
  assert (D : forall r, ends r -> match r with [] => True | c :: _ => ~ digit c end).
  { intros r [->|(x & [->| ->])]; [exact I| |]; unfold digit, ch_nl; lia. }
  assert (S : forall a b r r', Forall digit a -> Forall digit b -> ends r -> ends r' -> a ++ r = b ++ r' -> a = b /\ r = r').
  { induction a as [|c a IH]; intros [|d b] r r' A B R R' H; cbn [app] in H.
    - auto.
    - exfalso. inversion B; subst. exact (D _ R H2).
    - exfalso. inversion A; subst. exact (D _ R' H2).
    - injection H as -> H. inversion A; inversion B; subst. destruct (IH b r r') as [-> ->]; auto. }
  intros n m r r' R R' H. apply S in H; try assumption; try apply dec_digits. destruct H as [H ->]. split; [apply dec_inj; exact H|reflexivity].
Qed.

Lemma label_free : forall k p, free_on named (pretty comma k) (snd p) -> free_on label (fun p => match p with (a, x) => a ++ s_ ": " ++ pretty comma k x end) p.
Proof.
  intros k [a x] F [b y] r r' [A X] [B Y] R R' H. cbn [fst snd] in *. rewrite <- !app_assoc in H.
  apply letters_span in H; try assumption; try reflexivity. destruct H as [-> H]. apply app_inv_head in H.
  apply F in H; try assumption. destruct H as [-> ->]. auto.
Qed.

Lemma key_free : forall k p, free_on named (pretty comma k) (snd p) ->
  free_on (fun p => named (snd p)) (fun p => match p with (a, x) => debug_str a ++ s_ ": " ++ pretty comma k x end) p.
Proof.
  intros k [a x] F [b y] r r' X Y R R' H. cbn [fst snd] in *. rewrite <- !app_assoc in H.
  apply debug_str_free in H. destruct H as [-> H]. apply app_inv_head in H.
  apply F in H; try assumption. destruct H as [-> ->]. auto.
Qed.

(** The kinds: 8 for the shapes, by the first char after the name. *)
Definition kind (d : shown) : nat :=
  match d with ShStr _ => 0 | ShChar _ => 1 | ShNum _ => 2 | ShUnit _ => 3 | ShTuple _ _ => 4 | ShStruct _ _ => 5 | ShList _ => 6 | ShMap _ => 7 end.

Lemma same_kind : forall k d d' r r', ends r -> ends r' -> rest_of k d ++ r = rest_of k d' ++ r' -> kind d = kind d'.
Proof.
  intros k d d' r r' R R' H. pose proof (rest_head k d r R) as T. pose proof (rest_head k d' r' R') as T'. rewrite H in T.
  assert (E : forall r c x, ends r -> r = c :: x -> c = 44%N \/ c = ch_nl) by (intros r0 c x [->|(y & [->| ->])] Q; [discriminate|injection Q; auto|injection Q; auto]).
  destruct d, d'; try reflexivity; exfalso; cbn [front] in T, T';
    repeat match goal with H : exists _, _ |- _ => destruct H | H : _ /\ _ |- _ => destruct H end; unfold digit, ch_quote, ch_dquote, ch_nl in *;
    match goal with
    | A : ?x = _ :: _, B : ?x = _ :: _ |- _ => rewrite A in B; injection B; intros; subst; try discriminate; try lia
    | A : ?x = _ :: _, B : ?x = ?r |- _ => rewrite A in B; symmetry in B; apply E in B; [destruct B; subst; try discriminate; lia|assumption]
    end.
Qed.

Lemma pretty_free : forall d k, free_on named (pretty comma k) d.
Proof.
  induction d as [s|c|n|n|n l IH|n l IH|l IH|l IH] using shown_ind'; intros k d' r r' N N' R R' H;
    rewrite !pretty_split, <- !app_assoc in H;
    (apply letters_span in H; [|apply name_letters; assumption|apply name_letters; assumption|apply rest_over; assumption|apply rest_over; assumption]);
    destruct H as [E H]; pose proof (same_kind k _ _ _ _ R R' H) as K;
    destruct d' as [s'|c'|n'|n'|n' l'|n' l'|l'|l']; try discriminate K; clear K; cbn [name_of rest_of pretty] in E, H.
  - apply debug_str_free in H. destruct H as [-> ->]. auto.
  - apply debug_char_free in H. destruct H as [-> ->]. auto.
  - apply dec_ends in H; try assumption. destruct H as [-> ->]. auto.
  - cbn [app] in H. subst. auto.
  - subst n'. destruct N as [_ N], N' as [_ N'].
    apply (block_free _ named) in H; try discriminate; [|eapply Forall_impl; [|exact IH]; cbn; auto|apply fold_all; exact N|apply fold_all; exact N'].
    destruct H as [-> ->]. auto.
  - subst n'. destruct N as [_ N], N' as [_ N'].
    assert (L : forall l, fold_right (fun p P => match p with (a, x) => letters a = true /\ named x end /\ P) True l -> Forall label l).
    { clear. induction l as [|[a x] l IH]; cbn; [constructor|]. intros [H1 H2]. constructor; auto. }
    apply (block_free _ label) in H; try discriminate; [|eapply Forall_impl; [|exact IH]; intros p F; apply label_free, F|apply L; exact N|apply L; exact N'].
    destruct H as [-> ->]. auto.
  - apply (block_free _ named) in H; try discriminate; [|eapply Forall_impl; [|exact IH]; cbn; auto|apply fold_all; exact N|apply fold_all; exact N'].
    destruct H as [-> ->]. auto.
  - assert (L : forall l, fold_right (fun p P => match p with (a, x) => named x end /\ P) True l -> Forall (fun p : str * shown => named (snd p)) l).
    { clear. induction l as [|[a x] l IH]; cbn; [constructor|]. intros [H1 H2]. constructor; auto. }
    apply (block_free _ (fun p => named (snd p))) in H; try discriminate; [|eapply Forall_impl; [|exact IH]; intros p F; apply key_free, F|apply L; exact N|apply L; exact N'].
    destruct H as [-> ->]. auto.
Qed.
End Free.

Lemma pretty_inj : forall comma k d d', named d -> named d' -> pretty comma k d = pretty comma k d' -> d = d'.
Proof.
  intros comma k d d' N N' H. apply (pretty_free comma d k d' [] []); try assumption; try (left; reflexivity). rewrite !app_nil_r. exact H.
Qed.

(* ---- the types of the crate ---------------------------------------------------------------- *)

Lemma items_map : forall (A B : Type) (f : B -> str) (g : A -> B) l, debug_items f (map g l) = debug_items (fun x => f (g x)) l.
Proof. intros A B f g. induction l as [|x [|y l] IH]; try reflexivity. cbn [map debug_items] in *. rewrite IH. reflexivity. Qed.

Lemma items_ext : forall (A : Type) (f g : A -> str) l, Forall (fun x => f x = g x) l -> debug_items f l = debug_items g l.
Proof.
  intros A f g l H. induction H as [|x l E H IH]; [reflexivity|]. destruct l as [|y l]; cbn [debug_items] in *; [exact E|]. rewrite E, IH. reflexivity.
Qed.

Lemma compact_node : forall x, compact_of (show_node x) = debug_node x.
Proof.
  induction x as [v|n l IH|] using node_ind'; [reflexivity| |reflexivity].
  rewrite debug_node_items. cbn [show_node compact_of debug_items]. unfold debug_vec. rewrite items_map, (items_ext _ _ debug_node l IH).
  change (s_ "Rule((") with (s_ "Rule" ++ s_ "(" ++ s_ "("). change (s_ "))") with (s_ ")" ++ s_ ")"). rewrite <- !app_assoc. reflexivity.
Qed.

Lemma compact_token : forall x, compact_of (show_token x) = debug_token x.
Proof. intros [v|v|v|]; reflexivity. Qed.

Lemma compact_atom : forall a, compact_of (show_atom a) = debug_atom a.
Proof.
  intros [s|cs rg|s| |]; try reflexivity. cbn [show_atom compact_of debug_items debug_atom]. unfold debug_vec. rewrite items_map.
  change (s_ "Match(MatchRules(") with (s_ "Match" ++ s_ "(" ++ s_ "MatchRules" ++ s_ "("). change (s_ "))") with (s_ ")" ++ s_ ")").
  rewrite (items_ext _ _ debug_range rg) by (apply Forall_forall; intros [a b] _; cbn [compact_of debug_items fst snd]; unfold debug_range; rewrite <- !app_assoc; reflexivity).
  rewrite <- !app_assoc. reflexivity.
Qed.

Lemma compact_expr : forall e, compact_of (show_expr e) = debug_expr e.
Proof.
  induction e as [a|es IH|es IH|e IH|e mn mx IH|n] using expr_ind'; cbn [show_expr compact_of debug_items debug_expr]; unfold debug_vec.
  - rewrite compact_atom. reflexivity.
  - rewrite items_map, (items_ext _ _ debug_expr es IH). change (s_ "And(MultiExpr(") with (s_ "And" ++ s_ "(" ++ s_ "MultiExpr" ++ s_ "(").
    change (s_ "))") with (s_ ")" ++ s_ ")"). rewrite <- !app_assoc. reflexivity.
  - rewrite items_map, (items_ext _ _ debug_expr es IH). change (s_ "Or(MultiExpr(") with (s_ "Or" ++ s_ "(" ++ s_ "MultiExpr" ++ s_ "(").
    change (s_ "))") with (s_ ")" ++ s_ ")"). rewrite <- !app_assoc. reflexivity.
  - rewrite IH. reflexivity.
  - rewrite IH. destruct mx as [m|]; cbn [show_option show_nrep compact_of debug_items debug_option]; unfold debug_nrep;
      rewrite <- ?app_assoc; reflexivity.
  - reflexivity.
Qed.

Lemma compact_rules : forall l, compact_of (show_rules l) = debug_rules l.
Proof.
  intros l. unfold show_rules, debug_rules. cbn [compact_of debug_items]. rewrite items_map.
  rewrite (items_ext _ _ debug_rule l); [|apply Forall_forall; intros [n e] _; cbn [fst snd]; rewrite compact_expr; reflexivity].
  change (s_ "SetOfRules({") with (s_ "SetOfRules" ++ s_ "(" ++ s_ "{"). change (s_ "})") with (s_ "}" ++ s_ ")"). rewrite <- !app_assoc. reflexivity.
Qed.

Lemma compact_position : forall p, compact_of (show_position p) = debug_position p.
Proof. intros p. unfold show_position, debug_position. cbn [compact_of debug_items]. rewrite <- !app_assoc. reflexivity. Qed.

Lemma compact_perror : forall e, compact_of (show_perror e) = debug_perror e.
Proof.
  intros e. unfold show_perror, debug_perror. cbn [compact_of debug_items]. rewrite compact_position, items_map.
  unfold debug_vec. replace (compact_of (show_prio (e_priority e))) with (debug_prio (e_priority e)) by (destruct (e_priority e); reflexivity).
  rewrite <- !app_assoc. reflexivity.
Qed.

Lemma compact_ast_error : forall e, compact_of (show_ast_error e) = debug_ast_error e.
Proof.
  intros [d [c|]]; unfold show_ast_error, debug_ast_error; cbn [ast_descr ast_context compact_of debug_items show_option debug_option];
    rewrite <- ?app_assoc; reflexivity.
Qed.

Lemma fold_map_named : forall (A : Type) (f : A -> shown) l, Forall (fun x => named (f x)) l -> fold_right (fun x P => named x /\ P) True (map f l).
Proof. intros A f l H. induction H as [|x l E H IH]; cbn; auto. Qed.

Lemma named_node : forall x, named (show_node x).
Proof.
  induction x as [v|n l IH|] using node_ind'; [cbn; auto| |reflexivity]. cbn [show_node named fold_right]. repeat split. apply fold_map_named, IH.
Qed.

Lemma named_atom : forall a, named (show_atom a).
Proof.
  intros [s|cs rg|s| |]; cbn [show_atom named fold_right]; repeat split. apply fold_map_named, Forall_forall. intros p _. cbn. auto.
Qed.

Lemma named_expr : forall e, named (show_expr e).
Proof.
  induction e as [a|es IH|es IH|e IH|e mn mx IH|n] using expr_ind'; cbn [show_expr named fold_right]; repeat split; try (apply fold_map_named, IH); try exact IH.
  - apply named_atom.
  - destruct mx; cbn; auto.
Qed.

Lemma named_rules : forall l, named (show_rules l).
Proof.
  intros l. unfold show_rules. cbn [named fold_right]. repeat split.
  induction l as [|[n e] l IH]; cbn [map fold_right]; [exact I|]. split; [apply named_expr|exact IH].
Qed.

Lemma named_perror : forall e, named (show_perror e).
Proof.
  intros e. unfold show_perror. cbn [named fold_right show_position show_prio]. repeat split.
  - apply fold_map_named, Forall_forall. intros x _. exact I.
  - destruct (e_priority e); reflexivity.
Qed.

Lemma pretty_determines : forall (A : Type) (show : A -> shown) (debug : A -> str), (forall x, named (show x)) -> (forall x, compact_of (show x) = debug x) ->
  (forall x y, debug x = debug y -> x = y) -> forall comma k x y, pretty comma k (show x) = pretty comma k (show y) -> x = y.
Proof. intros A show debug N C I comma k x y H. apply I. rewrite <- !C. f_equal. eapply pretty_inj; [apply N|apply N|exact H]. Qed.

Lemma token_pretty : forall x, debug_fnode x = pretty true 0 (show_token x).
Proof. intros [v|v|v|]; cbn; rewrite <- ?app_assoc; reflexivity. Qed.
