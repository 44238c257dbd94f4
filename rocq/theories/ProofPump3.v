(** The two parts that can be repeated are near each other; copies do not survive that. *)
From Verif Require Import Base ModelAst ModelParser SpecPeg SpecPos SpecApi SpecWf SpecLang SpecBnf SpecPower ProofParser ProofEngine ProofApi ProofWf ProofBnf ProofDocs ProofPump ProofPump2.

Section Near.
Variable G : str -> option expr.
Notation gens := (gens G).
Notation gen := (gen G).
Notation around := (around G).

Definition near (P : nat) (e : expr) (s : str) : Prop :=
  exists a u w v b, s = a ++ u ++ w ++ v ++ b /\ u ++ v <> [] /\ length (u ++ w ++ v) <= P /\ forall n, gen e (a ++ times n u ++ w ++ times n v ++ b).

Lemma near_around : forall P e f u v s, around e f u v -> near P f s -> near P e (u ++ s ++ v).
Proof.
  intros P e f p q s H (a & u & w & v & b & -> & N & L & K). exists (p ++ a), u, w, v, (b ++ q).
  split; [rewrite <- !app_assoc; reflexivity|]. split; [exact N|]. split; [exact L|]. intro n. specialize (H _ (K n)).
  replace ((p ++ a) ++ times n u ++ w ++ times n v ++ b ++ q) with (p ++ (a ++ times n u ++ w ++ times n v ++ b) ++ q); [exact H|rewrite <- !app_assoc; reflexivity].
Qed.
Lemma near_short : forall P e s, pumps G e s -> length s <= P -> near P e s.
Proof.
  intros P e s (a & u & w & v & b & E & N & K) L. exists a, u, w, v, b. split; [exact E|]. split; [exact N|]. split; [|exact K].
  subst s. rewrite !app_length in *. unfold str, char in *. lia.
Qed.

(** Given that rules behave well in smaller derivations, all expressions do. *)
Definition calm (B P k : nat) : Prop := forall j n w, j <= k -> gens j (RuleName n) w -> B < length w -> near P (RuleName n) w.
Definition tame (B c : nat) (e : expr) : Prop := forall P k s, c <= P -> calm B P k -> gens k e s -> near P e s \/ length s <= c.

Lemma calm_less : forall B P k k', k' <= k -> calm B P k -> calm B P k'.
Proof. intros B P k k' L C j n w J. apply C. lia. Qed.
Lemma tame_more : forall B c c' e, c <= c' -> tame B c e -> tame B c' e.
Proof. intros B c c' e L T P k s LP C D. destruct (T P k s ltac:(lia) C D); [left; assumption|right; lia]. Qed.

Lemma tame_and : forall B es, Forall (fun e => exists c, tame B c e) es -> exists c, tame B c (And es).
Proof.
  intros B es F. induction F as [|e es (c & T) _ (d & U)].
  - exists 0. intros P k s _ _ H. inversion H; subst. right. cbn. lia.
  - exists (c + d). intros P k s LP C H. inversion H as [| | | | |? ? w v j k0 D1 D2| | | | |]; subst.
    destruct (T P j w ltac:(lia) (fun j' n' w' J => C j' n' w' ltac:(lia)) D1) as [N|Lw].
    { left. exact (near_around P _ _ [] v w (around_left G e es v k0 D2) N). }
    destruct (U P k0 v ltac:(lia) (fun j' n' w' J => C j' n' w' ltac:(lia)) D2) as [N|Lv].
    { left. pose proof (near_around P _ _ w [] v (around_right G e es w j D1) N) as X. rewrite app_nil_r in X. exact X. }
    right. rewrite app_length. unfold str, char in *. lia.
Qed.
Lemma tame_or : forall B es, Forall (fun e => exists c, tame B c e) es -> exists c, tame B c (Or es).
Proof.
  intros B es F. assert (Q : exists c, forall e, In e es -> tame B c e).
  { induction F as [|e es (b & T) _ (c & U)]; [exists 0; intros e []|]. exists (b + c). intros e' [<-|I]; [apply (tame_more B b); [lia|exact T]|apply (tame_more B c); [lia|exact (U e' I)]]. }
  destruct Q as (c & Q). exists c. intros P k s LP C H. inversion H as [| | | | | | ? ? ? j I D| | | |]; subst.
  destruct (Q _ I P j s LP (fun j' n' w' J => C j' n' w' ltac:(lia)) D) as [N|Ls]; [left|right; exact Ls].
  pose proof (near_around P _ _ [] [] s (around_or G e es I) N) as X. cbn [app] in X. rewrite app_nil_r in X. exact X.
Qed.
Lemma tame_turns : forall B e c, tame B c e -> forall m mn, tame B (m * c) (Repeat e mn (Some m)).
Proof.
  intros B e c T m. induction m as [|m IH]; intros mn P k s LP C H; inversion H as [| | | | | | | | |? ? ? w v j k0 X D1 D2|]; subst.
  - right. cbn. lia.
  - congruence.
  - right. cbn. lia.
  - cbn [option_map pred] in D2. cbn in LP. destruct (T P j w ltac:(lia) (fun j' n' w' J => C j' n' w' ltac:(lia)) D1) as [N|Lw].
    { left. exact (near_around P _ _ [] v w (around_first G e mn (Some (S m)) v k0 X D2) N). }
    destruct (IH _ P k0 v ltac:(lia) (fun j' n' w' J => C j' n' w' ltac:(lia)) D2) as [N|Lv].
    { left. pose proof (near_around P _ _ w [] v (around_rest G e mn (Some (S m)) w j X D1) N) as Y. rewrite app_nil_r in Y. exact Y. }
    right. rewrite app_length. unfold str, char in *. cbn. lia.
Qed.
Lemma tame_loop0 : forall B e c, tame B c e -> tame B c (Repeat e 0 None).
Proof.
  intros B e c T P k. induction k as [k IH] using (well_founded_induction lt_wf). intros s LP C H.
  inversion H as [| | | | | | | | |? ? ? w v j k0 X D1 D2|]; subst; [right; cbn; lia|]. cbn [option_map pred] in D2.
  assert (A := around_rest G e 0 None w j X D1). cbn [option_map pred] in A. destruct w as [|d w].
  - cbn [app] in *. exact (IH k0 ltac:(lia) v LP (fun j' n' w' J => C j' n' w' ltac:(lia)) D2).
  - left. destruct (T P j (d :: w) LP (fun j' n' w' J => C j' n' w' ltac:(lia)) D1) as [N|Lw].
    { exact (near_around P _ _ [] v _ (around_first G e 0 None v k0 X D2) N). }
    exists [], (d :: w), [], [], v. split; [reflexivity|]. split; [discriminate|]. split; [cbn in *; rewrite app_nil_r; unfold str, char in *; lia|].
    intro n. pose proof (around_times G _ _ [] n A v (ex_intro _ k0 D2)) as Y.
    assert (Z : times n (@nil char) = []) by (clear; induction n as [|n IH]; [reflexivity|exact IH]). rewrite Z in *. rewrite app_nil_r in Y. exact Y.
Qed.
Lemma tame_loop : forall B e c, tame B c e -> forall mn, tame B (S mn * c) (Repeat e mn None).
Proof.
  intros B e c T mn. induction mn as [|mn IH]; [apply (tame_more B c); [lia|exact (tame_loop0 B e c T)]|]. intros P k s LP C H.
  inversion H as [| | | | | | | | |? ? ? w v j k0 X D1 D2|]; subst. cbn [option_map pred] in D2. cbn in LP.
  destruct (T P j w ltac:(lia) (fun j' n' w' J => C j' n' w' ltac:(lia)) D1) as [N|Lw].
  { left. exact (near_around P _ _ [] v w (around_first G e (S mn) None v k0 X D2) N). }
  destruct (IH P k0 v ltac:(cbn; lia) (fun j' n' w' J => C j' n' w' ltac:(lia)) D2) as [N|Lv].
  { left. pose proof (near_around P _ _ w [] v (around_rest G e (S mn) None w j X D1) N) as Y. rewrite app_nil_r in Y. exact Y. }
  right. rewrite app_length. unfold str, char in *. cbn in *. lia.
Qed.
Lemma tame_all : forall B e, exists c, tame B c e.
Proof.
  intros B e. induction e as [a|es IH|es IH|x IH|x mn mx IH|n] using expr_ind'.
  - exists (match a with Literal l => length l | _ => 1 end). intros P k s _ _ H. inversion H; subst; right; cbn; lia.
  - exact (tame_and B es IH).
  - exact (tame_or B es IH).
  - exists 0. intros P k s _ _ H. inversion H; subst. right. cbn. lia.
  - destruct IH as (c & T). destruct mx as [m|]; [exists (m * c); exact (tame_turns B x c T m mn)|exists (S mn * c); exact (tame_loop B x c T mn)].
  - exists B. intros P k s _ C H. destruct (le_lt_dec (length s) B) as [L|L]; [right; exact L|left]. exact (C k n s ltac:(lia) H L).
Qed.

Variable ns : list str.
Hypothesis NS : forall n, G n <> None -> In n ns.

Lemma rules_weak : exists B, forall n k s, gens k (RuleName n) s -> B < length s -> pumps G (RuleName n) s.
Proof.
  assert (Y : forall l, exists B, forall n, In n l -> bounded G [] (RuleName n) B).
  { induction l as [|m l (c & Hc)]; [exists 0; intros n []|].
    destruct (bounded_all G (length ns) ns [] (le_n _) (fun n H => or_intror (NS n H)) (RuleName m)) as (b & Hb).
    exists (b + c). intros n [<-|I0] k s D; [destruct (Hb k s D) as [|[|]]|destruct (Hc n I0 k s D) as [|[|]]]; [tauto|tauto|right; right; lia|tauto|tauto|right; right; lia]. }
  destruct (Y ns) as (B & H). exists B. intros n k s D L.
  assert (I0 : In n ns) by (apply NS; inversion D; congruence).
  destruct (H n I0 k s D) as [X|[(m & ? & ? & ? & ? & [] & _)|X]]; [exact X|lia].
Qed.

Lemma bodies_tame : forall B l, exists c, forall n e, In n l -> G n = Some e -> tame B c e.
Proof.
  intros B l. induction l as [|m l (c & H)]; [exists 0; intros n e []|]. destruct (G m) as [x|] eqn:E.
  - destruct (tame_all B x) as (d & T). exists (c + d). intros n e [<-|I0] E'; [apply (tame_more B d); [lia|]; rewrite E in E'; injection E' as <-; exact T|apply (tame_more B c); [lia|exact (H n e I0 E')]].
  - exists c. intros n e [<-|I0] E'; [congruence|exact (H n e I0 E')].
Qed.

Lemma near_all : forall e, exists p, forall s, gen e s -> p < length s -> near p e s.
Proof.
  intro e. destruct rules_weak as (B & W). destruct (bodies_tame B ns) as (c & H). destruct (tame_all B e) as (d & T). exists (c + d).
  assert (C : forall k, calm B (c + d) k).
  { induction k as [k IH] using (well_founded_induction lt_wf). intros j n w J D L.
    inversion D as [| | | | | | | | | |? x ? i E D']; subst. assert (I0 : In n ns) by (apply NS; congruence).
    destruct (H n x I0 E (c + d) i w ltac:(lia) (IH i ltac:(lia)) D') as [X|X].
    - pose proof (near_around _ _ _ [] [] w (around_rule G n x E) X) as Y. cbn [app] in Y. rewrite app_nil_r in Y. exact Y.
    - apply near_short; [exact (W n _ w D L)|lia]. }
  intros s (k & D) L. destruct (T (c + d) k s ltac:(lia) (C k) D) as [X|X]; [exact X|lia].
Qed.
End Near.

Lemma generated_near : forall rs e, exists p, forall s ts, derives (grammar_of rs) e s ts -> p < length s ->
  exists a u w v b, s = a ++ u ++ w ++ v ++ b /\ u ++ v <> [] /\ length (u ++ w ++ v) <= p /\
    forall n, exists us, derives (grammar_of rs) e (a ++ times n u ++ w ++ times n v ++ b) us.
Proof.
  intros rs e. destruct (near_all (grammar_of rs) (map fst rs) (rules_names rs) e) as (p & H). exists p. intros s ts D L.
  destruct (H s (proj2 (gen_derives (grammar_of rs) e s) (ex_intro _ ts D)) L) as (a & u & w & v & b & E & N & Q & K).
  exists a, u, w, v, b. split; [exact E|]. split; [exact N|]. split; [exact Q|]. intro n. apply gen_derives, K.
Qed.

(** * Copies *)

Lemma count_app' : forall c s t, count c (s ++ t) = count c s + count c t.
Proof. intros c s t. induction s as [|d s IH]; cbn [app count]; [reflexivity|]. rewrite IH. lia. Qed.
Lemma count_same' : forall c n, count c (times n [c]) = n.
Proof. intros c n. induction n as [|n IH]; cbn [times app count]; [reflexivity|]. rewrite N.eqb_refl, IH. lia. Qed.
Lemma count_in' : forall c s, 0 < count c s -> In c s.
Proof.
  intros c s. induction s as [|d s IH]; cbn [count]; [lia|]. destruct (N.eqb d c) eqn:E.
  - apply N.eqb_eq in E. intros _. left. exact E.
  - intro H. right. apply IH. lia.
Qed.

Section Copies.
Variables x y m : char.
Hypothesis XY : x <> y.
Hypothesis XM : x <> m.
Hypothesis YM : y <> m.

Lemma split_m : forall a b a' b' : str, ~ In m a -> ~ In m a' -> a ++ m :: b = a' ++ m :: b' -> a = a' /\ b = b'.
Proof.
  induction a as [|c a IH]; intros b [|c' a'] b' N N' E; cbn in E.
  - injection E as ->. split; reflexivity.
  - injection E as <- _. destruct N'. left. reflexivity.
  - injection E as -> _. destruct N. left. reflexivity.
  - injection E as <- E. destruct (IH b a' b') with (3 := E) as [-> ->]; [intro I; apply N; right; exact I|intro I; apply N'; right; exact I|split; reflexivity].
Qed.

Lemma app_cases : forall a b c d : str, a ++ b = c ++ d -> (exists l, a = c ++ l /\ d = l ++ b) \/ (exists l, c = a ++ l /\ b = l ++ d).
Proof.
  induction a as [|h a IH]; intros b c d E; cbn in E; [right; exists c; split; [reflexivity|exact E]|].
  destruct c as [|h' c]; cbn in E; [left; exists (h :: a); split; [reflexivity|symmetry; exact E]|]. injection E as <- E.
  destruct (IH b c d E) as [(l & -> & ->)|(l & -> & ->)]; [left|right]; exists l; split; reflexivity.
Qed.

Definition half (q : nat) : str := times q [x] ++ times q [y].
Lemma half_m : forall q, ~ In m (half q).
Proof. intros q I. apply in_app_or in I. destruct I as [I|I]; apply in_times in I; congruence. Qed.
Lemma times_len : forall (c : char) q, length (times q [c]) = q.
Proof. intros c q. induction q as [|q IH]; cbn; [reflexivity|rewrite IH; reflexivity]. Qed.
Lemma half_len : forall q, length (half q) = q + q.
Proof. intro q. unfold half. rewrite app_length, !times_len. reflexivity. Qed.
Lemma half_x : forall q, count x (half q) = q.
Proof. intro q. unfold half. rewrite count_app', count_same', count_other by congruence. lia. Qed.
Lemma suffix_y : forall q a u, half q = a ++ u -> length u < q -> count x u = 0.
Proof.
  intros q a u E L. unfold half in E. destruct (app_cases _ _ _ _ E) as [(l & X & ->)|(l & -> & X)].
  - apply (f_equal (@length char)) in X. rewrite !app_length, ?times_len in *. pose proof (times_len y q). unfold str, char in *. lia.
  - pose proof (count_other x y q ltac:(congruence)) as Z. rewrite X, count_app' in Z. lia.
Qed.
Lemma prefix_x : forall q v b, half q = v ++ b -> length v < q -> count x v = length v.
Proof.
  intros q v b E L. unfold half in E. symmetry in E. destruct (app_cases _ _ _ _ E) as [(l & X & _)|(l & X & _)].
  - apply (f_equal (@length char)) in X. rewrite app_length, times_len in X. unfold str, char in *. lia.
  - pose proof (count_same' x q) as Z. pose proof (times_len x q) as Y. rewrite X in Z, Y. rewrite count_app' in Z. rewrite app_length in Y.
    assert (W : forall s, count x s <= length s) by (induction s as [|d s IH]; cbn; [lia|destruct (N.eqb d x); lia]).
    pose proof (W v). pose proof (W l). unfold str, char in *. lia.
Qed.

Lemma count_le : forall s, 0 < count m s <-> In m s.
Proof.
  intro s. split; [apply count_in'|]. induction s as [|d s IH]; cbn; [tauto|]. intros [->|I]; [rewrite N.eqb_refl; lia|]. specialize (IH I). lia.
Qed.
(** A text with one mark has it in one place. *)
Lemma one_place : forall s a b, count m s = 1 -> s = a ++ m :: b -> ~ In m a /\ ~ In m b.
Proof.
  intros s a b C ->. rewrite count_app' in C. cbn [count] in C. rewrite N.eqb_refl in C. split; intro I; apply count_le in I; lia.
Qed.

Lemma copies_do_not_repeat : forall q a u w v b, half q ++ m :: half q = a ++ u ++ w ++ v ++ b -> u ++ v <> [] -> length (u ++ w ++ v) < q ->
  forall t, ~ In m t -> a ++ w ++ b = t ++ m :: t -> False.
Proof.
  intros q a u w v b E N L t T E0.
  assert (CM : forall s, ~ In m s -> count m s = 0).
  { intros s H. destruct (count m s) eqn:Q; [reflexivity|]. destruct H. apply count_in'. lia. }
  assert (C1 : count m (half q ++ m :: half q) = 1) by (rewrite count_app'; cbn [count]; rewrite N.eqb_refl, !(CM _ (half_m q)); reflexivity).
  assert (C0 : count m (t ++ m :: t) = 1) by (rewrite count_app'; cbn [count]; rewrite N.eqb_refl, !(CM _ T); reflexivity).
  assert (LN : length u + length v <> 0) by (intro Z; apply N; apply length_zero_iff_nil; rewrite app_length; exact Z).
  pose proof (half_m q) as HM. pose proof (half_len q) as HL. rewrite !app_length in L.
  assert (W : In m a \/ In m w \/ In m b).
  { assert (I : In m (a ++ w ++ b)) by (rewrite E0; apply in_or_app; right; left; reflexivity). apply in_app_or in I. destruct I as [I|I]; [left; exact I|]. apply in_app_or in I. tauto. }
  assert (K : forall p r p' r' : str, half q ++ m :: half q = p ++ m :: r -> t ++ m :: t = p' ++ m :: r' -> half q = p /\ half q = r /\ t = p' /\ t = r').
  { intros p r p' r' X Y. destruct (one_place _ _ _ C1 X) as [P1 _]. destruct (one_place _ _ _ C0 Y) as [P2 _].
    destruct (split_m _ _ _ _ HM P1 X). destruct (split_m _ _ _ _ T P2 Y). repeat split; assumption. }
  destruct W as [I|[I|I]]; apply in_split in I; destruct I as (a1 & a2 & ->).
  - destruct (K a1 (a2 ++ u ++ w ++ v ++ b) a1 (a2 ++ w ++ b)) as (X1 & X2 & X3 & X4).
    { rewrite E, <- app_assoc. reflexivity. } { rewrite <- E0, <- app_assoc. reflexivity. }
    apply (f_equal (@length char)) in X1, X2, X3, X4. rewrite !app_length in *. unfold str, char in *. lia.
  - destruct (K (a ++ u ++ a1) (a2 ++ v ++ b) (a ++ a1) (a2 ++ b)) as (X1 & X2 & X3 & X4).
    { rewrite E, <- !app_assoc. reflexivity. } { rewrite <- E0, <- !app_assoc. reflexivity. }
    rewrite app_length in L. cbn [length] in L.
    assert (U : count x (u ++ a1) = 0) by (apply (suffix_y q a); [exact X1|rewrite app_length; unfold str, char in *; lia]).
    assert (V : count x (a2 ++ v) = length (a2 ++ v)) by (apply (prefix_x q _ b); [rewrite <- app_assoc; exact X2|rewrite app_length; unfold str, char in *; lia]).
    assert (V' : count x a2 = length a2) by (apply (prefix_x q _ (v ++ b)); [exact X2|unfold str, char in *; lia]).
    pose proof (half_x q) as H1. pose proof (half_x q) as H2. rewrite X1 in H1. rewrite X2 in H2.
    assert (X5 : count x (a ++ a1) = count x (a2 ++ b)) by congruence. assert (X6 : length (a ++ a1) = length (a2 ++ b)) by congruence.
    assert (X7 : length (a ++ u ++ a1) = length (a2 ++ v ++ b)) by congruence. rewrite !count_app', !app_length in *. unfold str, char in *. lia.
  - destruct (K (a ++ u ++ w ++ v ++ a1) a2 (a ++ w ++ a1) a2) as (X1 & X2 & X3 & X4).
    { rewrite E, <- !app_assoc. reflexivity. } { rewrite <- E0, <- !app_assoc. reflexivity. }
    apply (f_equal (@length char)) in X1, X2, X3, X4. rewrite !app_length in *. unfold str, char in *. lia.
Qed.

Definition copy (s : str) : Prop := exists t, Forall (fun c => c = x \/ c = y) t /\ s = t ++ m :: t.

Lemma copy_dec : forall s, copy s \/ ~ copy s.
Proof.
  intro s. set (t := firstn (length s / 2) s). assert (D : {s = t ++ m :: t} + {s <> t ++ m :: t}) by apply (list_eq_dec N.eq_dec).
  assert (F : {Forall (fun c => c = x \/ c = y) t} + {~ Forall (fun c => c = x \/ c = y) t}).
  { apply Forall_dec. intro c. destruct (N.eq_dec c x); [left; tauto|]. destruct (N.eq_dec c y); [left; tauto|right; tauto]. }
  destruct D as [D|D], F as [F|F]; [left; exists t; split; assumption|..].
  all: right; intros (t' & F' & E).
  all: assert (X : t = t') by (unfold t; rewrite E, app_length; cbn [length]; replace (length t' + S (length t')) with (1 + length t' * 2) by lia;
         rewrite Nat.div_add by lia; change (1 / 2) with 0; cbn [Nat.add]; rewrite firstn_app, Nat.sub_diag, firstn_all, firstn_O, app_nil_r; reflexivity).
  all: rewrite X in *; tauto.
Qed.

(** A set of texts that has all copies, with near parts that can be repeated in long texts, has other texts too. *)
Lemma copies_and_more : forall (S0 : str -> Prop) p, (forall s, copy s -> S0 s) ->
  (forall s, S0 s -> p < length s -> exists a u w v b, s = a ++ u ++ w ++ v ++ b /\ u ++ v <> [] /\ length (u ++ w ++ v) <= p /\ forall n, S0 (a ++ times n u ++ w ++ times n v ++ b)) ->
  exists s, S0 s /\ ~ copy s.
Proof.
  intros S0 p A P. assert (C : copy (half (S p) ++ m :: half (S p))).
  { exists (half (S p)). split; [|reflexivity]. apply Forall_forall. intros c I. apply in_app_or in I. destruct I as [I|I]; apply in_times in I; tauto. }
  destruct (P _ (A _ C)) as (a & u & w & v & b & E & N & L & H).
  { rewrite app_length. cbn [length]. rewrite half_len. lia. }
  specialize (H 0). cbn [times app] in H. exists (a ++ w ++ b). split; [exact H|]. intros (t & F & E').
  refine (copies_do_not_repeat (S p) a u w v b E N _ t _ E'); [lia|]. intro I. rewrite Forall_forall in F. destruct (F m I); congruence.
Qed.
End Copies.

Lemma predictive_near : forall rs, sane_rules rs -> well_formed (grammar_of rs) -> predictive_grammar (grammar_of rs) ->
  exists p, forall s, takes rs s -> p < length s ->
  exists a u w v b, s = a ++ u ++ w ++ v ++ b /\ u ++ v <> [] /\ length (u ++ w ++ v) <= p /\ forall n, takes rs (a ++ times n u ++ w ++ times n v ++ b).
Proof.
  intros rs SR WF PG. destruct (generated_near rs (RuleName main)) as (p & H). exists p. intros s T L. assert (A := taken_ascii rs s T).
  destruct T as (fuel & ast & T). destruct (H s [ast] (accepted_derives rs fuel s false ast SR T) L) as (a & u & w & v & b & E & N & Q & P).
  exists a, u, w, v, b. split; [exact E|]. split; [exact N|]. split; [exact Q|]. intro n. destruct (P n) as (us & D).
  assert (A' : ascii (a ++ times n u ++ w ++ times n v ++ b)) by (apply ascii_repeated; rewrite <- E; exact A).
  assert (U : exists t, us = [t]) by (inversion D; subst; eexists; reflexivity). destruct U as (t & ->).
  exact (generated_taken rs _ t SR WF PG A' D).
Qed.
