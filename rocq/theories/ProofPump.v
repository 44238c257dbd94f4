(** Long texts of a BNF grammar have parts that can be repeated. *)
From Verif Require Import Base ModelAst ModelParser SpecPeg SpecPos SpecApi SpecWf SpecLang SpecBnf SpecPower ProofParser ProofEngine ProofApi ProofWf ProofBnf.

Section Pump.
Variable G : str -> option expr.

(** Derivations with their size, without trees. *)
Inductive gens : nat -> expr -> str -> Prop :=
| g_lit l : gens 0 (Simple (Literal l)) l
| g_class cs rs c : in_class cs rs c -> gens 0 (Simple (Match cs rs)) [c]
| g_dot c : gens 0 (Simple Dot) [c]
| g_eof : gens 0 (Simple AEOF) []
| g_and_nil : gens 0 (And []) []
| g_and_cons e es w v j k : gens j e w -> gens k (And es) v -> gens (S (j + k)) (And (e :: es)) (w ++ v)
| g_or e es w k : In e es -> gens k e w -> gens (S k) (Or es) w
| g_not e : gens 0 (Not e) []
| g_rep_stop e mx : gens 0 (Repeat e 0 mx) []
| g_rep_more e mn mx w v j k : mx <> Some 0 -> gens j e w -> gens k (Repeat e (pred mn) (option_map pred mx)) v ->
    gens (S (j + k)) (Repeat e mn mx) (w ++ v)
| g_rule n e w k : G n = Some e -> gens k e w -> gens (S k) (RuleName n) w.

Definition gen (e : expr) (w : str) : Prop := exists k, gens k e w.

Lemma gen_derives : forall e w, gen e w <-> exists ts, derives G e w ts.
Proof.
  intros e w. split.
  - intros (k & H). induction H.
    all: repeat match goal with H : exists ts, _ |- _ => destruct H as (? & H) end.
    all: try (eexists; econstructor; eassumption).
    all: eexists; econstructor.
  - intros (ts & H). induction H.
    all: repeat match goal with H : gen _ _ |- _ => destruct H as (? & H) end.
    all: try (eexists; econstructor; eassumption).
    all: eexists; econstructor.
Qed.

(** [e] generates what [f] generates, between [u] and [v]. *)
Definition around (e f : expr) (u v : str) : Prop := forall w, gen f w -> gen e (u ++ w ++ v).

Lemma around_refl : forall e, around e e [] [].
Proof. intros e w H. cbn. rewrite app_nil_r. exact H. Qed.

Lemma around_trans : forall e f g u v u' v', around e f u v -> around f g u' v' -> around e g (u ++ u') (v' ++ v).
Proof.
  intros e f g u v u' v' H K w W. specialize (H _ (K w W)).
  replace ((u ++ u') ++ w ++ v' ++ v) with (u ++ (u' ++ w ++ v') ++ v) by (rewrite !app_assoc; reflexivity). exact H.
Qed.

Lemma times_snoc : forall n w, times (S n) w = times n w ++ w.
Proof. induction n as [|n IH]; intro w; [cbn; rewrite app_nil_r; reflexivity|]. change (times (S (S n)) w) with (w ++ times (S n) w). rewrite IH at 1. rewrite app_assoc. reflexivity. Qed.

Lemma around_times : forall e u v n, around e e u v -> around e e (times n u) (times n v).
Proof.
  intros e u v n H. induction n as [|n IH]; [apply around_refl|].
  rewrite (times_snoc n v). change (times (S n) u) with (u ++ times n u). exact (around_trans e e e u v _ _ H IH).
Qed.

(** The text has two parts that can be repeated together. *)
Definition pumps (e : expr) (s : str) : Prop :=
  exists a u w v b, s = a ++ u ++ w ++ v ++ b /\ u ++ v <> [] /\ forall n, gen e (a ++ times n u ++ w ++ times n v ++ b).

Lemma pumps_around : forall e f u v s, around e f u v -> pumps f s -> pumps e (u ++ s ++ v).
Proof.
  intros e f p q s H (a & u & w & v & b & -> & N & P). exists (p ++ a), u, w, v, (b ++ q).
  split; [rewrite <- !app_assoc; reflexivity|]. split; [exact N|]. intro n. specialize (H _ (P n)).
  replace ((p ++ a) ++ times n u ++ w ++ times n v ++ b ++ q) with (p ++ (a ++ times n u ++ w ++ times n v ++ b) ++ q); [exact H|rewrite <- !app_assoc; reflexivity].
Qed.

Lemma pumps_self : forall e u v w, around e e u v -> u ++ v <> [] -> gen e w -> pumps e (u ++ w ++ v).
Proof.
  intros e u v w H N W. exists [], u, w, v, []. split; [cbn; rewrite app_nil_r; reflexivity|]. split; [exact N|].
  intro n. specialize (around_times e u v n H w W). cbn. rewrite app_nil_r. exact (fun X => X).
Qed.

(** The text of [e] has, inside, that of one of the rules [L], by a derivation of size [k] at most. *)
Definition inside (L : list str) (k : nat) (e : expr) (s : str) : Prop :=
  exists n u v w j, In n L /\ j <= k /\ around e (RuleName n) u v /\ s = u ++ w ++ v /\ gens j (RuleName n) w.

Definition bounded (L : list str) (e : expr) (b : nat) : Prop :=
  forall k s, gens k e s -> pumps e s \/ inside L k e s \/ length s <= b.

Lemma inside_around : forall L k k' e f u v s, around e f u v -> k <= k' -> inside L k f s -> inside L k' e (u ++ s ++ v).
Proof.
  intros L k k' e f p q s H K (n & u & v & w & j & I & J & A & -> & D). exists n, (p ++ u), (v ++ q), w, j.
  split; [exact I|]. split; [lia|]. split; [exact (around_trans _ _ _ _ _ _ _ H A)|]. split; [rewrite <- !app_assoc; reflexivity|exact D].
Qed.

Lemma around_left : forall e es v k, gens k (And es) v -> around (And (e :: es)) e [] v.
Proof. intros e es v k H w (j & W). exists (S (j + k)). cbn [app]. constructor; assumption. Qed.
Lemma around_right : forall e es w k, gens k e w -> around (And (e :: es)) (And es) w [].
Proof. intros e es w k H v (j & W). exists (S (k + j)). rewrite app_nil_r. constructor; assumption. Qed.
Lemma around_or : forall e es, In e es -> around (Or es) e [] [].
Proof. intros e es I w (k & W). exists (S k). cbn. rewrite app_nil_r. econstructor; eassumption. Qed.
Lemma around_rule : forall n e, G n = Some e -> around (RuleName n) e [] [].
Proof. intros n e H w (k & W). exists (S k). cbn. rewrite app_nil_r. econstructor; eassumption. Qed.
Lemma around_first : forall e mn mx v k, mx <> Some 0 -> gens k (Repeat e (pred mn) (option_map pred mx)) v -> around (Repeat e mn mx) e [] v.
Proof. intros e mn mx v k X H w (j & W). exists (S (j + k)). cbn [app]. constructor; assumption. Qed.
Lemma around_rest : forall e mn mx w k, mx <> Some 0 -> gens k e w -> around (Repeat e mn mx) (Repeat e (pred mn) (option_map pred mx)) w [].
Proof. intros e mn mx w k X H v (j & W). exists (S (k + j)). rewrite app_nil_r. constructor; assumption. Qed.

Ltac unwrap := cbn [app]; rewrite ?app_nil_r.

(** Lifting each of the three cases. *)
Lemma lift : forall L e f u v s k k', around e f u v -> k <= k' -> pumps f s \/ inside L k f s -> pumps e (u ++ s ++ v) \/ inside L k' e (u ++ s ++ v).
Proof. intros L e f u v s k k' A K [P|I]; [left; exact (pumps_around _ _ _ _ _ A P)|right; exact (inside_around _ _ _ _ _ _ _ _ A K I)]. Qed.

Lemma bounded_and : forall L es, Forall (fun e => exists b, bounded L e b) es -> exists b, bounded L (And es) b.
Proof.
  intros L es F. induction F as [|e es (b & B) _ (c & C)].
  - exists 0. intros k s H. inversion H; subst. right; right; cbn; lia.
  - exists (b + c). intros k s H. inversion H as [| | | | |? ? w v j k0 D1 D2| | | | |]; subst.
    destruct (B _ _ D1) as [P|[I|Lw]].
    1,2: assert (X := lift L _ _ [] v w j (S (j + k0)) (around_left e es v k0 D2)); cbn [app] in X; destruct X as [X|X]; [lia|tauto| |]; tauto.
    destruct (C _ _ D2) as [P|[I|Lv]].
    1,2: assert (X := lift L _ _ w [] v k0 (S (j + k0)) (around_right e es w j D1)); rewrite app_nil_r in X; destruct X as [X|X]; [lia|tauto| |]; tauto.
    right; right. rewrite app_length. unfold str, char in *. lia.
Qed.

Lemma bounded_or : forall L es, Forall (fun e => exists b, bounded L e b) es -> exists b, bounded L (Or es) b.
Proof.
  intros L es F. assert (Q : exists b, forall e, In e es -> bounded L e b).
  { induction F as [|e es (b & B) _ (c & C)]; [exists 0; intros e []|]. exists (b + c). intros e' [<-|I] k s H.
    - destruct (B k s H) as [|[|]]; [tauto|tauto|right; right; lia].
    - destruct (C e' I k s H) as [|[|]]; [tauto|tauto|right; right; lia]. }
  destruct Q as (b & Q). exists b. intros k s H. inversion H as [| | | | | | ? ? ? j I D| | | |]; subst.
  destruct (Q _ I _ _ D) as [P|[N|Ls]]; [| |tauto].
  1,2: assert (X := lift L _ _ [] [] s j (S j) (around_or e es I)); cbn [app] in X; rewrite app_nil_r in X; destruct X as [X|X]; [lia|tauto| |]; tauto.
Qed.

(** Turns of a repetition. *)
Lemma bounded_turns : forall L e b, bounded L e b -> forall m mn, bounded L (Repeat e mn (Some m)) (m * b).
Proof.
  intros L e b B m. induction m as [|m IH]; intros mn k s H; inversion H as [| | | | | | | | |? ? ? w v j k0 X D1 D2|]; subst.
  - right; right; cbn; lia.
  - congruence.
  - right; right; cbn; lia.
  - cbn [option_map pred] in D2. destruct (B _ _ D1) as [P|[I|Lw]].
    1,2: assert (Y := lift L _ _ [] v w j (S (j + k0)) (around_first e mn (Some (S m)) v k0 X D2)); cbn [app] in Y; destruct Y as [Y|Y]; [lia|tauto| |]; tauto.
    destruct (IH _ _ _ D2) as [P|[I|Lv]].
    1,2: assert (Y := lift L _ _ w [] v k0 (S (j + k0)) (around_rest e mn (Some (S m)) w j X D1)); rewrite app_nil_r in Y; cbn [option_map pred] in Y; destruct Y as [Y|Y]; [lia|tauto| |]; tauto.
    right; right. rewrite app_length. unfold str, char in *. cbn. lia.
Qed.

Lemma bounded_loop0 : forall L e, bounded L (Repeat e 0 None) 0.
Proof.
  intros L e k. induction k as [k IH] using (well_founded_induction lt_wf). intros s H.
  inversion H as [| | | | | | | | |? ? ? w v j k0 X D1 D2|]; subst; [right; right; cbn; lia|]. cbn [option_map pred] in D2.
  assert (A := around_rest e 0 None w j X D1). cbn [option_map pred] in A. destruct w as [|c w].
  - cbn [app] in *. destruct (IH k0 ltac:(lia) v D2) as [P|[I|Lv]]; [tauto| |tauto]. right; left.
    destruct I as (n & u & y & z & i & I & J & R). exists n, u, y, z, i. split; [exact I|]. split; [lia|exact R].
  - left. assert (P := pumps_self (Repeat e 0 None) (c :: w) [] v A). rewrite !app_nil_r in P. apply P; [discriminate|exists k0; exact D2].
Qed.

Lemma bounded_loop : forall L e b, bounded L e b -> forall mn, bounded L (Repeat e mn None) (mn * b).
Proof.
  intros L e b B mn. induction mn as [|mn IH]; [apply bounded_loop0|]. intros k s H.
  inversion H as [| | | | | | | | |? ? ? w v j k0 X D1 D2|]; subst. cbn [option_map pred] in D2.
  destruct (B _ _ D1) as [P|[I|Lw]].
  1,2: assert (Y := lift L _ _ [] v w j (S (j + k0)) (around_first e (S mn) None v k0 X D2)); cbn [app] in Y; destruct Y as [Y|Y]; [lia|tauto| |]; tauto.
  destruct (IH _ _ D2) as [P|[I|Lv]].
  1,2: assert (Y := lift L _ _ w [] v k0 (S (j + k0)) (around_rest e (S mn) None w j X D1)); rewrite app_nil_r in Y; cbn [option_map pred] in Y; destruct Y as [Y|Y]; [lia|tauto| |]; tauto.
  right; right. rewrite app_length. unfold str, char in *. cbn. lia.
Qed.

(** A rule that is not among those above. *)
Lemma bounded_new_rule : forall L n e b, G n = Some e -> bounded (n :: L) e b -> bounded L (RuleName n) b.
Proof.
  intros L n e b E B k. induction k as [k IH] using (well_founded_induction lt_wf). intros s H.
  inversion H as [| | | | | | | | | |? ? ? j E' D]; subst. assert (e0 = e) by congruence. subst e0. assert (A := around_rule n e E).
  destruct (B _ _ D) as [P|[I|Ls]]; [| |tauto].
  - left. assert (X := pumps_around _ _ _ _ _ A P). cbn [app] in X. rewrite app_nil_r in X. exact X.
  - destruct I as (m & u & v & w & i & [<-|I] & J & R & -> & D').
    + assert (R' := around_trans _ _ _ _ _ _ _ A R). cbn [app] in R'. rewrite app_nil_r in R'.
      destruct (list_eq_dec N.eq_dec (u ++ v) []) as [Z|Z].
      * apply app_eq_nil in Z. destruct Z as [-> ->]. cbn [app] in *. rewrite app_nil_r in *.
        destruct (IH i ltac:(lia) w D') as [P|[I|Lw]]; [tauto| |tauto]. right; left.
        destruct I as (m & u & y & z & q & I & K & T). exists m, u, y, z, q. split; [exact I|]. split; [lia|exact T].
      * left. apply pumps_self; [exact R'|exact Z|]. exists i. exact D'.
    + right; left. exists m, u, v, w, i. split; [exact I|]. split; [lia|].
      assert (R' := around_trans _ _ _ _ _ _ _ A R). cbn [app] in R'. rewrite app_nil_r in R'. split; [exact R'|]. split; [reflexivity|exact D'].
Qed.

Lemma bounded_all : forall d R L, length R <= d -> (forall n, G n <> None -> In n L \/ In n R) -> forall e, exists b, bounded L e b.
Proof.
  induction d as [|d IHd]; intros R L LR C e; induction e as [a|es IH|es IH|x IH|x mn mx IH|n] using expr_ind'.
  all: try exact (bounded_and L es IH). all: try exact (bounded_or L es IH).
  all: try (exists 0; intros k s H; inversion H; subst; right; right; cbn; lia).
  all: try (destruct IH as (b & B); destruct mx as [m|]; [exists (m * b); apply bounded_turns, B|exists (mn * b); apply bounded_loop, B]).
  1,3: exists (match a with Literal l => length l | _ => 1 end); intros k s H; inversion H; subst; right; right; cbn; lia.
  - destruct (G n) as [e|] eqn:E; [|exists 0; intros k s H; inversion H; congruence].
    destruct (C n ltac:(congruence)) as [I|I]; [|destruct R; [destruct I|cbn in LR; lia]].
    exists 0. intros k s H. right; left. exists n, [], [], s, k. split; [exact I|]. split; [lia|]. split; [apply around_refl|].
    split; [cbn; rewrite app_nil_r; reflexivity|exact H].
  - destruct (G n) as [e|] eqn:E; [|exists 0; intros k s H; inversion H; congruence].
    destruct (in_dec (list_eq_dec N.eq_dec) n L) as [I|I].
    { exists 0. intros k s H. right; left. exists n, [], [], s, k. split; [exact I|]. split; [lia|]. split; [apply around_refl|].
      split; [cbn; rewrite app_nil_r; reflexivity|exact H]. }
    destruct (C n ltac:(congruence)) as [I'|I']; [contradiction|].
    destruct (IHd (remove (list_eq_dec N.eq_dec) n R) (n :: L)) with (e := e) as (b & B).
    + assert (X := remove_length_lt (list_eq_dec N.eq_dec) R n I'). unfold str, char in *. lia.
    + intros m M. destruct (list_eq_dec N.eq_dec m n) as [->|Q]; [left; left; reflexivity|].
      destruct (C m M) as [Y|Y]; [left; right; exact Y|right; apply in_in_remove; assumption].
    + exists b. exact (bounded_new_rule L n e b E B).
Qed.

End Pump.

Lemma rules_names : forall rs n, grammar_of rs n <> None -> In n (map fst rs).
Proof.
  intros rs n. unfold grammar_of. induction rs as [|[m e] rs IH]; cbn; [congruence|].
  destruct (str_eqb m n) eqn:E; [apply str_eqb_eq in E; intros _; left; exact E|intro H; right; exact (IH H)].
Qed.

(** Long generated texts repeat. *)
Lemma generated_pump : forall rs e, exists p, forall s ts, derives (grammar_of rs) e s ts -> p < length s ->
  exists a u w v b, s = a ++ u ++ w ++ v ++ b /\ u ++ v <> [] /\
    forall n, exists us, derives (grammar_of rs) e (a ++ times n u ++ w ++ times n v ++ b) us.
Proof.
  intros rs e. destruct (bounded_all (grammar_of rs) (length (map fst rs)) (map fst rs) [] ltac:(lia) (fun n H => or_intror (rules_names rs n H)) e) as (p & B).
  exists p. intros s ts D LS. destruct (proj2 (gen_derives (grammar_of rs) e s) (ex_intro _ ts D)) as (k & H).
  destruct (B k s H) as [(a & u & w & v & b & E & N & P)|[(n & ? & ? & ? & ? & [] & _)|Q]]; [|lia].
  exists a, u, w, v, b. split; [exact E|]. split; [exact N|]. intro n. apply gen_derives, P.
Qed.
