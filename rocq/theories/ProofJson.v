(** JSON: the grammar generates exactly the JSON texts, and its trees, tidied up, are those of the values. *)
From Verif Require Import Base ModelAst ModelParser ModelPeg SpecPeg SpecPos SpecApi SpecWf SpecBnf SpecDocs ModelCost SpecJson.
From Verif Require Import ProofParser ProofEngine ProofApi ProofAst ProofWf WfCheck ProofBnf ProofLinear ProofViable ProofDocs Examples.

(* ------------------------------------------------------------------------------------------- *)
(** * Languages and tidied trees, expression by expression *)

Section Lang.
Variable G : str -> option expr.

Definition lang (e : expr) (w : str) : Prop := exists ts, derives G e w ts.

Lemma l_lit : forall l w, lang (Simple (Literal l)) w <-> w = l.
Proof. intros l w. split; [intros [ts D]; inversion D; reflexivity|intros ->; eexists; constructor]. Qed.

Lemma l_class : forall cs rg w, lang (Simple (Match cs rg)) w <-> exists c, in_class cs rg c /\ w = [c].
Proof. intros cs rg w. split; [intros [ts D]; inversion D; subst; eauto|intros (c & C & ->); eexists; constructor; exact C]. Qed.

Lemma l_nil : forall w, lang (And []) w <-> w = [].
Proof. intros w. split; [intros [ts D]; inversion D; reflexivity|intros ->; eexists; constructor]. Qed.

Lemma l_and : forall e es w, lang (And (e :: es)) w <-> exists u v, lang e u /\ lang (And es) v /\ w = u ++ v.
Proof.
  intros e es w. split.
  - intros [ts D]. inversion D as [| | | | |? ? u v tu tv D1 D2| | | | |]; subst. exists u, v. unfold lang. eauto.
  - intros (u & v & [tu D1] & [tv D2] & ->). eexists. constructor; eassumption.
Qed.

Lemma l_or : forall es w, lang (Or es) w <-> Exists (fun e => lang e w) es.
Proof.
  intros es w. rewrite Exists_exists. split.
  - intros [ts D]. inversion D as [| | | | | |e ? ? ? IN D1| | | |]; subst. exists e. unfold lang. eauto.
  - intros (e & IN & [ts D]). exists ts. econstructor; eassumption.
Qed.

Lemma d_opt : forall e w ts, derives G (Repeat e 0 (Some 1)) w ts <-> (w = [] /\ ts = []) \/ derives G e w ts.
Proof.
  intros e w ts. split.
  - intro D. inversion D as [| | | | | | | |? ?|? ? ? u v tu tv NZ D1 D2|]; subst; [left; split; reflexivity|right].
    cbn in D2. inversion D2 as [| | | | | | | |? ?|? ? ? ? ? ? ? NZ2|]; subst; [rewrite !app_nil_r; exact D1|congruence].
  - intros [[-> ->]|D]; [constructor|]. replace w with (w ++ []) by apply app_nil_r. replace ts with (ts ++ []) by apply app_nil_r.
    apply d_rep_more; [discriminate|exact D|constructor].
Qed.

Lemma d_star : forall e w ts, derives G (Repeat e 0 None) w ts <-> exists l, Forall (fun p => derives G e (fst p) (snd p)) l /\
  w = concat (map fst l) /\ ts = concat (map snd l).
Proof.
  intros e w ts. split.
  - intro D. remember (Repeat e 0 None) as x eqn:E. induction D; try discriminate; inversion E; subst.
    + exists []. repeat split. constructor.
    + destruct (IHD2 eq_refl) as (l & F & -> & ->). exists ((w, ts) :: l). repeat split. constructor; assumption.
  - intros (l & F & -> & ->). induction F as [|[u tu] l D F IH]; cbn [map concat fst snd]; [constructor|].
    apply d_rep_more; [discriminate|exact D|exact IH].
Qed.

Lemma d_plus : forall e w ts, derives G (Repeat e 1 None) w ts <-> exists u v tu tv, derives G e u tu /\ derives G (Repeat e 0 None) v tv /\
  w = u ++ v /\ ts = tu ++ tv.
Proof.
  intros e w ts. split.
  - intro D. inversion D as [| | | | | | | | |? ? ? u v tu tv NZ D1 D2|]; subst. exists u, v, tu, tv. auto.
  - intros (u & v & tu & tv & D1 & D2 & -> & ->). apply d_rep_more; [discriminate|exact D1|exact D2].
Qed.

Lemma l_opt : forall e w, lang (Repeat e 0 (Some 1)) w <-> w = [] \/ lang e w.
Proof.
  intros e w. unfold lang. split.
  - intros [ts D]. apply d_opt in D. destruct D as [[-> _]|D]; eauto.
  - intros [->|[ts D]]; eexists; apply d_opt; [left; eauto|right; exact D].
Qed.

Lemma l_star : forall e w, lang (Repeat e 0 None) w <-> exists l, Forall (lang e) l /\ w = concat l.
Proof.
  intros e w. unfold lang. split.
  - intros [ts D]. apply d_star in D. destruct D as (l & F & -> & _). exists (map fst l). split; [|reflexivity].
    apply Forall_map. eapply Forall_impl; [|exact F]. cbn. eauto.
  - intros (l & F & ->). assert (X : exists m, Forall (fun p => derives G e (fst p) (snd p)) m /\ map fst m = l).
    { induction F as [|u l [tu D] F [m [F2 E]]]; [exists []; split; [constructor|reflexivity]|]. exists ((u, tu) :: m). split; [constructor; assumption|cbn; congruence]. }
    destruct X as (m & F2 & <-). eexists. apply d_star. exists m. eauto.
Qed.

Lemma l_plus : forall e w, lang (Repeat e 1 None) w <-> exists u v, lang e u /\ lang (Repeat e 0 None) v /\ w = u ++ v.
Proof.
  intros e w. unfold lang. split.
  - intros [ts D]. apply d_plus in D. destruct D as (u & v & tu & tv & D1 & D2 & -> & _). eauto 8.
  - intros (u & v & [tu D1] & [tv D2] & ->). eexists. apply d_plus. eauto 10.
Qed.

(** The trees without those of the given names, and compact inside. *)
Variable names : list str.

Definition tidy1 (x : node) : list node := if node2prune names x then [] else [compact (prune names x)].
Definition tidies (e : expr) (w : str) (us : list node) : Prop := exists ts, derives G e w ts /\ flat_map tidy1 ts = us.

Lemma compact_loop_map : forall l acc, compact_loop acc (map compact l) = compact_loop acc l.
Proof.
  induction l as [|x l IH]; intro acc; [reflexivity|]. cbn [map compact_loop]. fold compact_loop. rewrite IH. f_equal.
  destruct x as [v|n k|]; try reflexivity. rewrite compact_rule. cbn [concat_nodes]. rewrite <- compact_rule, compact_idem. reflexivity.
Qed.

Lemma tidy1_prune : forall l, flat_map tidy1 l = map compact (prune_list names l).
Proof.
  unfold prune_list. induction l as [|x l IH]; [reflexivity|]. cbn [flat_map]. rewrite map_app, IH. f_equal.
  unfold tidy1. destruct (node2prune names x); reflexivity.
Qed.

Lemma tidy_rule : forall n l, compact (prune names (Rule n l)) = Rule n (compact_loop [] (flat_map tidy1 l)).
Proof. intros n l. rewrite prune_unfold, compact_rule, tidy1_prune, compact_loop_map. reflexivity. Qed.

Lemma t_lit : forall l w us, tidies (Simple (Literal l)) w us <-> w = l /\ us = [Val l].
Proof.
  intros l w us. split.
  - intros (ts & D & <-). inversion D. split; reflexivity.
  - intros [-> ->]. exists [Val l]. split; [constructor|reflexivity].
Qed.

Lemma t_nil : forall w us, tidies (And []) w us <-> w = [] /\ us = [].
Proof.
  intros w us. split.
  - intros (ts & D & <-). inversion D. split; reflexivity.
  - intros [-> ->]. exists []. split; [constructor|reflexivity].
Qed.

Lemma t_and : forall e es w us, tidies (And (e :: es)) w us <-> exists u v tu tv, tidies e u tu /\ tidies (And es) v tv /\ w = u ++ v /\ us = tu ++ tv.
Proof.
  intros e es w us. split.
  - intros (ts & D & <-). inversion D as [| | | | |? ? u v tu tv D1 D2| | | | |]; subst. exists u, v, (flat_map tidy1 tu), (flat_map tidy1 tv).
    split; [exists tu; auto|]. split; [exists tv; auto|]. split; [reflexivity|apply flat_map_app].
  - intros (u & v & tu & tv & (t1 & D1 & <-) & (t2 & D2 & <-) & -> & ->). exists (t1 ++ t2). split; [constructor; assumption|apply flat_map_app].
Qed.

Lemma t_or : forall es w us, tidies (Or es) w us <-> Exists (fun e => tidies e w us) es.
Proof.
  intros es w us. rewrite Exists_exists. split.
  - intros (ts & D & <-). inversion D as [| | | | | |e ? ? ? IN D1| | | |]; subst. exists e. split; [exact IN|]. exists ts. auto.
  - intros (e & IN & ts & D & <-). exists ts. split; [econstructor; eassumption|reflexivity].
Qed.

Lemma t_opt : forall e w us, tidies (Repeat e 0 (Some 1)) w us <-> (w = [] /\ us = []) \/ tidies e w us.
Proof.
  intros e w us. split.
  - intros (ts & D & <-). apply d_opt in D. destruct D as [[-> ->]|D]; [left; auto|right; exists ts; auto].
  - intros [[-> ->]|(ts & D & <-)]; [exists []|exists ts]; (split; [apply d_opt|reflexivity]); auto.
Qed.

Lemma t_star : forall e w us, tidies (Repeat e 0 None) w us <-> exists l, Forall (fun p => tidies e (fst p) (snd p)) l /\
  w = concat (map fst l) /\ us = concat (map snd l).
Proof.
  intros e w us. split.
  - intros (ts & D & <-). apply d_star in D. destruct D as (l & F & -> & ->).
    exists (map (fun p => (fst p, flat_map tidy1 (snd p))) l). rewrite !map_map. cbn. split; [|split; [reflexivity|]].
    + apply Forall_map. eapply Forall_impl; [|exact F]. intros [u tu] D. cbn in *. exists tu. auto.
    + clear F. induction l as [|[u tu] l IH]; [reflexivity|]. cbn [map concat snd]. rewrite flat_map_app, IH. reflexivity.
  - intros (l & F & -> & ->). assert (X : exists m, Forall (fun p => derives G e (fst p) (snd p)) m /\ map fst m = map fst l /\
      flat_map tidy1 (concat (map snd m)) = concat (map snd l)).
    { induction F as [|[u us] l (tu & D & E) F (m & F2 & E1 & E2)]; [exists []; repeat split; constructor|]. cbn in D, E. exists ((u, tu) :: m).
      split; [constructor; assumption|]. cbn. split; [congruence|]. rewrite flat_map_app. congruence. }
    destruct X as (m & F2 & <- & <-). eexists. split; [|reflexivity]. apply d_star. exists m. auto.
Qed.

Lemma t_rule : forall n e w us, G n = Some e -> ~ In n names ->
  tidies (RuleName n) w us <-> exists vs, tidies e w vs /\ us = [Rule n (compact_loop [] vs)].
Proof.
  intros n e w us E N. assert (NP : forall l, tidy1 (Rule n l) = [Rule n (compact_loop [] (flat_map tidy1 l))]).
  { intro l. unfold tidy1 at 1. cbn [node2prune]. rewrite (proj2 (name_in_false names n) N), tidy_rule. reflexivity. }
  split.
  - intros (ts & D & <-). inversion D as [| | | | | | | | | |? e' ? vs E' D1]; subst. assert (e' = e) by congruence. subst e'.
    exists (flat_map tidy1 vs). split; [exists vs; auto|]. cbn [flat_map]. rewrite app_nil_r. apply NP.
  - intros (vs & (ts & D & <-) & ->). exists [Rule n ts]. split; [econstructor; eassumption|]. cbn [flat_map]. rewrite app_nil_r. apply NP.
Qed.

Lemma t_pruned : forall n e w us, G n = Some e -> In n names -> tidies (RuleName n) w us <-> lang e w /\ us = [].
Proof.
  intros n e w us E N. assert (NP : forall l, tidy1 (Rule n l) = []) by (intro l; unfold tidy1; cbn [node2prune]; rewrite (proj2 (name_in_spec names n) N); reflexivity).
  split.
  - intros (ts & D & <-). inversion D as [| | | | | | | | | |? e' ? vs E' D1]; subst. assert (e' = e) by congruence. subst e'.
    split; [exists vs; exact D1|]. cbn [flat_map]. rewrite NP. reflexivity.
  - intros [[ts D] ->]. exists [Rule n ts]. split; [econstructor; eassumption|]. cbn [flat_map]. rewrite NP. reflexivity.
Qed.

(** Expressions without rules: the leaves are the text. *)
Fixpoint flat (e : expr) : bool :=
  match e with
  | Simple (Literal _) | Simple (Match _ _) | Simple Dot => true
  | Simple _ | RuleName _ => false
  | And es | Or es => forallb flat es
  | Not _ => true
  | Repeat x _ _ => flat x
  end.

Lemma flat_leaves : forall e w ts, derives G e w ts -> flat e = true -> exists vs, ts = map Val vs /\ w = concat vs.
Proof.
  intros e w ts D. induction D; cbn [flat]; intro F; try discriminate.
  - exists [l]. cbn. rewrite app_nil_r. auto.
  - exists [[c]]. auto.
  - exists [[c]]. auto.
  - exists []. auto.
  - cbn [forallb] in F. apply andb_prop in F. destruct F as [F1 F2]. destruct (IHD1 F1) as (a & -> & ->). destruct (IHD2 F2) as (b & -> & ->).
    exists (a ++ b). rewrite map_app, concat_app. auto.
  - apply IHD. rewrite forallb_forall in F. apply F. exact H.
  - exists []. auto.
  - exists []. auto.
  - destruct (IHD1 F) as (a & -> & ->). destruct (IHD2 F) as (b & -> & ->). exists (a ++ b). rewrite map_app, concat_app. auto.
Qed.

Lemma tidy_vals : forall vs, flat_map tidy1 (map Val vs) = map Val vs.
Proof. induction vs as [|v vs IH]; [reflexivity|]. cbn. rewrite IH. reflexivity. Qed.

Lemma loop_vals : forall vs, concat vs <> [] -> compact_loop [] (map Val vs) = [Val (concat vs)].
Proof.
  intros [|v vs] N; [exfalso; apply N; reflexivity|]. cbn [map]. change (compact_loop [] (Val v :: map Val vs)) with (compact_loop [Val v] (map Val vs)).
  rewrite <- (app_nil_r (map Val vs)), compact_loop_run. reflexivity.
Qed.

(** A rule without rules inside but a pruned one at the end. *)
Lemma t_and_app : forall es fs w us, tidies (And (es ++ fs)) w us <-> exists u v tu tv, tidies (And es) u tu /\ tidies (And fs) v tv /\ w = u ++ v /\ us = tu ++ tv.
Proof.
  induction es as [|e es IH]; intros fs w us; cbn [app].
  - split.
    + intro T. exists [], w, [], us. split; [apply t_nil; auto|auto].
    + intros (u & v & tu & tv & T & T2 & -> & ->). apply t_nil in T. destruct T as [-> ->]. exact T2.
  - rewrite t_and. split.
    + intros (u & v & tu & tv & T & T2 & -> & ->). apply IH in T2. destruct T2 as (u' & v' & tu' & tv' & A & B & -> & ->).
      exists (u ++ u'), v', (tu ++ tu'), tv'. rewrite !app_assoc. split; [|auto]. apply t_and. eauto 10.
    + intros (u & v & tu & tv & T & T2 & -> & ->). apply t_and in T. destruct T as (u' & v' & tu' & tv' & A & B & -> & ->).
      exists u', (v' ++ v), tu', (tv' ++ tv). rewrite !app_assoc. split; [exact A|]. split; [|auto]. apply IH. eauto 10.
Qed.

Lemma t_flat : forall e w us, flat e = true -> tidies e w us -> lang e w /\ exists vs, us = map Val vs /\ concat vs = w.
Proof.
  intros e w us F (ts & D & <-). split; [exists ts; exact D|]. destruct (flat_leaves _ _ _ D F) as (vs & -> & ->). exists vs. split; [apply tidy_vals|reflexivity].
Qed.

Lemma lang_flat : forall e w, lang e w -> flat e = true -> exists vs, tidies e w (map Val vs) /\ concat vs = w.
Proof.
  intros e w [ts D] F. destruct (flat_leaves _ _ _ D F) as (vs & -> & ->). exists vs. split; [exists (map Val vs); split; [exact D|apply tidy_vals]|reflexivity].
Qed.

Lemma t_token : forall n es b eb w us, G n = Some (And (es ++ [RuleName b])) -> ~ In n names -> G b = Some eb -> In b names ->
  forallb flat es = true -> ~ lang (And es) [] ->
  tidies (RuleName n) w us <-> exists u v, lang (And es) u /\ lang eb v /\ w = u ++ v /\ us = [Rule n [Val u]].
Proof.
  intros n es b eb w us E N EB IB F NE. rewrite (t_rule n _ w us E N). split.
  - intros (vs & T & ->). apply t_and_app in T. destruct T as (u & v & tu & tv & T1 & T2 & -> & ->).
    apply t_flat in T1; [|exact F]. destruct T1 as (L & xs & -> & <-). apply t_and in T2. destruct T2 as (v1 & v2 & t1 & t2 & T3 & T4 & -> & ->).
    apply t_nil in T4. destruct T4 as [-> ->]. apply (t_pruned b eb _ _ EB IB) in T3. destruct T3 as [L2 ->]. exists (concat xs), v1.
    rewrite !app_nil_r. repeat split; auto. rewrite loop_vals; [reflexivity|]. intro Z. rewrite Z in L. contradiction.
  - intros (u & v & L & LB & -> & ->). destruct (lang_flat _ _ L F) as (xs & T & <-). exists (map Val xs ++ []). split.
    + apply t_and_app. exists (concat xs), v, (map Val xs), []. split; [exact T|]. split; [|auto]. apply t_and. exists v, [], [], [].
      split; [apply (t_pruned b eb _ _ EB IB); auto|]. split; [apply t_nil; auto|]. rewrite app_nil_r. auto.
    + rewrite app_nil_r, loop_vals; [reflexivity|]. intro Z. rewrite Z in L. contradiction.
Qed.

(** Items with commas between them. *)
Inductive seq (blank : str -> Prop) (P : str -> node -> Prop) : str -> list node -> Prop :=
| sq_one x n : P x n -> seq blank P x [n]
| sq_more x n b y l : P x n -> blank b -> seq blank P y l -> seq blank P (x ++ s_ "," ++ b ++ y) (n :: l).

Lemma t_seq : forall X b eb w us, G b = Some eb -> In b names -> (forall x u, tidies X x u -> exists n, u = [n]) ->
  tidies (And [X; Repeat (And [Simple (Literal (s_ ",")); RuleName b; X]) 0 None]) w us <->
  exists l, seq (lang eb) (fun x n => tidies X x [n]) w l /\ us = commas l.
Proof.
  intros X b eb w us EB IB ON. split.
  - intro T. apply t_and in T. destruct T as (u & v & tu & tv & T1 & T2 & -> & ->). apply t_and in T2. destruct T2 as (v1 & v2 & t1 & t2 & T3 & T4 & -> & ->).
    apply t_nil in T4. destruct T4 as [-> ->]. rewrite !app_nil_r. apply t_star in T3. destruct T3 as (l & F & -> & ->).
    destruct (ON _ _ T1) as [n ->].
    assert (X' : exists m, seq (lang eb) (fun x n => tidies X x [n]) (u ++ concat (map fst l)) (n :: m) /\
      concat (map snd l) = flat_map (fun y => [Val (s_ ","); y]) m); [|destruct X' as (m & SQ & ->); exists (n :: m); auto].
    revert u n T1. induction F as [|[x tx] l T F IH]; intros u n T1; cbn [map concat fst snd]; [exists []; rewrite app_nil_r; repeat constructor; exact T1|].
    cbn [fst snd] in T. apply t_and in T. destruct T as (x1 & x2 & y1 & y2 & A & B & -> & ->). apply t_lit in A. destruct A as [-> ->].
    apply t_and in B. destruct B as (x3 & x4 & y3 & y4 & B & C & -> & ->). apply (t_pruned b eb _ _ EB IB) in B. destruct B as [B ->].
    apply t_and in C. destruct C as (x5 & x6 & y5 & y6 & C & D & -> & ->). apply t_nil in D. destruct D as [-> ->]. destruct (ON _ _ C) as [n2 ->].
    destruct (IH x5 n2 C) as (m & SQ & E). exists (n2 :: m). rewrite app_nil_r, <- !app_assoc. split; [constructor; assumption|]. cbn. rewrite E. reflexivity.
  - intros (l & SQ & ->). assert (X' : forall n m, l = n :: m -> exists u k, w = u ++ k /\ tidies X u [n] /\
      tidies (Repeat (And [Simple (Literal (s_ ",")); RuleName b; X]) 0 None) k (flat_map (fun y => [Val (s_ ","); y]) m)).
    { induction SQ as [x n T|x n c y l T LB SQ IH]; intros n' m E; injection E as <- <-.
      - exists x, []. rewrite app_nil_r. split; [reflexivity|]. split; [exact T|]. apply t_star. exists []. repeat split. constructor.
      - destruct l as [|n2 m2]; [inversion SQ|]. destruct (IH n2 m2 eq_refl) as (u & k & -> & A & B). apply t_star in B. destruct B as (q & F & -> & E).
        exists x, (s_ "," ++ c ++ u ++ concat (map fst q)). split; [reflexivity|]. split; [exact T|]. apply t_star.
        exists ((s_ "," ++ c ++ u, [Val (s_ ","); n2]) :: q). split.
        + constructor; [|exact F]. cbn [fst snd]. apply t_and. exists (s_ ","), (c ++ u), [Val (s_ ",")], [n2]. split; [apply t_lit; auto|]. split; [|auto].
          apply t_and. exists c, u, [], [n2]. split; [apply (t_pruned b eb _ _ EB IB); auto|]. split; [|auto]. apply t_and. exists u, [], [n2], [].
          split; [exact A|]. split; [apply t_nil; auto|]. rewrite app_nil_r. auto.
        + cbn [map concat fst snd flat_map]. rewrite <- !app_assoc, <- E. split; reflexivity. }
    destruct l as [|n m]; [inversion SQ|]. destruct (X' n m eq_refl) as (u & k & -> & A & B). apply t_and. exists u, k, [n], (flat_map (fun y => [Val (s_ ","); y]) m).
    split; [exact A|]. split; [|auto]. apply t_and. exists k, [], (flat_map (fun y => [Val (s_ ","); y]) m), []. split; [exact B|]. split; [apply t_nil; auto|].
    rewrite !app_nil_r. auto.
Qed.

End Lang.

(* ------------------------------------------------------------------------------------------- *)
(** * The rules *)

Definition jrules : rules := Eval vm_compute in match rules_from_peg 600 json_grammar with Ok rs => rs | _ => [] end.

Lemma json_reads : rules_from_peg 600 json_grammar = Ok jrules.
Proof. vm_compute. reflexivity. Qed.

Notation G := (grammar_of jrules).
Notation nws := (s_ "ws").
Notation L := (lang G).
Notation T := (tidies G [nws]).

Definition e_ws : expr := Repeat (Or [lit (s_ " "); lit [9%N]; lit [10%N]; lit [13%N]]) 0 None.
Definition e_digit : expr := ematch [] [(48, 57)]%N.
Definition e_hex : expr := ematch [] [(48, 57); (65, 70); (97, 102)]%N.
Definition e_char : expr := Or [ematch [] [(32, 33); (35, 91); (93, 126)]%N; lit [127%N];
  And [lit (s_ "\"); Or [ematch (s_ """\/bfnrt") []; And [lit (s_ "u"); e_hex; e_hex; e_hex; e_hex]]]].
Definition es_string : list expr := [lit (s_ """"); Repeat e_char 0 None; lit (s_ """")].
Definition e_int : expr := Or [lit (s_ "0"); And [ematch [] [(49, 57)]%N; Repeat e_digit 0 None]].
Definition e_frac : expr := And [lit (s_ "."); Repeat e_digit 1 None].
Definition e_exp : expr := And [ematch (s_ "eE") []; Repeat (Or [lit (s_ "+"); lit (s_ "-")]) 0 (Some 1); Repeat e_digit 1 None].
Definition es_number : list expr := [Repeat (lit (s_ "-")) 0 (Some 1); e_int; Repeat e_frac 0 (Some 1); Repeat e_exp 0 (Some 1)].
Definition e_list (o c : str) (X : expr) : expr :=
  And [lit o; RuleName nws; Repeat (And [X; Repeat (And [lit (s_ ","); RuleName nws; X]) 0 None]) 0 (Some 1); lit c; RuleName nws].

Lemma g_ws : G nws = Some e_ws. Proof. reflexivity. Qed.
Lemma g_string : G (s_ "string") = Some (And (es_string ++ [RuleName nws])). Proof. reflexivity. Qed.
Lemma g_number : G (s_ "number") = Some (And (es_number ++ [RuleName nws])). Proof. reflexivity. Qed.
Lemma g_array : G (s_ "array") = Some (e_list (s_ "[") (s_ "]") (RuleName (s_ "value"))). Proof. reflexivity. Qed.
Lemma g_object : G (s_ "object") = Some (e_list (s_ "{") (s_ "}") (RuleName (s_ "member"))). Proof. reflexivity. Qed.
Lemma g_member : G (s_ "member") = Some (And [RuleName (s_ "string"); lit (s_ ":"); RuleName nws; RuleName (s_ "value")]). Proof. reflexivity. Qed.
Lemma g_value : G (s_ "value") = Some (Or [RuleName (s_ "object"); RuleName (s_ "array"); RuleName (s_ "string"); RuleName (s_ "number");
  And [lit (s_ "true"); RuleName nws]; And [lit (s_ "false"); RuleName nws]; And [lit (s_ "null"); RuleName nws]]). Proof. reflexivity. Qed.
Lemma g_main : G main = Some (And [RuleName nws; RuleName (s_ "value")]). Proof. reflexivity. Qed.

Lemma json_sane : sane_rules jrules.
Proof. apply sane_rules_all. repeat constructor. Qed.
Lemma json_wf : well_formed G.
Proof. apply wf_check_sound; vm_compute; reflexivity. Qed.

(** Blanks; what starts a value; what may come after one. *)
Definition j_bl : list (char * option char) := [(32, Some 32); (9, Some 10); (13, Some 13)]%N.
Definition j_st : list (char * option char) := [(123, Some 123); (91, Some 91); (34, Some 34); (45, Some 45); (48, Some 57); (116, Some 116); (102, Some 102); (110, Some 110)]%N.
Definition j_af : list (char * option char) := [(44, Some 44); (93, Some 93); (125, Some 125)]%N.
Definition j_tables : list (str * info) :=
  [ (main, Info false (j_bl ++ j_st) [] true);
    (s_ "value", Info false j_st j_af true);
    (s_ "object", Info false [(123, Some 123)]%N j_af true);
    (s_ "array", Info false [(91, Some 91)]%N j_af true);
    (s_ "string", Info false [(34, Some 34)]%N ((58, Some 58)%N :: j_af) true);
    (s_ "number", Info false [(45, Some 45); (48, Some 57)]%N j_af true);
    (s_ "member", Info false [(34, Some 34)]%N [(44, Some 44); (125, Some 125)]%N false);
    (nws, Info true j_bl ((58, Some 58)%N :: j_st ++ j_af) true) ].

Lemma json_predictive : predictive_grammar G.
Proof. apply (predictive_check_ok j_tables). vm_compute. reflexivity. Qed.

(* ------------------------------------------------------------------------------------------- *)
(** * Blanks, strings, numbers *)

Lemma in_none : forall rg c, in_class [] rg c <-> exists lo hi, In (lo, hi) rg /\ (lo <= c <= hi)%N.
Proof. intros rg c. unfold in_class. cbn. tauto. Qed.
Lemma in_only : forall cs c, in_class cs [] c <-> In c cs.
Proof. intros cs c. unfold in_class. cbn. split; [intros [H|(lo & hi & [] & _)]; exact H|auto]. Qed.

Lemma ascii_app : forall a b : str, ascii (a ++ b) <-> ascii a /\ ascii b.
Proof. intros a b. unfold ascii. apply Forall_app. Qed.

Lemma in_ranges : forall rg c, in_class [] rg c <-> fold_right (fun p P => (fst p <= c <= snd p)%N \/ P) False rg.
Proof.
  intros rg c. rewrite in_none. induction rg as [|[lo hi] rg IH]; cbn [fold_right fst snd].
  - split; [intros (lo & hi & [] & _)|intros []].
  - rewrite <- IH. split.
    + intros (a & b & [E|IN] & H); [injection E as -> ->; left; exact H|right; eauto].
    + intros [H|(a & b & IN & H)]; [exists lo, hi; cbn; auto|exists a, b; cbn; auto].
Qed.

Lemma l_lit1 : forall c w, L (lit [c]) w <-> w = [c].
Proof. intros c w. apply l_lit. Qed.

(** Repetitions of single chars. *)
Lemma l_star1 : forall e (P : char -> Prop) w, (forall u, L e u <-> exists c, P c /\ u = [c]) -> L (Repeat e 0 None) w <-> Forall P w.
Proof.
  intros e P w E. rewrite l_star. split.
  - intros (l & F & ->). induction F as [|u l H F IH]; [constructor|]. apply E in H. destruct H as (c & H & ->). cbn. constructor; assumption.
  - intro F. exists (map (fun c => [c]) w). split.
    + apply Forall_map. eapply Forall_impl; [|exact F]. intros c H. apply E. eauto.
    + clear F. induction w as [|c w IH]; [reflexivity|]. cbn. congruence.
Qed.

Lemma l_plus1 : forall e (P : char -> Prop) w, (forall u, L e u <-> exists c, P c /\ u = [c]) -> L (Repeat e 1 None) w <-> w <> [] /\ Forall P w.
Proof.
  intros e P w E. rewrite l_plus. split.
  - intros (u & v & H & H2 & ->). apply E in H. destruct H as (c & H & ->). apply (l_star1 e P v E) in H2. split; [discriminate|constructor; assumption].
  - intros [N F]. destruct F as [|c w H F]; [congruence|]. exists [c], w. split; [apply E; eauto|]. split; [apply (l_star1 e P w E); exact F|reflexivity].
Qed.

Lemma l_ws : forall w, L e_ws w <-> ws w.
Proof.
  intro w. apply l_star1. intro u. unfold ws. rewrite l_or, !Exists_cons, Exists_nil. unfold lit. rewrite !l_lit. change (s_ " ") with [32%N].
  split.
  - intros [->|[->|[->|[->|[]]]]]; eexists; (split; [|reflexivity]); auto.
  - intros (c & [->|[->|[-> | ->]]] & ->); auto.
Qed.

Lemma l_digit : forall u, L e_digit u <-> exists c, is_digit c = true /\ u = [c].
Proof.
  intro u. unfold e_digit, ematch. rewrite l_class. split; intros (c & H & ->); exists c; (split; [|reflexivity]); apply digit_class; exact H.
Qed.

Lemma l_hex : forall u, L e_hex u <-> exists c, is_hex c /\ u = [c].
Proof.
  intro u. unfold e_hex, ematch. rewrite l_class. unfold is_hex. split; intros (c & H & ->); exists c; (split; [|reflexivity]); rewrite in_ranges in *;
  cbn [fold_right fst snd] in *; tauto.
Qed.

Lemma l_one : forall e w, L (And [e]) w <-> L e w.
Proof.
  intros e w. rewrite l_and. split.
  - intros (u & v & H & H2 & ->). apply l_nil in H2. subst v. rewrite app_nil_r. exact H.
  - intro H. exists w, []. split; [exact H|]. split; [apply l_nil; reflexivity|symmetry; apply app_nil_r].
Qed.

Lemma l_hex4 : forall w, L (And [e_hex; e_hex; e_hex; e_hex]) w <-> exists a b c d, is_hex a /\ is_hex b /\ is_hex c /\ is_hex d /\ w = [a; b; c; d].
Proof.
  intro w. split.
  - intro H. apply l_and in H. destruct H as (u1 & v1 & A & H & ->). apply l_and in H. destruct H as (u2 & v2 & B & H & ->).
    apply l_and in H. destruct H as (u3 & v3 & C & D & ->). apply (proj1 (l_one _ _)) in D.
    apply l_hex in A. apply l_hex in B. apply l_hex in C. apply l_hex in D.
    destruct A as (a & A & ->). destruct B as (b & B & ->). destruct C as (c & C & ->). destruct D as (d & D & ->). exists a, b, c, d. auto.
  - intros (a & b & c & d & A & B & C & D & ->). apply l_and. exists [a], [b; c; d]. split; [apply l_hex; eauto|]. split; [|reflexivity].
    apply l_and. exists [b], [c; d]. split; [apply l_hex; eauto|]. split; [|reflexivity].
    apply l_and. exists [c], [d]. split; [apply l_hex; eauto|]. split; [|reflexivity]. apply l_one. apply l_hex. eauto.
Qed.

(** One char of a string, or one escape sequence. *)
Inductive one_char : str -> Prop :=
| oc_plain c : plain_char c -> (c <= 127)%N -> one_char [c]
| oc_escape c : escape_char c -> one_char [92%N; c]
| oc_unicode a b c d : is_hex a -> is_hex b -> is_hex c -> is_hex d -> one_char [92%N; 117%N; a; b; c; d].

Lemma l_char : forall w, L e_char w <-> one_char w.
Proof.
  intro w. unfold e_char. rewrite l_or, !Exists_cons, Exists_nil. unfold ematch at 1. rewrite l_class, l_lit1. split.
  - intros [(c & H & ->)|[->|[H|[]]]].
    + rewrite in_ranges in H. cbn [fold_right fst snd] in H. constructor; unfold plain_char; lia.
    + constructor; unfold plain_char; lia.
    + apply l_and in H. destruct H as (u & v & A & B & ->). apply l_lit1 in A. subst u. apply (proj1 (l_one _ _)) in B. apply l_or in B.
      rewrite !Exists_cons, Exists_nil in B. destruct B as [B|[B|[]]].
      * apply l_class in B. destruct B as (c & B & ->). apply in_only in B. constructor. exact B.
      * apply l_and in B. destruct B as (u2 & v2 & A & B & ->). apply l_lit1 in A. subst u2. apply l_hex4 in B.
        destruct B as (a & b & c & d & A & B & C & D & ->). constructor; assumption.
  - intros [c [H H2] H3|c H|a b c d A B C D].
    + destruct (N.eq_dec c 127) as [->|N]; [right; left; reflexivity|]. left. exists c. split; [|reflexivity]. rewrite in_ranges. cbn [fold_right fst snd]. lia.
    + right. right. left. apply l_and. exists [92%N], [c]. split; [apply l_lit1; reflexivity|]. split; [|reflexivity]. apply l_one. apply l_or. constructor.
      apply l_class. exists c. split; [apply in_only; exact H|reflexivity].
    + right. right. left. apply l_and. exists [92%N], [117%N; a; b; c; d]. split; [apply l_lit1; reflexivity|]. split; [|reflexivity]. apply l_one. apply l_or.
      right. left. apply l_and. exists [117%N], [a; b; c; d]. split; [apply l_lit1; reflexivity|]. split; [|reflexivity]. apply l_hex4. eauto 12.
Qed.

Lemma l_chars : forall w, L (Repeat e_char 0 None) w -> chars w.
Proof.
  intros w H. apply l_star in H. destruct H as (l & F & ->). induction F as [|u l H F IH]; [constructor|]. cbn [concat]. apply l_char in H.
  destruct H; cbn [app]; constructor; assumption.
Qed.

Lemma chars_l : forall w, chars w -> ascii w -> L (Repeat e_char 0 None) w.
Proof.
  assert (X : forall u w, one_char u -> L (Repeat e_char 0 None) w -> L (Repeat e_char 0 None) (u ++ w)).
  { intros u w O H. apply l_star in H. destruct H as (l & F & ->). apply l_star. exists (u :: l). split; [constructor; [apply l_char; exact O|exact F]|reflexivity]. }
  intros w C. induction C as [|c x P C IH|c x P C IH|a b c d x HA HB HC HD C IH]; intro A.
  - apply l_star. exists []. split; [constructor|reflexivity].
  - inversion A as [|? ? A1 A2]; subst. apply (X [c]); [|apply IH; exact A2]. constructor; [exact P|]. unfold ascii_char in A1. lia.
  - apply (X [92%N; c]); [constructor; exact P|]. apply IH. apply (proj1 (ascii_app [92%N; c] x)) in A. apply A.
  - apply (X [92%N; 117%N; a; b; c; d]); [constructor; assumption|]. apply IH. apply (proj1 (ascii_app [92%N; 117%N; a; b; c; d] x)) in A. apply A.
Qed.

Lemma l_string : forall w, L (And es_string) w -> exists x, chars x /\ w = quoted x.
Proof.
  intros w H. apply l_and in H. destruct H as (u & v & A & H & ->). apply l_lit in A. subst u. apply l_and in H. destruct H as (x & v2 & B & H & ->).
  apply (proj1 (l_one _ _)) in H. apply l_lit in H. subst v2. apply l_chars in B. exists x. split; [exact B|reflexivity].
Qed.

Lemma string_l : forall x, chars x -> ascii x -> L (And es_string) (quoted x).
Proof.
  intros x C A. apply l_and. exists (s_ """"), (x ++ s_ """"). split; [apply l_lit; reflexivity|]. split; [|reflexivity].
  apply l_and. exists x, (s_ """"). split; [apply chars_l; assumption|]. split; [|reflexivity]. apply l_one. apply l_lit. reflexivity.
Qed.

Lemma l_int : forall w, L e_int w <-> integer w.
Proof.
  intro w. unfold e_int. rewrite l_or, !Exists_cons, Exists_nil. split.
  - intros [H|[H|[]]]; [apply l_lit in H; subst w; constructor|]. apply l_and in H. destruct H as (u & v & A & B & ->). apply (proj1 (l_one _ _)) in B.
    apply (l_star1 e_digit _ v l_digit) in B. apply l_class in A. destruct A as (c & A & ->). rewrite in_ranges in A. cbn [fold_right fst snd] in A.
    constructor; [lia|exact B].
  - intros [|c x H F]; [left; apply l_lit; reflexivity|right; left]. apply l_and. exists [c], x. split; [apply l_class; exists c; split; [rewrite in_ranges; cbn; auto|reflexivity]|].
    split; [|reflexivity]. apply l_one. apply (l_star1 e_digit _ x l_digit). exact F.
Qed.

Lemma l_frac : forall w, L (Repeat e_frac 0 (Some 1)) w <-> fraction w.
Proof.
  intro w. rewrite l_opt. unfold fraction, e_frac. split; (intros [->|H]; [left; reflexivity|right]).
  - apply l_and in H. destruct H as (u & v & A & B & ->). apply l_lit in A. subst u. apply (proj1 (l_one _ _)) in B.
    apply (l_plus1 e_digit _ v l_digit) in B. exists v. split; [exact B|reflexivity].
  - destruct H as (d & D & ->). apply l_and. exists (s_ "."), d. split; [apply l_lit; reflexivity|]. split; [|reflexivity]. apply l_one.
    apply (l_plus1 e_digit _ d l_digit). exact D.
Qed.

Lemma l_sign : forall w, L (Repeat (Or [lit (s_ "+"); lit (s_ "-")]) 0 (Some 1)) w <-> w = [] \/ w = s_ "+" \/ w = s_ "-".
Proof. intro w. rewrite l_opt, l_or, !Exists_cons, Exists_nil. unfold lit. rewrite !l_lit. tauto. Qed.

Lemma l_exp : forall w, L (Repeat e_exp 0 (Some 1)) w <-> exponent w.
Proof.
  intro w. rewrite l_opt. unfold exponent, e_exp. split; (intros [->|H]; [left; reflexivity|right]).
  - apply l_and in H. destruct H as (u & v & A & B & ->). apply l_class in A. destruct A as (e & A & ->). apply in_only in A.
    apply l_and in B. destruct B as (sg & v2 & B & C & ->). apply l_sign in B. apply (proj1 (l_one _ _)) in C. apply (l_plus1 e_digit _ v2 l_digit) in C.
    exists e, sg, v2. split; [cbn in A; destruct A as [A|[A|[]]]; auto|]. split; [exact B|]. split; [exact C|reflexivity].
  - destruct H as (e & sg & d & E & S & D & ->). apply l_and. exists [e], (sg ++ d). split; [apply l_class; exists e; split; [apply in_only; cbn; destruct E as [-> | ->]; auto|reflexivity]|].
    split; [|reflexivity]. apply l_and. exists sg, d. split; [apply l_sign; exact S|]. split; [|reflexivity]. apply l_one. apply (l_plus1 e_digit _ d l_digit). exact D.
Qed.

Lemma l_number : forall w, L (And es_number) w <-> number w.
Proof.
  intro w. unfold es_number, number. split.
  - intro H. apply l_and in H. destruct H as (sg & v & A & H & ->). apply l_and in H. destruct H as (i & v2 & B & H & ->).
    apply l_and in H. destruct H as (f & e & C & D & ->). apply (proj1 (l_one _ _)) in D. exists sg, i, f, e.
    rewrite l_opt in A. unfold lit in A. rewrite l_lit in A. rewrite l_int in B. rewrite l_frac in C. rewrite l_exp in D. auto 10.
  - intros (sg & i & f & e & A & B & C & D & ->). apply l_and. exists sg, (i ++ f ++ e). split; [rewrite l_opt; unfold lit; rewrite l_lit; exact A|].
    split; [|reflexivity]. apply l_and. exists i, (f ++ e). split; [apply l_int; exact B|]. split; [|reflexivity].
    apply l_and. exists f, e. split; [apply l_frac; exact C|]. split; [|reflexivity]. apply l_one. apply l_exp. exact D.
Qed.

Lemma number_some : ~ L (And es_number) [].
Proof.
  intro H. apply l_number in H. destruct H as (sg & i & f & e & _ & I' & _ & _ & E). destruct sg; [|discriminate]. destruct I'; discriminate.
Qed.

Lemma string_some : ~ L (And es_string) [].
Proof. intro H. apply l_string in H. destruct H as (x & _ & E). discriminate. Qed.

(* ------------------------------------------------------------------------------------------- *)
(** * Values *)

Lemma not_ws : forall n, str_eqb n nws = false -> ~ In n [nws].
Proof. intros n E [H|[]]. subst n. rewrite str_eqb_refl in E. discriminate. Qed.

Lemma t_ws : forall w us, T (RuleName nws) w us <-> ws w /\ us = [].
Proof. intros w us. rewrite (t_pruned G [nws] nws e_ws w us g_ws (or_introl eq_refl)), l_ws. reflexivity. Qed.

Lemma t_string : forall w us, T (RuleName (s_ "string")) w us <-> exists u b, L (And es_string) u /\ ws b /\ w = u ++ b /\ us = [Rule (s_ "string") [Val u]].
Proof.
  intros w us. rewrite (t_token G [nws] (s_ "string") es_string nws e_ws w us g_string (not_ws (s_ "string") eq_refl) g_ws (or_introl eq_refl) eq_refl string_some).
  split; intros (u & b & A & B & C); exists u, b; (split; [exact A|]; split; [apply l_ws; exact B|exact C]).
Qed.

Lemma t_number : forall w us, T (RuleName (s_ "number")) w us <-> exists u b, number u /\ ws b /\ w = u ++ b /\ us = [Rule (s_ "number") [Val u]].
Proof.
  intros w us. rewrite (t_token G [nws] (s_ "number") es_number nws e_ws w us g_number (not_ws (s_ "number") eq_refl) g_ws (or_introl eq_refl) eq_refl number_some).
  split; intros (u & b & A & B & C); exists u, b; (split; [apply l_number; exact A|]; split; [apply l_ws; exact B|exact C]).
Qed.

(** Nodes as they come out. *)
Definition tight (n : node) : Prop := compact n = n /\ exists k q, n = Rule k q.

Lemma rule_tight : forall n e w us, G n = Some e -> ~ In n [nws] -> T (RuleName n) w us -> exists k, us = [k] /\ tight k.
Proof.
  intros n e w us E N H. apply (t_rule G [nws] n e w us E N) in H. destruct H as (vs & _ & ->). eexists. split; [reflexivity|].
  split; [rewrite <- compact_rule; apply compact_idem|eauto].
Qed.

Lemma value_tight : forall w us, T (RuleName (s_ "value")) w us -> exists k, us = [k] /\ tight k.
Proof. intros w us. apply (rule_tight _ _ w us g_value). apply not_ws. reflexivity. Qed.
Lemma member_tight : forall w us, T (RuleName (s_ "member")) w us -> exists k, us = [k] /\ tight k.
Proof. intros w us. apply (rule_tight _ _ w us g_member). apply not_ws. reflexivity. Qed.

Lemma value_tight1 : forall w n, T (RuleName (s_ "value")) w [n] -> tight n.
Proof. intros w n H. destruct (value_tight _ _ H) as (k & E & K). injection E as ->. exact K. Qed.
Lemma member_tight1 : forall w n, T (RuleName (s_ "member")) w [n] -> tight n.
Proof. intros w n H. destruct (member_tight _ _ H) as (k & E & K). injection E as ->. exact K. Qed.

Lemma loop_tight : forall acc n r, tight n -> last_val acc = None -> compact_loop acc (n :: r) = acc ++ n :: compact_loop [] r.
Proof.
  intros acc n r [C (k & q & ->)] LV. change (compact_loop acc (Rule k q :: r)) with (compact_loop (acc ++ [compact (Rule k q)]) r).
  rewrite C, compact_loop_snoc. f_equal. apply compact_loop_step. discriminate.
Qed.

Lemma loop_val : forall v n r, tight n -> compact_loop [] (Val v :: n :: r) = Val v :: n :: compact_loop [] r.
Proof.
  intros v n r H. change (compact_loop [] (Val v :: n :: r)) with (compact_loop [Val v] (n :: r)).
  rewrite compact_loop_stop; [|destruct H as [_ (k & q & ->)]; intros (x & y & E); discriminate]. f_equal. apply (loop_tight []); [exact H|reflexivity].
Qed.

Lemma loop_commas : forall l o c, Forall tight l -> l <> [] -> compact_loop [] ([Val o] ++ commas l ++ [Val c]) = [Val o] ++ commas l ++ [Val c].
Proof.
  intros [|n l] o c F N; [congruence|]. inversion F as [|? ? H F2]; subst. cbn [app commas]. rewrite loop_val by exact H. do 2 f_equal. clear N F H n.
  induction F2 as [|n l H F IH]; [reflexivity|]. cbn [flat_map app]. rewrite loop_val by exact H. do 2 f_equal. exact IH.
Qed.

Lemma seq_tight : forall (P : str -> node -> Prop) w l, (forall x n, P x n -> tight n) -> seq (lang G e_ws) P w l -> Forall tight l /\ l <> [].
Proof. intros P w l H SQ. induction SQ as [x n X|x n b y l X B SQ [IH _]]; (split; [|discriminate]); constructor; eauto. Qed.

Definition bracketed (P : str -> node -> Prop) (name o c w : str) (n : node) : Prop :=
  exists b b2, ws b /\ ws b2 /\
    ((w = o ++ b ++ c ++ b2 /\ n = Rule name [Val (o ++ c)]) \/
     exists x l, seq (lang G e_ws) P x l /\ w = o ++ b ++ x ++ c ++ b2 /\ n = Rule name ([Val o] ++ commas l ++ [Val c])).

Lemma t_list : forall name o c X w us, G name = Some (e_list o c X) -> ~ In name [nws] -> (forall x u, T X x u -> exists k, u = [k] /\ tight k) ->
  T (RuleName name) w us <-> exists n, us = [n] /\ bracketed (fun x n => T X x [n]) name o c w n.
Proof.
  intros name o c X w us E N TI. assert (ON : forall x u, T X x u -> exists n, u = [n]) by (intros x u H; destruct (TI x u H) as (k & K & _); eauto).
  assert (TI1 : forall x n, T X x [n] -> tight n) by (intros x n H; destruct (TI _ _ H) as (k & K & H2); congruence).
  rewrite (t_rule G [nws] name _ w us E N). unfold e_list. split.
  - intros (vs & H & ->). apply t_and in H. destruct H as (w1 & w2 & t1 & t2 & A & H & -> & ->). apply t_lit in A. destruct A as [-> ->].
    apply t_and in H. destruct H as (b & w3 & t3 & t4 & A & H & -> & ->). apply t_ws in A. destruct A as [B ->].
    apply t_and in H. destruct H as (x & w4 & t5 & t6 & A & H & -> & ->). apply t_and in H. destruct H as (w5 & b2 & t7 & t8 & C & D & -> & ->).
    apply t_lit in C. destruct C as [-> ->]. apply t_and in D. destruct D as (b2' & w6 & t9 & ta & D & H & -> & ->). apply t_ws in D. destruct D as [B2 ->].
    apply t_nil in H. destruct H as [-> ->]. rewrite !app_nil_r. cbn [app]. eexists. split; [reflexivity|]. exists b, b2'. split; [exact B|]. split; [exact B2|].
    apply t_opt in A. destruct A as [[-> ->]|A]; [left; split; reflexivity|]. right.
    apply (t_seq G [nws] X nws e_ws _ _ g_ws (or_introl eq_refl) ON) in A. destruct A as (l & SQ & ->). exists x, l. split; [exact SQ|]. split; [reflexivity|].
    destruct (seq_tight _ _ _ TI1 SQ) as [F NE]. f_equal. exact (loop_commas l o c F NE).
  - intros (n & -> & b & b2 & B & B2 & [[-> ->]|(x & l & SQ & -> & ->)]).
    + exists [Val o; Val c]. split; [|reflexivity]. apply t_and. exists o, (b ++ c ++ b2), [Val o], [Val c]. split; [apply t_lit; auto|]. split; [|auto].
      apply t_and. exists b, (c ++ b2), [], [Val c]. split; [apply t_ws; auto|]. split; [|auto]. apply t_and. exists [], (c ++ b2), [], [Val c].
      split; [apply t_opt; left; auto|]. split; [|auto]. apply t_and. exists c, b2, [Val c], []. split; [apply t_lit; auto|]. split; [|auto].
      apply t_and. exists b2, [], [], []. split; [apply t_ws; auto|]. split; [apply t_nil; auto|rewrite app_nil_r; auto].
    + exists ([Val o] ++ commas l ++ [Val c]). split.
      * apply t_and. exists o, (b ++ x ++ c ++ b2), [Val o], (commas l ++ [Val c]). split; [apply t_lit; auto|]. split; [|auto].
        apply t_and. exists b, (x ++ c ++ b2), [], (commas l ++ [Val c]). split; [apply t_ws; auto|]. split; [|auto].
        apply t_and. exists x, (c ++ b2), (commas l), [Val c]. split; [|split; [|auto]].
        -- apply t_opt. right. apply (t_seq G [nws] X nws e_ws _ _ g_ws (or_introl eq_refl) ON). exists l. auto.
        -- apply t_and. exists c, b2, [Val c], []. split; [apply t_lit; auto|]. split; [|auto].
           apply t_and. exists b2, [], [], []. split; [apply t_ws; auto|]. split; [apply t_nil; auto|rewrite app_nil_r; auto].
      * destruct (seq_tight _ _ _ TI1 SQ) as [F NE]. rewrite (loop_commas l o c F NE). reflexivity.
Qed.

Lemma t_member : forall w us, T (RuleName (s_ "member")) w us <-> exists u b b2 x n, L (And es_string) u /\ ws b /\ ws b2 /\ T (RuleName (s_ "value")) x [n] /\
  w = u ++ b ++ s_ ":" ++ b2 ++ x /\ us = [Rule (s_ "member") [Rule (s_ "string") [Val u]; Val (s_ ":"); n]].
Proof.
  intros w us. rewrite (t_rule G [nws] _ _ w us g_member (not_ws (s_ "member") eq_refl)). split.
  - intros (vs & H & ->). apply t_and in H. destruct H as (w1 & w2 & t1 & t2 & A & H & -> & ->). apply t_string in A. destruct A as (u & b & A & B & -> & ->).
    apply t_and in H. destruct H as (w3 & w4 & t3 & t4 & C & H & -> & ->). apply t_lit in C. destruct C as [-> ->].
    apply t_and in H. destruct H as (b2 & w5 & t5 & t6 & C & H & -> & ->). apply t_ws in C. destruct C as [B2 ->].
    apply t_and in H. destruct H as (x & w6 & t7 & t8 & C & H & -> & ->). apply t_nil in H. destruct H as [-> ->].
    destruct (value_tight _ _ C) as (n & -> & TN). rewrite app_nil_r, <- !app_assoc. exists u, b, b2, x, n. repeat split; auto. cbn [app].
    rewrite (loop_tight []); [|split; [reflexivity|eauto]|reflexivity]. cbn [app]. rewrite loop_val by exact TN. reflexivity.
  - intros (u & b & b2 & x & n & A & B & B2 & V & -> & ->). destruct (value_tight _ _ V) as (n' & E & TN). injection E as <-.
    exists [Rule (s_ "string") [Val u]; Val (s_ ":"); n]. split.
    + apply t_and. exists (u ++ b), (s_ ":" ++ b2 ++ x), [Rule (s_ "string") [Val u]], [Val (s_ ":"); n].
      split; [apply t_string; exists u, b; auto|]. split; [|split; [rewrite <- !app_assoc; reflexivity|reflexivity]].
      apply t_and. exists (s_ ":"), (b2 ++ x), [Val (s_ ":")], [n]. split; [apply t_lit; auto|]. split; [|auto].
      apply t_and. exists b2, x, [], [n]. split; [apply t_ws; auto|]. split; [|auto].
      apply t_and. exists x, [], [n], []. split; [exact V|]. split; [apply t_nil; auto|rewrite app_nil_r; auto].
    + rewrite (loop_tight []); [|split; [reflexivity|eauto]|reflexivity]. cbn [app]. rewrite loop_val by exact TN. reflexivity.
Qed.

Lemma t_word : forall x w us, T (And [lit x; RuleName nws]) w us <-> exists b, ws b /\ w = x ++ b /\ us = [Val x].
Proof.
  intros x w us. split.
  - intro H. apply t_and in H. destruct H as (w1 & w2 & t1 & t2 & A & H & -> & ->). apply t_lit in A. destruct A as [-> ->].
    apply t_and in H. destruct H as (b & w3 & t3 & t4 & A & H & -> & ->). apply t_ws in A. destruct A as [B ->]. apply t_nil in H. destruct H as [-> ->].
    exists b. rewrite app_nil_r. auto.
  - intros (b & B & -> & ->). apply t_and. exists x, b, [Val x], []. split; [apply t_lit; auto|]. split; [|auto]. apply t_and. exists b, [], [], [].
    split; [apply t_ws; auto|]. split; [apply t_nil; auto|rewrite app_nil_r; auto].
Qed.

Definition member_tree (kv : str * json) : node := Rule (s_ "member") [string_tree (fst kv); Val (s_ ":"); json_tree (snd kv)].

Lemma tree_array : forall l, l <> [] -> json_tree (JArray l) = Rule (s_ "value") [Rule (s_ "array") ([Val (s_ "[")] ++ commas (map json_tree l) ++ [Val (s_ "]")])].
Proof. intros [|v l] N; [congruence|reflexivity]. Qed.
Lemma tree_object : forall l, l <> [] -> json_tree (JObject l) = Rule (s_ "value") [Rule (s_ "object") ([Val (s_ "{")] ++ commas (map member_tree l) ++ [Val (s_ "}")])].
Proof. intros [|v l] N; [congruence|reflexivity]. Qed.

Lemma t_value : forall w us, T (RuleName (s_ "value")) w us <-> exists vs, us = [Rule (s_ "value") (compact_loop [] vs)] /\
  ((exists n, vs = [n] /\ bracketed (fun x n => T (RuleName (s_ "member")) x [n]) (s_ "object") (s_ "{") (s_ "}") w n) \/
   (exists n, vs = [n] /\ bracketed (fun x n => T (RuleName (s_ "value")) x [n]) (s_ "array") (s_ "[") (s_ "]") w n) \/
   T (RuleName (s_ "string")) w vs \/ T (RuleName (s_ "number")) w vs \/
   exists x b, In x [s_ "true"; s_ "false"; s_ "null"] /\ ws b /\ w = x ++ b /\ vs = [Val x]).
Proof.
  intros w us. rewrite (t_rule G [nws] _ _ w us g_value (not_ws (s_ "value") eq_refl)).
  pose proof (fun w us => t_list _ _ _ _ w us g_array (not_ws (s_ "array") eq_refl) value_tight) as TA.
  pose proof (fun w us => t_list _ _ _ _ w us g_object (not_ws (s_ "object") eq_refl) member_tight) as TO.
  split.
  - intros (vs & H & ->). exists vs. split; [reflexivity|]. apply t_or in H. rewrite !Exists_cons, Exists_nil, TO, TA, !t_word in H.
    destruct H as [H|[H|[H|[H|[(b & B & H)|[(b & B & H)|[(b & B & H)|[]]]]]]]]; auto; right; right; right; right; eexists; exists b; (split; [|split; [exact B|exact H]]); cbn; auto.
  - intros (vs & -> & H). exists vs. split; [|reflexivity]. apply t_or. rewrite !Exists_cons, Exists_nil, TO, TA, !t_word.
    destruct H as [H|[H|[H|[H|(x & b & [<-|[<-|[<-|[]]]] & B & H)]]]]; eauto 10.
Qed.

Lemma seq_impl : forall (P Q : str -> node -> Prop) w l k, length w <= k -> (forall x n, length x <= k -> P x n -> Q x n) -> seq (lang G e_ws) P w l -> seq (lang G e_ws) Q w l.
Proof.
  intros P Q w l k LE PQ SQ. revert LE. induction SQ as [x n X|x n b y l X B SQ IH]; intro LE; [constructor; auto|].
  rewrite !app_length in LE. constructor; [apply PQ; [lia|exact X]|exact B|apply IH; lia].
Qed.

Definition is_value_text (x : str) (n : node) : Prop := exists v t b, writes v t /\ ws b /\ x = t ++ b /\ n = json_tree v.
Definition is_member_text (x : str) (n : node) : Prop := exists k v b1 b2 t b, chars k /\ ws b1 /\ ws b2 /\ writes v t /\ ws b /\
  x = quoted k ++ b1 ++ s_ ":" ++ b2 ++ t ++ b /\ n = member_tree (k, v).

Lemma seq_elements : forall x l, seq (lang G e_ws) is_value_text x l -> exists vs, vs <> [] /\ l = map json_tree vs /\ forall b, ws b -> elements vs (b ++ x).
Proof.
  intros x l SQ. induction SQ as [x n (v & t & b & W & B & -> & ->)|x n b0 y l (v & t & b & W & B & -> & ->) B0 SQ (vs & NE & -> & IH)].
  - exists [v]. split; [discriminate|]. split; [reflexivity|]. intros b1 B1. constructor; assumption.
  - exists (v :: vs). split; [discriminate|]. split; [reflexivity|]. intros b1 B1. apply l_ws in B0.
    replace (b1 ++ (t ++ b) ++ s_ "," ++ b0 ++ y) with ((b1 ++ t ++ b) ++ s_ "," ++ (b0 ++ y)) by (rewrite <- !app_assoc; reflexivity).
    constructor; auto.
Qed.

Lemma seq_members : forall x l, seq (lang G e_ws) is_member_text x l -> exists vs, vs <> [] /\ l = map member_tree vs /\ forall b, ws b -> members vs (b ++ x).
Proof.
  intros x l SQ. induction SQ as [x n (k & v & b1 & b2 & t & b & K & B1 & B2 & W & B & -> & ->)|x n b0 y l (k & v & b1 & b2 & t & b & K & B1 & B2 & W & B & -> & ->) B0 SQ (vs & NE & -> & IH)].
  - exists [(k, v)]. split; [discriminate|]. split; [reflexivity|]. intros b3 B3. constructor; assumption.
  - exists ((k, v) :: vs). split; [discriminate|]. split; [reflexivity|]. intros b3 B3. apply l_ws in B0.
    replace (b3 ++ (quoted k ++ b1 ++ s_ ":" ++ b2 ++ t ++ b) ++ s_ "," ++ b0 ++ y) with ((b3 ++ quoted k ++ b1 ++ s_ ":" ++ b2 ++ t ++ b) ++ s_ "," ++ (b0 ++ y))
      by (rewrite <- !app_assoc; reflexivity).
    constructor; auto.
Qed.

Lemma value_fwd : forall k w us, length w <= k -> T (RuleName (s_ "value")) w us -> exists n, us = [n] /\ is_value_text w n.
Proof.
  induction k as [k IH] using lt_wf_ind. intros w us LE H. apply t_value in H. destruct H as (vs & -> & H). eexists. split; [reflexivity|].
  assert (IH1 : forall k', k' < k -> forall x n, length x <= k' -> T (RuleName (s_ "value")) x [n] -> is_value_text x n).
  { intros k' LK x n LX V. destruct (IH k' LK x [n] LX V) as (n' & E & H'). injection E as <-. exact H'. }
  destruct H as [(n & -> & H)|[(n & -> & H)|[H|[H|(x & b & IN & B & -> & ->)]]]].
  - destruct H as (b & b2 & B & B2 & [[-> ->]|(x & l & SQ & -> & ->)]).
    + exists (JObject []), (s_ "{" ++ b ++ s_ "}"), b2. rewrite <- !app_assoc. split; [constructor; exact B|auto].
    + assert (TL : Forall tight l /\ l <> []).
      { apply (seq_tight _ _ _ member_tight1 SQ). }
      destruct TL as [TL NL]. rewrite !app_length in LE. cbn [s_ length] in LE.
      assert (LX : length x < k) by (change (length (s_ "{")) with 1 in LE; lia).
      apply (seq_impl _ is_member_text _ _ (length x) (Nat.le_refl _)) in SQ.
      * apply seq_members in SQ. destruct SQ as (ms & NE & -> & SQ). exists (JObject ms), (s_ "{" ++ (b ++ x) ++ s_ "}"), b2.
        rewrite <- !app_assoc. split; [|split; [exact B2|split; [reflexivity|]]].
        -- rewrite (app_assoc b x). constructor. apply SQ. exact B.
        -- rewrite tree_object by exact NE. f_equal. rewrite (loop_tight []); [reflexivity| |reflexivity]. split; [|eauto].
           rewrite compact_rule, loop_commas by assumption. reflexivity.
      * intros y n LY M. apply t_member in M. destruct M as (u & b1 & b3 & z & n2 & S & B1 & B3 & V & -> & E). injection E as ->.
        apply l_string in S. destruct S as (q & Q & ->). rewrite !app_length in LY. apply (IH1 (length x) LX) in V; [|lia].
        destruct V as (v & t & b4 & W & B4 & -> & ->). exists q, v, b1, b3, t, b4. repeat split; auto.
  - destruct H as (b & b2 & B & B2 & [[-> ->]|(x & l & SQ & -> & ->)]).
    + exists (JArray []), (s_ "[" ++ b ++ s_ "]"), b2. rewrite <- !app_assoc. split; [constructor; exact B|auto].
    + assert (TL : Forall tight l /\ l <> []).
      { apply (seq_tight _ _ _ value_tight1 SQ). }
      destruct TL as [TL NL]. rewrite !app_length in LE.
      assert (LX : length x < k) by (change (length (s_ "[")) with 1 in LE; lia).
      apply (seq_impl _ is_value_text _ _ (length x) (Nat.le_refl _)) in SQ; [|intros y n LY; apply (IH1 (length x) LX); exact LY].
      apply seq_elements in SQ. destruct SQ as (ms & NE & -> & SQ). exists (JArray ms), (s_ "[" ++ (b ++ x) ++ s_ "]"), b2.
      rewrite <- !app_assoc. split; [|split; [exact B2|split; [reflexivity|]]].
      * rewrite (app_assoc b x). constructor. apply SQ. exact B.
      * rewrite tree_array by exact NE. f_equal. rewrite (loop_tight []); [reflexivity| |reflexivity]. split; [|eauto].
        rewrite compact_rule, loop_commas by assumption. reflexivity.
  - apply t_string in H. destruct H as (u & b & S & B & -> & ->). apply l_string in S. destruct S as (q & Q & ->).
    exists (JString q), (quoted q), b. split; [constructor; exact Q|auto].
  - apply t_number in H. destruct H as (u & b & S & B & -> & ->). exists (JNumber u), u, b. split; [constructor; exact S|auto].
  - destruct IN as [<-|[<-|[<-|[]]]]; [exists JTrue|exists JFalse|exists JNull]; eexists; exists b; (split; [constructor|auto]).
Qed.

Scheme writes_mut := Minimality for writes Sort Prop
with elements_mut := Minimality for elements Sort Prop
with members_mut := Minimality for members Sort Prop.

Lemma tight_tree : forall v x, T (RuleName (s_ "value")) x [json_tree v] -> tight (json_tree v).
Proof. intros v x H. destruct (value_tight _ _ H) as (k & E & K). injection E as ->. exact K. Qed.

Lemma value_node : forall w n, T (RuleName (s_ "value")) w [Rule (s_ "value") (compact_loop [] [n])] -> tight n -> T (RuleName (s_ "value")) w [Rule (s_ "value") [n]].
Proof. intros w n H TN. rewrite (loop_tight []) in H by (exact TN || reflexivity). exact H. Qed.

Lemma value_bwd : forall v x, writes v x -> ascii x -> forall b, ws b -> T (RuleName (s_ "value")) (x ++ b) [json_tree v].
Proof.
  refine (writes_mut (fun v x => ascii x -> forall b, ws b -> T (RuleName (s_ "value")) (x ++ b) [json_tree v])
    (fun l t => ascii t -> l <> [] /\ exists b x, ws b /\ t = b ++ x /\ seq (lang G e_ws) (fun x n => T (RuleName (s_ "value")) x [n]) x (map json_tree l))
    (fun l t => ascii t -> l <> [] /\ exists b x, ws b /\ t = b ++ x /\ seq (lang G e_ws) (fun x n => T (RuleName (s_ "member")) x [n]) x (map member_tree l)) _ _ _ _ _ _ _ _ _ _ _ _ _).
  - intros _ b B. apply t_value. exists [Val (s_ "null")]. split; [reflexivity|]. do 4 right. exists (s_ "null"), b. cbn; auto 6.
  - intros _ b B. apply t_value. exists [Val (s_ "true")]. split; [reflexivity|]. do 4 right. exists (s_ "true"), b. cbn; auto 6.
  - intros _ b B. apply t_value. exists [Val (s_ "false")]. split; [reflexivity|]. do 4 right. exists (s_ "false"), b. cbn; auto 6.
  - intros n N _ b B. apply t_value. exists [Rule (s_ "number") [Val n]]. split; [reflexivity|]. do 3 right. left. apply t_number. exists n, b. auto.
  - intros q Q A b B. apply t_value. exists [string_tree q]. split; [reflexivity|]. do 2 right. left. apply t_string. exists (quoted q), b.
    split; [|auto]. apply string_l; [exact Q|]. unfold quoted in A. rewrite !ascii_app in A. apply A.
  - intros b0 B0 _ b B. apply t_value. exists [Rule (s_ "array") [Val (s_ "[]")]]. split; [reflexivity|]. right. left. eexists. split; [reflexivity|]. exists b0, b. rewrite <- !app_assoc. auto.
  - intros l t E IH A b B. rewrite !ascii_app in A. destruct (IH ltac:(apply A)) as (NE & b0 & x & B0 & -> & SQ). rewrite tree_array by exact NE.
    destruct (seq_tight _ _ _ value_tight1 SQ) as [TL NL].
    apply value_node; [|split; [rewrite compact_rule, loop_commas by assumption; reflexivity|eauto]].
    apply t_value. eexists. split; [reflexivity|]. right. left. eexists. split; [reflexivity|]. exists b0, b. split; [exact B0|]. split; [exact B|]. right.
    exists x, (map json_tree l). rewrite <- !app_assoc. auto.
  - intros b0 B0 _ b B. apply t_value. exists [Rule (s_ "object") [Val (s_ "{}")]]. split; [reflexivity|]. left. eexists. split; [reflexivity|]. exists b0, b. rewrite <- !app_assoc. auto.
  - intros l t E IH A b B. rewrite !ascii_app in A. destruct (IH ltac:(apply A)) as (NE & b0 & x & B0 & -> & SQ). rewrite tree_object by exact NE.
    destruct (seq_tight _ _ _ member_tight1 SQ) as [TL NL].
    apply value_node; [|split; [rewrite compact_rule, loop_commas by assumption; reflexivity|eauto]].
    apply t_value. eexists. split; [reflexivity|]. left. eexists. split; [reflexivity|]. exists b0, b. split; [exact B0|]. split; [exact B|]. right.
    exists x, (map member_tree l). rewrite <- !app_assoc. auto.
  - intros v w1 t w2 W1 W IH W2 A. rewrite !ascii_app in A. split; [discriminate|]. exists w1, (t ++ w2). split; [exact W1|]. split; [reflexivity|]. constructor. apply IH; tauto.
  - intros v w1 t w2 l r W1 W IH W2 E IHE A. rewrite !ascii_app in A. split; [discriminate|]. destruct (IHE ltac:(tauto)) as (NE & b0 & x & B0 & -> & SQ).
    exists w1, ((t ++ w2) ++ s_ "," ++ b0 ++ x). split; [exact W1|]. split; [rewrite <- !app_assoc; reflexivity|]. cbn [map].
    constructor; [apply IH; tauto|apply l_ws; exact B0|exact SQ].
  - intros k v w1 w2 w3 t w4 W1 K W2 W3 W IH W4 A. unfold quoted in A. rewrite !ascii_app in A. split; [discriminate|].
    exists w1, (quoted k ++ w2 ++ s_ ":" ++ w3 ++ t ++ w4). split; [exact W1|]. split; [reflexivity|]. constructor. apply t_member.
    exists (quoted k), w2, w3, (t ++ w4), (json_tree v). split; [apply string_l; tauto|]. split; [exact W2|]. split; [exact W3|]. split; [apply IH; tauto|auto].
  - intros k v w1 w2 w3 t w4 l r W1 K W2 W3 W IH W4 E IHE A. unfold quoted in A. rewrite !ascii_app in A. split; [discriminate|].
    destruct (IHE ltac:(tauto)) as (NE & b0 & x & B0 & -> & SQ).
    exists w1, ((quoted k ++ w2 ++ s_ ":" ++ w3 ++ t ++ w4) ++ s_ "," ++ b0 ++ x). split; [exact W1|]. split; [rewrite <- !app_assoc; reflexivity|]. cbn [map].
    constructor; [|apply l_ws; exact B0|exact SQ]. apply t_member.
    exists (quoted k), w2, w3, (t ++ w4), (json_tree v). split; [apply string_l; tauto|]. split; [exact W2|]. split; [exact W3|]. split; [apply IH; tauto|auto].
Qed.

(* ------------------------------------------------------------------------------------------- *)
(** * Texts *)

Lemma t_main : forall w us, T (RuleName main) w us <-> exists b x n, ws b /\ w = b ++ x /\ T (RuleName (s_ "value")) x [n] /\ us = [Rule main [n]].
Proof.
  intros w us. rewrite (t_rule G [nws] main _ w us g_main (not_ws main eq_refl)). split.
  - intros (vs & H & ->). apply t_and in H. destruct H as (b & w2 & t1 & t2 & A & H & -> & ->). apply t_ws in A. destruct A as [B ->].
    apply t_and in H. destruct H as (x & w3 & t3 & t4 & V & H & -> & ->). apply t_nil in H. destruct H as [-> ->]. rewrite !app_nil_r.
    destruct (value_tight _ _ V) as (n & -> & K). exists b, x, n. repeat split; auto. cbn [app]. rewrite (loop_tight []) by (exact K || reflexivity). reflexivity.
  - intros (b & x & n & B & -> & V & ->). exists [n]. split.
    + apply t_and. exists b, x, [], [n]. split; [apply t_ws; auto|]. split; [|auto]. apply t_and. exists x, [], [n], []. split; [exact V|]. split; [apply t_nil; auto|].
      rewrite app_nil_r. auto.
    + rewrite (loop_tight []); [reflexivity|exact (value_tight1 _ _ V)|reflexivity].
Qed.

Lemma main_fwd : forall s us, T (RuleName main) s us -> exists v, json_text v s /\ us = [Rule main [json_tree v]].
Proof.
  intros s us H. apply t_main in H. destruct H as (b & x & n & B & -> & V & ->). apply (value_fwd (length x)) in V; [|apply Nat.le_refl].
  destruct V as (n' & E & v & t & b2 & W & B2 & -> & ->). injection E as ->. exists v. split; [exists b, t, b2; auto|reflexivity].
Qed.

Lemma main_bwd : forall s v, json_text v s -> ascii s -> T (RuleName main) s [Rule main [json_tree v]].
Proof.
  intros s v (b & t & b2 & B & W & B2 & ->) A. rewrite !ascii_app in A. apply t_main. exists b, (t ++ b2), (json_tree v). repeat split; auto.
  apply value_bwd; tauto.
Qed.

Definition tidied (t : node) : node := compact (prune [nws] t).

Lemma derives_main : forall s ts, derives G (RuleName main) s ts -> exists v t, ts = [t] /\ json_text v s /\ tidied t = Rule main [json_tree v].
Proof.
  intros s ts D. destruct (main_fwd s (flat_map (tidy1 [nws]) ts)) as (v & J & E); [exists ts; auto|].
  inversion D as [| | | | | | | | | |? e ? us G0 D1]; subst. exists v, (Rule main us). split; [reflexivity|]. split; [exact J|].
  cbn [flat_map] in E. rewrite app_nil_r in E. change (tidy1 [nws] (Rule main us)) with [tidied (Rule main us)] in E. exact (f_equal (hd EOF) E).
Qed.

Lemma accepts_derives : forall s t, ascii s -> accepts json_grammar s t <-> derives G (RuleName main) s [t].
Proof.
  intros s t A. split.
  - intros (f & rs & R & P). assert (rs = jrules) by (eapply same_rules; [exact json_reads|exact R]). subst rs. exact (accepted_derives jrules f s false t json_sane P).
  - intro D. pose (b := depth_factor jrules * (length s + 1)).
    pose proof (proj2 (predictive_parse jrules s false b t json_sane json_wf json_predictive A (Nat.le_refl _)) D) as P. exists (Nat.max b 600), jrules.
    split; [apply (rules_from json_grammar 600 jrules json_reads); lia|]. apply (parse_from jrules b); [lia|exact P|discriminate].
Qed.

Lemma accepts_ascii : forall s t, accepts json_grammar s t -> ascii s.
Proof. intros s t H. apply (accepts_peg json_grammar 600 jrules json_reads json_sane) in H. apply H. Qed.

Lemma json_is_read : forall s, ascii s -> (exists t, accepts json_grammar s t) <-> exists v, json_text v s.
Proof.
  intros s A. split.
  - intros [t H]. apply (accepts_derives s t A) in H. apply derives_main in H. destruct H as (v & t' & _ & J & _). eauto.
  - intros [v J]. destruct (main_bwd s v J A) as (ts & D & _). destruct (derives_main s ts D) as (v' & t & -> & _). exists t. apply accepts_derives; assumption.
Qed.

Lemma tree_of_text : forall s t v, accepts json_grammar s t -> json_text v s -> tidied t = Rule main [json_tree v].
Proof.
  intros s t v H J. pose proof (accepts_ascii s t H) as A. apply (accepts_derives s t A) in H. destruct (main_bwd s v J A) as (ts & D & E).
  pose proof (predictive_unambiguous jrules s ts [t] json_sane json_wf json_predictive A D H). subst ts. cbn [flat_map] in E. rewrite app_nil_r in E.
  inversion D as [| | | | | | | | | |? e ? us G0 D1]; subst. change (tidy1 [nws] (Rule main us)) with [tidied (Rule main us)] in E. exact (f_equal (hd EOF) E).
Qed.

(* ------------------------------------------------------------------------------------------- *)
(** * The tree tells the value *)

Section JsonInd.
Variable P : json -> Prop.
Hypothesis HN : P JNull.
Hypothesis HT : P JTrue.
Hypothesis HF : P JFalse.
Hypothesis HNum : forall n, P (JNumber n).
Hypothesis HS : forall x, P (JString x).
Hypothesis HA : forall l, Forall P l -> P (JArray l).
Hypothesis HO : forall l, Forall (fun kv => P (snd kv)) l -> P (JObject l).

Fixpoint json_ind' (v : json) : P v :=
  match v with
  | JNull => HN
  | JTrue => HT
  | JFalse => HF
  | JNumber n => HNum n
  | JString x => HS x
  | JArray l => HA l ((fix go l := match l return Forall P l with [] => Forall_nil P | x :: r => Forall_cons x (json_ind' x) (go r) end) l)
  | JObject l => HO l ((fix go l := match l return Forall (fun kv => P (snd kv)) l with [] => Forall_nil _ | x :: r => Forall_cons x (json_ind' (snd x)) (go r) end) l)
  end.
End JsonInd.

Lemma quoted_inj : forall x y, quoted x = quoted y -> x = y.
Proof. intros x y E. unfold quoted in E. apply app_inv_head, app_inv_tail in E. exact E. Qed.

Lemma commas_inj : forall l l', commas l = commas l' -> l = l'.
Proof.
  intros [|x l] [|x' l'] E; try discriminate; [reflexivity|]. injection E as -> E. f_equal. revert l' E.
  induction l as [|y l IH]; intros [|y' l'] E; try discriminate; [reflexivity|]. injection E as -> E. f_equal. apply IH. exact E.
Qed.

Lemma map_inj : forall (A B : Type) (f : A -> B) l, Forall (fun x => forall y, f x = f y -> x = y) l -> forall l', map f l = map f l' -> l = l'.
Proof.
  intros A B f l F. induction F as [|x l H F IH]; intros [|y l'] E; try discriminate; [reflexivity|]. injection E as E1 E2. f_equal; auto.
Qed.

Lemma json_tree_inj : forall v v', json_tree v = json_tree v' -> v = v'.
Proof.
  induction v as [| | |n|x|l IH|l IH] using json_ind'; intros v' E.
  1-5: destruct v' as [| | |n'|x'|[|y' l']|[|y' l']]; try discriminate; try reflexivity.
  - injection E as ->. reflexivity.
  - assert (E2 : quoted x = quoted x') by (unfold json_tree, string_tree in E; congruence). f_equal. apply quoted_inj. exact E2.
  - destruct l as [|x l]; [destruct v' as [| | |n'|x'|[|y' l']|[|y' l']]; try discriminate; reflexivity|].
    rewrite tree_array in E by discriminate. destruct v' as [| | |n'|x'|l'|l']; try discriminate; [|destruct l'; discriminate].
    destruct l' as [|y l']; [discriminate|]. rewrite tree_array in E by discriminate. f_equal.
    assert (E2 : [Val (s_ "[")] ++ commas (map json_tree (x :: l)) ++ [Val (s_ "]")] = [Val (s_ "[")] ++ commas (map json_tree (y :: l')) ++ [Val (s_ "]")]) by congruence.
    apply app_inv_head, app_inv_tail, commas_inj in E2. apply (map_inj _ _ json_tree) in E2; [exact E2|exact IH].
  - destruct l as [|x l]; [destruct v' as [| | |n'|x'|[|y' l']|[|y' l']]; try discriminate; reflexivity|].
    rewrite tree_object in E by discriminate. destruct v' as [| | |n'|x'|l'|l']; try discriminate; [destruct l'; discriminate|].
    destruct l' as [|y l']; [discriminate|]. rewrite tree_object in E by discriminate. f_equal.
    assert (E2 : [Val (s_ "{")] ++ commas (map member_tree (x :: l)) ++ [Val (s_ "}")] = [Val (s_ "{")] ++ commas (map member_tree (y :: l')) ++ [Val (s_ "}")]) by congruence.
    apply app_inv_head, app_inv_tail, commas_inj in E2. apply (map_inj _ _ member_tree) in E2; [exact E2|].
    eapply Forall_impl; [|exact IH]. intros [k v] H [k' v'] E3. cbn [snd] in H. unfold member_tree, string_tree in E3. cbn [fst snd] in E3.
    assert (E4 : quoted k = quoted k') by congruence. assert (E5 : json_tree v = json_tree v') by congruence. apply quoted_inj in E4. apply H in E5. congruence.
Qed.

Lemma one_value : forall s v v', ascii s -> json_text v s -> json_text v' s -> v = v'.
Proof.
  intros s v v' A J J'. destruct (proj2 (json_is_read s A) (ex_intro _ v J)) as [t H].
  pose proof (tree_of_text s t v H J) as E. pose proof (tree_of_text s t v' H J') as E'. apply json_tree_inj. congruence.
Qed.

Lemma json_rejects : forall s, ascii s -> rejects json_grammar s <-> forall v, ~ json_text v s.
Proof.
  intros s A. rewrite (rejects_peg json_grammar 600 jrules json_reads s A json_wf). split.
  - intros H v J. destruct (proj2 (json_is_read s A) (ex_intro _ v J)) as [t X]. exact (H t X).
  - intros H t X. destruct (proj1 (json_is_read s A) (ex_intro _ t X)) as [v J]. exact (H v J).
Qed.

(* ------------------------------------------------------------------------------------------- *)
(** * Writing *)

Lemma show_writes : forall v, ok_json v -> writes v (show v).
Proof.
  assert (B : ws []) by constructor.
  induction v as [| | |n|x|l IH|l IH] using json_ind'; cbn [ok_json show]; intro OK; try (constructor; assumption).
  - destruct l as [|v l]; [exact (w_array0 [] B)|]. apply w_array. revert v IH OK.
    induction l as [|v2 l IHl]; intros v IH OK; inversion IH as [|? ? H1 H2]; subst; cbn [fold_right] in OK; destruct OK as [OK1 OK2].
    + cbn [map joined]. replace (show v) with ([] ++ show v ++ []) by apply app_nil_r. constructor; auto.
    + replace (joined (map show (v :: v2 :: l))) with (([] ++ show v ++ []) ++ s_ "," ++ joined (map show (v2 :: l))) by (rewrite app_nil_r; reflexivity).
      constructor; auto.
  - destruct l as [|[k v] l]; [exact (w_object0 [] B)|]. apply w_object. revert k v IH OK.
    induction l as [|[k2 v2] l IHl]; intros k v IH OK; inversion IH as [|? ? H1 H2]; subst; cbn [fold_right fst snd] in OK, H1; destruct OK as [[OK0 OK1] OK2].
    + cbn [map joined fst snd]. replace (quoted k ++ s_ ":" ++ show v) with ([] ++ quoted k ++ [] ++ s_ ":" ++ [] ++ show v ++ []) by (rewrite app_nil_r; reflexivity).
      constructor; auto.
    + match goal with |- members _ (joined (map ?f _)) =>
        replace (joined (map f ((k, v) :: (k2, v2) :: l))) with (([] ++ quoted k ++ [] ++ s_ ":" ++ [] ++ show v ++ []) ++ s_ "," ++ joined (map f ((k2, v2) :: l)))
          by (rewrite app_nil_r; reflexivity) end.
      constructor; auto.
Qed.

Lemma shown_is_read : forall v, ok_json v -> ascii (show v) -> exists t, accepts json_grammar (show v) t /\ tidied t = Rule main [json_tree v].
Proof.
  intros v OK A. assert (J : json_text v (show v)) by (exists [], (show v), []; rewrite app_nil_r; repeat split; try constructor; apply show_writes, OK).
  destruct (proj2 (json_is_read (show v) A) (ex_intro _ v J)) as [t H]. exists t. split; [exact H|]. exact (tree_of_text _ t v H J).
Qed.

(* ------------------------------------------------------------------------------------------- *)
(** * Costs and places of errors *)

Lemma json_productive : productive G.
Proof. apply (productive_check_ok [main; s_ "object"; s_ "array"; s_ "member"; s_ "value"; s_ "string"; s_ "number"; nws]); [exact json_sane|vm_compute; reflexivity]. Qed.

Lemma json_linear : exists c f rs, rules_from_peg f json_grammar = Ok rs /\ forall fuel s debug, parse_calls fuel s rs debug <= c * (length s + 1).
Proof.
  destruct (predictive_linear jrules json_sane json_wf json_predictive json_productive) as [c H]. exists c, 600, jrules. split; [exact json_reads|exact H].
Qed.

Lemma json_continued : forall f rs fuel s debug er, ascii s -> rules_from_peg f json_grammar = Ok rs -> parse_with_debug fuel s rs debug = Err er ->
  e_priority er = Normal /\ exists u v, json_text v (firstn (pn (e_pos er) - 1) s ++ u).
Proof.
  intros f rs fuel s debug er A R P. assert (rs = jrules) by (eapply same_rules; [exact json_reads|exact R]). subst rs.
  destruct (errors_follow_good_text jrules fuel s debug er json_sane json_productive ltac:(discriminate) A P) as (N & w & t & D & F). split; [exact N|].
  apply derives_main in D. destruct D as (v & t' & _ & J & _). rewrite <- F. exists (skipn (pn (e_pos er) - 1) w), v. rewrite firstn_skipn. exact J.
Qed.
