(** [rules_from_peg]: the parser, the PEG grammar and the token consumer put together. *)
From Verif Require Import Base ModelAst ModelParser ModelPegRules ModelPeg SpecPeg SpecPos SpecApi SpecSyntax Examples.
From Verif Require Import ProofParser ProofEngine ProofSim ProofApi SpecWf ProofWf WfCheck ProofConsume ProofPegInv ProofPegBuild ProofPegMono SpecPegApi ProofPegDefect ProofPegPath PegLeaf ProofPegPrint ProofPegMeaning ProofAst.

Lemma parse_peg_sane : sane_rules parse_peg.
Proof. apply sane_rules_all. repeat constructor. Qed.

Lemma parse_peg_wf : well_formed (rules_get parse_peg).
Proof. apply wf_check_sound; vm_compute; reflexivity. Qed.

Lemma parse_peg_stops : forall s, exists f, parse f s parse_peg <> Fuel.
Proof. intro s. eexists. apply parse_bound; [exact parse_peg_wf|]. apply Nat.le_refl. Qed.

(** One text, one answer: the tree of the text is either well formed or has a defect. *)
Lemma peg_read : forall f s ast, parse f s parse_peg = Ok ast ->
  ascii s /\ exists x o, ast = Rule (s_ "main") [x] /\ t_grammar x o /\ forall l, o = Some l -> grammar_text s l.
Proof.
  intros f s ast H. pose proof (parse_sound f s parse_peg false parse_peg_sane) as S. unfold parse in H. rewrite H in S.
  destruct S as [As S]. split; [exact As|].
  destruct (main_inv s [ast] [] S) as (x & o & E & T & G). injection E as ->.
  exists x, o. split; [reflexivity|]. split; [exact T|]. intros l L. destruct (G l L) as (t & G1 & G2).
  rewrite app_nil_r in G2. subst t. exact G1.
Qed.

Lemma le_answers : forall s f f' r r', rules_from_peg f s = r -> rules_from_peg f' s = r' -> r <> Fuel -> r' <> Fuel -> r = r'.
Proof.
  intros s f f' r r' H H' N N'. destruct (Nat.le_ge_cases f f') as [L|L].
  - destruct (rules_from_peg_mono f f' s L) as [E|E]; congruence.
  - destruct (rules_from_peg_mono f' f s L) as [E|E]; congruence.
Qed.

(** Every answer: [Ok] of the rules of the text, or [Err]; panics only for non-ASCII text. *)
Lemma rules_from_peg_total : forall s, exists f0 r, r <> Fuel /\ (forall f, f0 <= f -> rules_from_peg f s = r) /\
  match r with
  | Ok rs => ascii s /\ exists l, grammar_text s l /\ rs = built l
  | Err e => ~ (ascii s /\ exists l, grammar_text s l)
  | Panic => ~ ascii s
  | Fuel => False
  end.
Proof.
  intro s. destruct (parse_peg_stops s) as [f1 F1].
  destruct (parse f1 s parse_peg) as [ast|er| |] eqn:P; [| | |contradiction].
  - destruct (peg_read _ _ _ P) as (As & x & o & -> & T & G).
    set (f0 := f1 + tn (Rule (s_ "main") [x])).
    assert (PF : forall f, f0 <= f -> rules_from_peg f s =
              rules_from_flat_ast f (flatten (prune peg_blanks (compact (Rule (s_ "main") [x]))))).
    { intros f L. unfold rules_from_peg.
      rewrite (parse_mono f1 f s parse_peg ltac:(unfold f0 in L; lia)) by (rewrite P; discriminate).
      rewrite P. reflexivity. }
    destruct o as [l|].
    + exists f0, (Ok (built l)). split; [discriminate|]. split.
      * intros f L. rewrite PF by exact L. apply (eats_main x (Some l) f T). unfold f0 in L. lia.
      * split; [exact As|]. exists l. split; [apply G; reflexivity|reflexivity].
    + destruct (eats_main x None f0 T ltac:(unfold f0; lia)) as [e E]. exists f0, (Err (err_ipush e (s_ "consuming main"))). split; [discriminate|]. split.
      * intros f L. rewrite PF by exact L. destruct (flat_ast_mono f0 f
          (flatten (prune peg_blanks (compact (Rule (s_ "main") [x])))) L) as [X|X]; rewrite E in X; [discriminate|].
        symmetry. exact X.
      * intros [_ [l GT]]. destruct (main_build s l GT) as (y & D & TY).
        pose proof (parse_sound f1 s parse_peg false parse_peg_sane) as S. unfold parse in P. rewrite P in S.
        destruct S as [_ S]. pose proof (peg_det _ _ _ _ D _ S) as Q. injection Q as ->.
        destruct (eats_main x None (tn (Rule (s_ "main") [x])) T ltac:(lia)) as [e1 E1].
        pose proof (eats_main x (Some l) _ TY (Nat.le_refl _)) as E2. cbn beta iota in E2. congruence.
  - exists f1, (Err (EParser er)). split; [discriminate|]. split.
    + intros f L. unfold rules_from_peg. rewrite (parse_mono f1 f s parse_peg L) by (rewrite P; discriminate).
      rewrite P. reflexivity.
    + intros [As [l GT]]. destruct (main_build s l GT) as (y & D & TY).
      pose proof (parse_sound f1 s parse_peg false parse_peg_sane) as S. unfold parse in P. rewrite P in S.
      destruct S as [_ S]. destruct (e_priority er).
      * destruct S as [S|(ts & rest & S & R)].
        -- pose proof (peg_det _ _ _ _ D _ S) as Q. discriminate.
        -- pose proof (peg_det _ _ _ _ D _ S) as Q. injection Q as <- <-. destruct R as [R|R]; [apply R; reflexivity|contradiction].
      * destruct S as (rest & S & _). pose proof (peg_det _ _ _ _ D _ S) as Q. discriminate.
  - exists f1, Panic. split; [discriminate|]. split.
    + intros f L. unfold rules_from_peg. rewrite (parse_mono f1 f s parse_peg L) by (rewrite P; discriminate).
      rewrite P. reflexivity.
    + intro As. apply (parse_no_panic f1 s parse_peg false As P).
Qed.

(** Exactly the grammar texts are read, with exactly their rules. *)
Lemma rules_from_peg_ok : forall s f rs, rules_from_peg f s = Ok rs ->
  ascii s /\ exists l, grammar_text s l /\ rs = built l.
Proof.
  intros s f rs H. destruct (rules_from_peg_total s) as (f0 & r & N & F & C).
  assert (E : Ok rs = r) by (eapply (le_answers s f f0); [exact H|apply F; lia|discriminate|exact N]).
  subst r. exact C.
Qed.

Lemma rules_from_peg_reads : forall s l, ascii s -> grammar_text s l ->
  exists f0, forall f, f0 <= f -> rules_from_peg f s = Ok (built l).
Proof.
  intros s l As GT. destruct (rules_from_peg_total s) as (f0 & r & N & F & C).
  destruct r as [rs|e| |]; [|exfalso; apply C; eauto|contradiction|contradiction].
  exists f0. intros f L. rewrite (F f L). f_equal.
  destruct (main_build s l GT) as (y & D & TY).
  specialize (F f L). unfold rules_from_peg in F.
  destruct (parse f s parse_peg) as [ast| | |] eqn:P; try discriminate. cbn [map_err bind] in F.
  pose proof (parse_sound f s parse_peg false parse_peg_sane) as S. unfold parse in P. rewrite P in S.
  destruct S as [_ S]. pose proof (peg_det _ _ _ _ D _ S) as Q. injection Q as <-.
  set (n := flatten (prune peg_blanks (compact (Rule (s_ "main") [y])))) in F.
  pose proof (eats_main y (Some l) (f + tn (Rule (s_ "main") [y])) TY ltac:(lia)) as E2. cbn beta iota in E2.
  fold n in E2.
  destruct (flat_ast_mono f (f + tn (Rule (s_ "main") [y])) n ltac:(lia)) as [X|X]; congruence.
Qed.

(** The two kinds of errors. *)
Lemma rules_from_peg_err : forall f s e, rules_from_peg f s = Err e ->
  (exists er, e = EParser er /\ parse f s parse_peg = Err er) \/
  (exists ast e', parse f s parse_peg = Ok ast /\ defect ast /\ e = err_ipush e' (s_ "consuming main") /\
     rules_from_flat_ast f (flatten (prune peg_blanks (compact ast))) = Err e).
Proof.
  intros f s e H. unfold rules_from_peg in H. destruct (parse f s parse_peg) as [ast|er| |] eqn:P; cbn [map_err bind] in H; try discriminate.
  - right. destruct (peg_read f s ast P) as (As & x & o & -> & T & _).
    set (n := flatten (prune peg_blanks (compact (Rule (s_ "main") [x])))) in H.
    pose proof (eats_main x o (f + tn (Rule (s_ "main") [x])) T ltac:(lia)) as E. fold n in E.
    pose proof (flat_ast_mono f (f + tn (Rule (s_ "main") [x])) n ltac:(lia)) as [X|X]; [congruence|].
    destruct o as [l|]; [congruence|]. destruct E as [e' E]. rewrite <- X, H in E. injection E as ->.
    exists (Rule (s_ "main") [x]), e'. split; [reflexivity|]. split; [apply (main_fits x None T); reflexivity|]. split; [reflexivity|exact H].
  - left. injection H as <-. exists er. split; reflexivity.
Qed.

(** Accepted texts: the answer depends on the tree only through its defects. *)
Lemma rules_from_peg_accepted : forall f0 s ast, parse f0 s parse_peg = Ok ast ->
  if_defect ast (exists e, answers s (Err e)) (exists rs, answers s (Ok rs)).
Proof.
  intros f0 s ast P. destruct (peg_read f0 s ast P) as (As & x & o & -> & T & G).
  destruct (rules_from_peg_total s) as (f1 & r & N & F & C). unfold if_defect. split; intro D.
  - apply (main_fits x o T) in D. subst o. destruct (eats_main x None (f1 + f0 + tn (Rule (s_ "main") [x])) T ltac:(lia)) as [e E].
    exists (err_ipush e (s_ "consuming main")). split; [discriminate|]. exists f1. intros f L. rewrite (F f L).
    rewrite <- (F (f1 + f0 + tn (Rule (s_ "main") [x])) ltac:(lia)). unfold rules_from_peg.
    rewrite (parse_mono f0 _ s parse_peg) by (try lia; rewrite P; discriminate). rewrite P. exact E.
  - destruct o as [l|]; [|exfalso; apply D; apply (main_fits x None T); reflexivity].
    destruct (rules_from_peg_reads s l As (G l eq_refl)) as [f2 F2]. exists (built l). split; [discriminate|]. exists f2. exact F2.
Qed.

(* ------------------------------------------------------------------------------------------- *)
(** * Forms used by the theorems *)

Lemma answers_intro : forall f s r, rules_from_peg f s = r -> r <> Fuel -> answers s r.
Proof.
  intros f s r H N. split; [exact N|]. exists f. intros f' L.
  destruct (rules_from_peg_mono f f' s L) as [X|X]; congruence.
Qed.

Lemma answers_total : forall s, exists r, answers s r.
Proof. intro s. destruct (rules_from_peg_total s) as (f0 & r & N & F & _). exists r. split; [exact N|]. exists f0. exact F. Qed.

Lemma answers_fun : forall s r r', answers s r -> answers s r' -> r = r'.
Proof.
  intros s r r' [N [f F]] [N' [f' F']]. rewrite <- (F (f + f') ltac:(lia)). rewrite <- (F' (f + f') ltac:(lia)). reflexivity.
Qed.

Lemma reads : forall s l, ascii s -> grammar_text s l -> answers s (Ok (built l)).
Proof. intros s l As G. split; [discriminate|]. exact (rules_from_peg_reads s l As G). Qed.

Lemma built_env : forall l, NoDup (map fst (built l)) /\ forall k, rules_get (built l) k = bindings l k.
Proof. exact built_get. Qed.

Lemma reads_bindings : forall s l, ascii s -> grammar_text s l -> reads_as s (bindings l).
Proof.
  intros s l As G. exists (built l). split; [exact (reads s l As G)|]. apply built_env.
Qed.

Lemma answers_ok : forall s rs, answers s (Ok rs) -> ascii s /\ exists l, grammar_text s l /\ rs = built l.
Proof. intros s rs [_ [f F]]. exact (rules_from_peg_ok s f rs (F f (Nat.le_refl f))). Qed.

Lemma one_meaning : forall s l l', grammar_text s l -> grammar_text s l' -> built l = built l'.
Proof.
  intros s l l' G G'. destruct (main_build s l G) as (x & D & T). destruct (main_build s l' G') as (x' & D' & T').
  pose proof (peg_det _ _ _ _ D _ D') as E. injection E as <-.
  pose proof (eats_main x (Some l) _ T (Nat.le_refl _)) as E1. pose proof (eats_main x (Some l') _ T' (Nat.le_refl _)) as E2.
  cbn beta iota in E1, E2. congruence.
Qed.

(** Errors written in an expression. *)
Fixpoint error_msgs (e : expr) : list str :=
  match e with
  | Simple (AError m) => [m]
  | Simple _ | RuleName _ => []
  | And es | Or es => flat_map error_msgs es
  | Not e1 | Repeat e1 _ _ => error_msgs e1
  end.

Lemma has_error_msgs : forall m e, has_atom (AError m) e -> In m (error_msgs e).
Proof.
  intros m e H. induction H as [|e es I H IH|e es I H IH|e H IH|e mn mx H IH]; cbn; auto.
  - apply in_flat_map. exists e. auto.
  - apply in_flat_map. exists e. auto.
Qed.

Lemma parse_peg_msgs : forall n x m, rules_get parse_peg n = Some x -> has_atom (AError m) x -> m = unbalanced_msg.
Proof.
  intros n x m E H. apply has_error_msgs in H. apply rules_get_in in E.
  assert (I : In m (flat_map (fun p => error_msgs (snd p)) parse_peg)) by (apply in_flat_map; exists (n, x); auto).
  assert (C : flat_map (fun p => error_msgs (snd p)) parse_peg = [unbalanced_msg]) by (vm_compute; reflexivity).
  rewrite C in I. destruct I as [I|[]]. symmetry. exact I.
Qed.

Lemma parse_peg_closed : forall n x m, rules_get parse_peg n = Some x -> has_ref m x -> rules_get parse_peg m <> None.
Proof.
  intros n x m E H. apply has_ref_refs in H. apply rules_get_in in E.
  assert (C : forallb (fun p => forallb (fun k => match rules_get parse_peg k with Some _ => true | None => false end) (refs (snd p))) parse_peg = true)
    by (vm_compute; reflexivity).
  rewrite forallb_forall in C. specialize (C _ E). cbn [snd] in C. rewrite forallb_forall in C. specialize (C _ H).
  destruct (rules_get parse_peg m); [discriminate|discriminate C].
Qed.

Lemma critical_msg : forall f s er, parse f s parse_peg = Err er -> e_priority er = Critical -> e_descr er = unbalanced_msg.
Proof.
  intros f s er P C. destruct (parse_critical_origin f s parse_peg false er P C) as [(n & x & E & H)|(n & _ & N & [->|(k & x & E & H)])].
  - exact (parse_peg_msgs n x _ E H).
  - vm_compute in N. discriminate.
  - exfalso. exact (parse_peg_closed k x n E H N).
Qed.

(** Layout around a grammar. *)
Lemma defs_trail : forall b, blank b -> (forall t d, def_text t d -> def_text (t ++ b) d) /\ (forall t l, defs_text t l -> defs_text (t ++ b) l).
Proof.
  intros b B. apply def_text_ind2.
  - intros n b1 b2 t e r b3 N B1 B2 T R B3. rewrite <- !app_assoc. apply df_rule; try assumption. apply blank_app; assumption.
  - intros m b1 b2 t l r b3 N B1 B2 T _ R B3. rewrite <- !app_assoc. apply df_module; try assumption. apply blank_app; assumption.
  - intros t d _ D. constructor. exact D.
  - intros t d r l D _ _ L. rewrite <- app_assoc. constructor; assumption.
Qed.

Lemma grammar_around : forall s l b b', grammar_text s l -> blank b -> blank b' -> grammar_text (b ++ s ++ b') l.
Proof.
  intros s l b b' (b0 & r & B0 & D & ->) B B'. exists (b ++ b0), (r ++ b').
  split; [apply blank_app; assumption|]. split; [apply (proj2 (defs_trail b' B')); exact D|]. rewrite <- !app_assoc. reflexivity.
Qed.

Lemma grammar_wrap : forall m s l, symbol m -> grammar_text s l -> grammar_text (m ++ s_ " {" ++ s ++ s_ "}" ++ nl) [Mod m l].
Proof.
  intros m s l M (b & r & B & D & ->). exists [], (m ++ s_ " {" ++ (b ++ r) ++ s_ "}" ++ nl).
  split; [constructor|]. split; [|reflexivity]. constructor.
  change (m ++ s_ " {" ++ (b ++ r) ++ s_ "}" ++ nl) with (m ++ s_ " " ++ s_ "{" ++ (b ++ r) ++ s_ "}" ++ nl).
  rewrite <- (app_assoc b r). rewrite <- (app_nil_r nl). apply df_module; try assumption; repeat constructor.
Qed.

(** A grammar of one rule with a literal. *)
Lemma one_literal : forall t v, ascii t -> literal t v -> reads_as (s_ "main = " ++ t ++ nl) (only main (Simple (Literal v))).
Proof.
  intros t v As L.
  assert (NE : ~ starts_with_error t).
  { destruct L as [body _ _|t v _]; apply not_error_head; discriminate. }
  assert (G : grammar_text (s_ "main = " ++ t ++ nl) [Def main (Simple (Literal v))]).
  { exists [], (s_ "main = " ++ t ++ nl). split; [constructor|]. split; [|reflexivity]. constructor.
    change (s_ "main = " ++ t ++ nl) with (main ++ s_ " " ++ s_ "=" ++ s_ " " ++ t ++ nl). rewrite <- (app_nil_r nl).
    apply df_rule; try (repeat constructor; fail).
    - left. constructor. exists 109%N, (s_ "ain"). split; [reflexivity|].
      split; [unfold sym_start, between; lia|]. change (s_ "ain") with [97; 105; 110]%N.
      repeat (apply Forall_cons; [unfold sym_char, sym_start, between; lia|]). constructor.
    - apply (et t [Simple (Literal v)]). apply (ct_one t [Simple (Literal v)]). apply st_one; [|exact NE]. repeat constructor. exact L. }
  assert (AS : ascii (s_ "main = " ++ t ++ nl)).
  { apply ascii_app. split; [repeat constructor|]. apply ascii_app. split; [exact As|repeat constructor]. }
  destruct (reads_bindings _ _ AS G) as (rs & A & U & E).
  exists rs. split; [exact A|]. split; [exact U|]. intro k. rewrite E. reflexivity.
Qed.
