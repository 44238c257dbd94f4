(** Grammar texts as files: C49, C50. *)
From Verif Require Import Base ModelAst ModelParser ModelPegRules ModelPeg SpecPos SpecApi SpecAst SpecSyntax SpecPegApi SpecText.
From Verif Require Import ProofParser ProofAst ProofConsume ProofPegPrint ProofPegMeaning ProofPegApi ProofText PropertiesPeg.
From Coq Require Import Permutation.

(* ---- C49 --------------------------------------------------------------------------------- *)

(** Two grammar files one after the other: a plain definition of the second file wins, otherwise the first file does. *)
Theorem C49_concatenation : forall a b la lb ra rb, grammar_text a la -> grammar_text b lb -> answers a (Ok ra) -> answers b (Ok rb) ->
  exists rs, answers (a ++ b) (Ok rs) /\ forall k,
    ((exists e, In (Def k e) lb) -> rules_get rs k = rules_get (rules_merge rb ra) k) /\
    ((forall e, ~ In (Def k e) lb) -> rules_get rs k = rules_get (rules_merge ra rb) k).
Proof.
  intros a b la lb ra rb Ga Gb Ra Rb. destruct (answers_ok a ra Ra) as (Aa & la' & Ga' & ->). destruct (answers_ok b rb Rb) as (Ab & lb' & Gb' & ->).
  rewrite (one_meaning a la' la Ga' Ga), (one_meaning b lb' lb Gb' Gb). exists (built (la ++ lb)).
  split; [apply reads; [apply ascii_app; auto|apply grammar_app; assumption]|]. intro k.
  destruct (built_env (la ++ lb)) as [_ E]. destruct (built_env la) as [Ua Ea]. destruct (built_env lb) as [Ub Eb].
  destruct (merge_laws (built lb) (built la) Ub Ua) as [M1 _]. destruct (merge_laws (built la) (built lb) Ua Ub) as [M2 _].
  destruct (bindings_app la lb k) as [B1 B2]. rewrite M1, M2, E, Ea, Eb. split; intro H; [|exact (B2 H)]. rewrite (B1 H).
  destruct (bindings lb k) eqn:X; [reflexivity|]. exfalso. destruct (last_def k lb H) as (l1 & e & l2 & -> & F).
  unfold bindings in X. rewrite fold_plain_last in X by exact F. discriminate.
Qed.
Print Assumptions C49_concatenation.

(** Files that define different names: the same as merging the two rule sets, either way. *)
Theorem C49_disjoint_files : forall a b ra rb, answers a (Ok ra) -> answers b (Ok rb) ->
  (forall k, rules_get ra k = None \/ rules_get rb k = None) ->
  exists rs rs', answers (a ++ b) (Ok rs) /\ answers (b ++ a) (Ok rs') /\ forall k,
    rules_get rs k = rules_get (rules_merge ra rb) k /\ rules_get rs' k = rules_get (rules_merge ra rb) k.
Proof.
  intros a b ra rb Ra Rb D. destruct (answers_ok a ra Ra) as (Aa & la & Ga & ->). destruct (answers_ok b rb Rb) as (Ab & lb & Gb & ->).
  exists (built (la ++ lb)), (built (lb ++ la)).
  split; [apply reads; [apply ascii_app; auto|apply grammar_app; assumption]|].
  split; [apply reads; [apply ascii_app; auto|apply grammar_app; assumption]|]. intro k.
  destruct (built_env la) as [Ua Ea]. destruct (built_env lb) as [Ub Eb].
  destruct (merge_laws (built la) (built lb) Ua Ub) as [M _].
  rewrite M, !(proj2 (built_env _)). specialize (D k). rewrite !(proj2 (built_env _)) in D.
  assert (X : forall l1 l2, bindings l1 k = None \/ bindings l2 k = None ->
    bindings (l1 ++ l2) k = match bindings l1 k with Some e => Some e | None => bindings l2 k end).
  { intros l1 l2 H. destruct (bindings_app l1 l2 k) as [B1 B2]. destruct (def_in_dec k l2) as [Y|Y]; [|exact (B2 Y)]. rewrite (B1 Y).
    destruct H as [H|H]; [rewrite H; reflexivity|]. exfalso. destruct (last_def k l2 Y) as (m1 & e & m2 & -> & F).
    unfold bindings in H. rewrite fold_plain_last in H by exact F. discriminate. }
  split; [apply X; exact D|]. rewrite X by tauto. destruct (bindings la k), (bindings lb k); try reflexivity. destruct D; discriminate.
Qed.
Print Assumptions C49_disjoint_files.

(** The order of definitions only matters between definitions of the same name. *)
Theorem C49_order_of_definitions : forall s s' l l', ascii s -> ascii s' -> grammar_text s l -> grammar_text s' l' -> Permutation l l' ->
  (forall k l1 d1 l2 d2 l3, l = l1 ++ d1 :: l2 ++ d2 :: l3 -> ~ (defined k [d1] /\ defined k [d2])) ->
  exists rs rs', answers s (Ok rs) /\ answers s' (Ok rs') /\ forall k, rules_get rs k = rules_get rs' k.
Proof.
  intros s s' l l' A A' G G' P D. exists (built l), (built l'). split; [apply reads; assumption|]. split; [apply reads; assumption|].
  intro k. rewrite !(proj2 (built_env _)). unfold bindings. apply order; [exact P|]. intros l1 d1 l2 d2 l3 E.
  specialize (D k l1 d1 l2 d2 l3 E). destruct (bindings [d1] k) as [e1|] eqn:E1; [|auto]. destruct (bindings [d2] k) as [e2|] eqn:E2; [|auto].
  exfalso. assert (N1 : ~ ~ defined k [d1]) by (intro X; apply (defined_iff _ _ k (Nat.le_refl _)) in X; congruence).
  apply N1. intro X1. assert (N2 : ~ ~ defined k [d2]) by (intro X; apply (defined_iff _ _ k (Nat.le_refl _)) in X; congruence).
  apply N2. intro X2. exact (D (conj X1 X2)).
Qed.
Print Assumptions C49_order_of_definitions.

(** Between definitions of the same name it does. *)
Theorem C49_order_refuted : exists s s' rs rs', answers s (Ok rs) /\ answers s' (Ok rs') /\
  s = s_ "a = 'x'" ++ nl ++ s_ "a = 'y'" ++ nl /\ s' = s_ "a = 'y'" ++ nl ++ s_ "a = 'x'" ++ nl /\ rules_get rs (s_ "a") <> rules_get rs' (s_ "a").
Proof.
  do 4 eexists. split; [|split; [|split; [reflexivity|split; [reflexivity|]]]].
  - apply (answers_intro 300); [vm_compute; reflexivity|discriminate].
  - apply (answers_intro 300); [vm_compute; reflexivity|discriminate].
  - vm_compute. discriminate.
Qed.
Print Assumptions C49_order_refuted.

Example C49_nonvacuous : exists ra rb rs, answers (s_ "main = x" ++ nl) (Ok ra) /\ answers (s_ "x = 'y'" ++ nl) (Ok rb) /\
  answers ((s_ "main = x" ++ nl) ++ s_ "x = 'y'" ++ nl) (Ok rs) /\ (forall k, rules_get ra k = None \/ rules_get rb k = None) /\
  rules_get rs (s_ "x") = Some (lit (s_ "y")).
Proof.
  do 3 eexists. split; [apply (answers_intro 300); [vm_compute; reflexivity|discriminate]|].
  split; [apply (answers_intro 300); [vm_compute; reflexivity|discriminate]|].
  split; [apply (answers_intro 300); [vm_compute; reflexivity|discriminate]|]. split; [|vm_compute; reflexivity].
  intro k. cbn [rules_get]. destruct (str_eqb _ k) eqn:Q; [|left; reflexivity]. apply str_eqb_eq in Q. subst k. right. vm_compute. reflexivity.
Qed.

(* ---- C50 --------------------------------------------------------------------------------- *)

(** Every accepted text can be rewritten in the printed form, without any change of the rules. *)
Theorem C50_every_text_has_a_normal_form : forall s rs, answers s (Ok rs) ->
  exists l, grammar_text s l /\ grammar_text (print_grammar l) l /\ answers (print_grammar l) (Ok rs).
Proof.
  intros s rs A. destruct (answers_ok s rs A) as (As & l & G & ->). destruct (grammar_expressible s l As G) as [NE X].
  destruct (print_grammar_text l NE X) as [P AP]. exists l. split; [exact G|]. split; [exact P|]. apply reads; assumption.
Qed.
Print Assumptions C50_every_text_has_a_normal_form.

(** The printable grammars are exactly those of the ASCII texts. *)
Theorem C50_printable_is_exact : forall l, (exists s, ascii s /\ grammar_text s l) <-> l <> [] /\ Forall expressible_def l.
Proof.
  intro l. split; [intros (s & A & G); exact (grammar_expressible s l A G)|]. intros [N X]. exists (print_grammar l).
  destruct (print_grammar_text l N X). auto.
Qed.
Print Assumptions C50_printable_is_exact.

(** Saving a rule set, in whatever order its hash map is listed, and loading it again. *)
Theorem C50_save_and_load : forall m entries, unique_names m -> Permutation entries m -> savable m -> reads_as (saved entries) (rules_get m).
Proof. intros m entries U P [N F]. apply save_load; assumption. Qed.
Print Assumptions C50_save_and_load.

(** In particular what was loaded can be saved. *)
Theorem C50_loaded_rules_can_be_saved : forall s rs entries, answers s (Ok rs) -> Permutation entries rs -> reads_as (saved entries) (rules_get rs).
Proof. intros s rs entries A P. destruct (read_printable s rs A) as (N & U & F). apply save_load; assumption. Qed.
Print Assumptions C50_loaded_rules_can_be_saved.

(** Savable rule sets are exactly those that some text denotes. *)
Theorem C50_savable_is_exact : forall m, unique_names m -> ((exists s, reads_as s (rules_get m)) <-> savable m).
Proof. exact savable_exact. Qed.
Print Assumptions C50_savable_is_exact.

Example C50_nonvacuous : exists rs, answers demo_text (Ok rs) /\ rs <> [] /\
  saved rs = s_ "main = num ((""+"" / ""	"") num)* !." ++ nl ++ s_ "num = [0-9]+" ++ nl.
Proof. eexists. split; [apply (answers_intro 1000); [vm_compute; reflexivity|discriminate]|]. split; [discriminate|vm_compute; reflexivity]. Qed.
