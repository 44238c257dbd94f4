(** Properties: character classes, and the small constructors of the API. *)
From Verif Require Import Base ModelAst ModelParser ModelGcode ModelClass SpecPeg SpecPos SpecRefactor SpecSwap SpecApi.
From Verif Require Import ProofParser ProofEngine ProofGcode ProofDebug ProofClass ProofSwap ProofTill.

(** * C59 character classes are sets of chars *)

(** However it is put together, a class is its chars and its ranges; the last setting of each wins. *)
Theorem C59_building_a_class : forall s b m,
  mr_chars (mr_init s b) = s /\ mr_ranges (mr_init s b) = b /\ mr_chars mr_new = [] /\ mr_ranges mr_new = [] /\
  mr_with_bound_chars (mr_with_chars m s) b = mr_init s b /\ mr_with_chars (mr_with_bound_chars m b) s = mr_init s b /\
  (forall s', mr_with_chars (mr_with_chars m s') s = mr_with_chars m s) /\
  (forall b', mr_with_bound_chars (mr_with_bound_chars m b') b = mr_with_bound_chars m b) /\
  mr_init (mr_chars m) (mr_ranges m) = m.
Proof. intros s b [x y]. repeat split. Qed.
Print Assumptions C59_building_a_class.

(** Both forms of [ematch!] build the class of the chars and ranges they list. *)
Theorem C59_both_macro_forms : forall chars pairs,
  ematch_from_to chars pairs = ematch chars pairs /\ ematch_from2 chars pairs = ematch chars pairs.
Proof. intros chars pairs. destruct (ematch_forms chars pairs) as [A B]. split; [rewrite A|]; exact B. Qed.
Print Assumptions C59_both_macro_forms.

(** A class accepts its members. *)
Theorem C59_a_class_accepts_its_members : forall cs rg s ast, ascii s ->
  ((exists fuel, parse fuel s [(main, ematch cs rg)] = Ok ast) <-> exists c, s = [c] /\ in_class cs rg c /\ ast = Rule main [Val [c]]).
Proof. exact class_parse. Qed.
Print Assumptions C59_a_class_accepts_its_members.

(** Two classes can replace each other exactly if they have the same members: order, repetition and overlap of chars and
    ranges are irrelevant.  (Only ASCII chars can be told apart by parsing.) *)
Theorem C59_same_members : forall cs rg cs' rg',
  (forall G, equiv G (ematch cs rg) (ematch cs' rg') <-> (forall c, in_class cs rg c <-> in_class cs' rg' c)) /\
  ((forall c, in_class cs rg c <-> in_class cs' rg' c) -> interchangeable (ematch cs rg) (ematch cs' rg')) /\
  (interchangeable (ematch cs rg) (ematch cs' rg') -> forall c, (c < 128)%N -> (in_class cs rg c <-> in_class cs' rg' c)).
Proof.
  intros cs rg cs' rg'. split; [intro G; apply classes_equiv|]. split; [|apply class_told_apart].
  intro H. apply law_interchangeable. intro G. apply classes_equiv. exact H.
Qed.
Print Assumptions C59_same_members.

(** A choice of two classes is their union. *)
Theorem C59_union : forall cs rg cs' rg',
  (forall G, equiv G (Or [ematch cs rg; ematch cs' rg']) (ematch (cs ++ cs') (rg ++ rg'))) /\
  interchangeable (Or [ematch cs rg; ematch cs' rg']) (ematch (cs ++ cs') (rg ++ rg')).
Proof. intros cs rg cs' rg'. assert (L := fun G => class_union G cs rg cs' rg'). split; [exact L|exact (law_interchangeable _ _ L)]. Qed.
Print Assumptions C59_union.

(** [!class .] is the complement, [!class other] the difference. *)
Theorem C59_complement : forall cs rg,
  (forall G s r, peg G (And [Not (ematch cs rg); dot_]) s r <->
     (exists c s1, s = c :: s1 /\ ~ in_class cs rg c /\ r = PMatch [Val [c]] s1) \/
     ((forall c s1, s = c :: s1 -> in_class cs rg c) /\ r = PFail)) /\
  (forall s ast, ascii s -> (exists fuel, parse fuel s [(main, And [Not (ematch cs rg); dot_])] = Ok ast) <->
     exists c, s = [c] /\ ~ in_class cs rg c /\ ast = Rule main [Val [c]]).
Proof. intros cs rg. split; [intros G s r; exact (class_complement G cs rg s r)|exact (complement_parse cs rg)]. Qed.
Print Assumptions C59_complement.

Theorem C59_difference : forall cs rg cs' rg' ds qs,
  (forall c, in_class ds qs c <-> in_class cs' rg' c /\ ~ in_class cs rg c) ->
  (forall G, equiv G (And [Not (ematch cs rg); ematch cs' rg']) (ematch ds qs)) /\
  interchangeable (And [Not (ematch cs rg); ematch cs' rg']) (ematch ds qs).
Proof.
  intros cs rg cs' rg' ds qs H. assert (L := fun G => class_difference G cs rg cs' rg' ds qs H).
  split; [exact L|exact (law_interchangeable _ _ L)].
Qed.
Print Assumptions C59_difference.

(** A literal of one char is the class of that char, and so is the range from it to itself. *)
Theorem C59_single_chars : forall c,
  (forall G, equiv G (lit [c]) (ematch [c] []) /\ equiv G (ematch [c] []) (ematch [] [(c, c)])) /\
  interchangeable (lit [c]) (ematch [c] []) /\ interchangeable (ematch [c] []) (ematch [] [(c, c)]).
Proof.
  intro c. assert (L := fun G => class_single G c). split; [exact L|].
  split; apply law_interchangeable; intro G; apply L.
Qed.
Print Assumptions C59_single_chars.

(** A range is cut in two anywhere; a range with its ends exchanged is empty and can be left out; the class without
    chars and ranges never matches. *)
Theorem C59_ranges : forall cs rg lo mid hi,
  ((lo <= mid < hi)%N -> (forall G, equiv G (ematch cs ((lo, hi) :: rg)) (ematch cs ((lo, mid) :: (N.succ mid, hi) :: rg))) /\
     interchangeable (ematch cs ((lo, hi) :: rg)) (ematch cs ((lo, mid) :: (N.succ mid, hi) :: rg))) /\
  ((hi < lo)%N -> (forall G, equiv G (ematch cs ((lo, hi) :: rg)) (ematch cs rg)) /\
     interchangeable (ematch cs ((lo, hi) :: rg)) (ematch cs rg)) /\
  (forall G s r, peg G (ematch [] []) s r <-> r = PFail) /\
  (forall fuel s ast, ascii s -> parse fuel s [(main, ematch [] [])] <> Ok ast).
Proof.
  intros cs rg lo mid hi. assert (L := fun G => class_ranges G cs rg lo mid hi). split; [|split; [|split]].
  - intro B. split; [intro G; apply L; exact B|apply law_interchangeable; intro G; apply L; exact B].
  - intro B. split; [intro G; apply L; exact B|apply law_interchangeable; intro G; apply L; exact B].
  - intro G. apply L.
  - intros fuel s ast A H. destruct (proj1 (class_parse [] [] s ast A) (ex_intro _ _ H)) as (c & _ & I & _).
    apply in_chars in I. exact I.
Qed.
Print Assumptions C59_ranges.

(** The fields of a repetition are those it was built with; its bounds are displayed as digits that determine them. *)
Theorem C59_building_a_repetition : forall e mn mx,
  expr_repeat (rep_info_new e mn mx) = Repeat e mn mx /\ ri_expression (rep_info_new e mn mx) = e /\
  ri_min (rep_info_new e mn mx) = mn /\ ri_max (rep_info_new e mn mx) = mx /\ multi_expr_new [e] = [e] /\
  Forall digit (display_nrep mn) /\ forall m, display_nrep m = display_nrep mn -> m = mn.
Proof. intros e mn mx. split; [destruct mx; reflexivity|]. split; [reflexivity|]. split; [reflexivity|]. split; [destruct mx; reflexivity|].
  split; [reflexivity|]. split; [apply dec_digits|]. intros m E. exact (dec_inj m mn E). Qed.
Print Assumptions C59_building_a_repetition.

(** [[a-z_]] without its vowels: the difference of two classes, in a parse. *)
Example C59_nonvacuous :
  in_class (s_ "_") [(97, 122)%N] 122%N /\ ~ in_class (s_ "_") [(97, 122)%N] 48%N /\
  let rs := rules_macro [(main, Repeat (And [Not (ematch (s_ "aeiou") []); ematch (s_ "_") [(97, 122)%N]]) 1 None)] in
  parse 20 (s_ "x_y") rs = Ok (Rule main [Val (s_ "x"); Val (s_ "_"); Val (s_ "y")]) /\ exists er, parse 20 (s_ "xay") rs = Err er.
Proof.
  rewrite <- !match_char_iff. split; [reflexivity|]. split; [discriminate|]. split; [vm_compute; reflexivity|].
  eexists. vm_compute. reflexivity.
Qed.
