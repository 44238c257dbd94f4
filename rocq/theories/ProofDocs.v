(** The documented grammars accept what they are documented to accept. *)
From Verif Require Import Base ModelAst ModelParser ModelPegRules ModelPeg SpecPeg SpecPos SpecApi SpecWf SpecLang SpecDocs.
From Verif Require Import ProofParser ProofEngine ProofApi ProofWf WfCheck PegTools ProofLang ProofIdioms ProofPegMono Examples.

(* ------------------------------------------------------------------------------------------- *)
(** * From the grammar text to the PEG semantics of its rules *)

Lemma ascii_char_dec : forall c, {ascii_char c} + {~ ascii_char c}.
Proof. intro c. unfold ascii_char. destruct (c <? 128)%N eqn:E; [left; apply N.ltb_lt; exact E|right; apply N.ltb_ge in E; lia]. Qed.

Section Bridge.
Variables (g : str) (f0 : nat) (rs0 : rules).
Hypothesis R0 : rules_from_peg f0 g = Ok rs0.
Hypothesis S0 : sane_rules rs0.

Lemma same_rules : forall f rs, rules_from_peg f g = Ok rs -> rs = rs0.
Proof.
  intros f rs H. destruct (rules_from_peg_mono f (Nat.max f f0) g ltac:(lia)) as [M|M]; [congruence|].
  destruct (rules_from_peg_mono f0 (Nat.max f f0) g ltac:(lia)) as [M'|M']; congruence.
Qed.

Lemma rules_from : forall f, f0 <= f -> rules_from_peg f g = Ok rs0.
Proof. intros f L. destruct (rules_from_peg_mono f0 f g L) as [M|M]; congruence. Qed.

Lemma parse_from : forall f f' s o, f <= f' -> parse f s rs0 = o -> o <> Fuel -> parse f' s rs0 = o.
Proof. intros f f' s o L H N. rewrite <- H in N |- *. apply parse_mono; [exact L|exact N]. Qed.

Lemma accepts_peg : forall s t, accepts g s t <-> ascii s /\ peg_main rs0 s (PMatch [t] []).
Proof.
  intros s t. split.
  - intros (f & rs & H & P). apply same_rules in H. subst rs.
    assert (A : ascii s). { destruct (Forall_dec ascii_char ascii_char_dec s) as [A|A]; [exact A|]. exfalso. exact (parse_non_ascii f s rs0 false t A P). }
    split; [exact A|]. apply (parse_accepts_iff s rs0 false S0 A). exists f. exact P.
  - intros [A D]. apply (parse_accepts_iff s rs0 false S0 A) in D. destruct D as [f P]. exists (Nat.max f f0), rs0.
    split; [apply rules_from; lia|]. eapply parse_from; [|exact P|discriminate]. lia.
Qed.

Lemma complains_peg : forall s msg n, ascii s -> (complains g s msg n <-> exists rest, peg_main rs0 s (PAbort msg rest) /\ n + length rest = length s).
Proof.
  intros s msg n A. rewrite <- (parse_abort_iff s rs0 msg n S0 A). split.
  - intros (f & rs & er & H & P & Q). apply same_rules in H. subst rs. eauto.
  - intros (f & er & P & Q). exists (Nat.max f f0), rs0, er. split; [apply rules_from; lia|]. split; [eapply parse_from; [|exact P|discriminate]; lia|exact Q].
Qed.

Lemma rejects_peg : forall s, ascii s -> well_formed (grammar_of rs0) -> (rejects g s <-> forall t, ~ accepts g s t).
Proof.
  intros s A W. pose (b := depth_factor rs0 * (length s + 1)). assert (NF : parse b s rs0 <> Fuel) by (apply parse_bound; [exact W|apply Nat.le_refl]).
  split.
  - intros (f & rs & er & H & P) t (f' & rs' & H' & P'). apply same_rules in H, H'. subst.
    pose proof (parse_from f (Nat.max f f') s _ ltac:(lia) P ltac:(discriminate)). pose proof (parse_from f' (Nat.max f f') s _ ltac:(lia) P' ltac:(discriminate)). congruence.
  - intro N. destruct (parse b s rs0) as [t|er| |] eqn:P; [| | |contradiction].
    + exfalso. apply (N t). exists (Nat.max b f0), rs0. split; [apply rules_from; lia|]. eapply parse_from; [|exact P|discriminate]. lia.
    + exists (Nat.max b f0), rs0, er. split; [apply rules_from; lia|]. eapply parse_from; [|exact P|discriminate]. lia.
    + exfalso. exact (parse_no_panic b s rs0 false A P).
Qed.
End Bridge.

(* ------------------------------------------------------------------------------------------- *)
(** * Basic example *)

Definition basic_rules : rules :=
  [(s_ "number", Simple (Match [] [(48%N, 57%N)])); (s_ "letter_or_num", Or [RuleName (s_ "letter"); RuleName (s_ "number")]);
   (s_ "letter", Simple (Match [] [(97%N, 122%N); (65%N, 90%N)])); (main, And [RuleName (s_ "letter"); Repeat (RuleName (s_ "letter_or_num")) 1 None])].

Lemma basic_reads : rules_from_peg 300 basic_text = Ok basic_rules.
Proof. vm_compute. reflexivity. Qed.
Lemma basic_sane : sane_rules basic_rules.
Proof. apply sane_rules_all. repeat constructor. Qed.

Section Basic.
Let G := grammar_of basic_rules.

Lemma letter_class : forall c, in_class [] [(97%N, 122%N); (65%N, 90%N)] c <-> is_letter c = true.
Proof.
  intro c. unfold in_class, is_letter. rewrite orb_true_iff, !andb_true_iff, !N.leb_le. split.
  - intros [[]|(lo & hi & [E|[E|[]]] & H)]; injection E as <- <-; [left; exact H|right; exact H].
  - intros [H|H]; right; [exists 97%N, 122%N|exists 65%N, 90%N]; (split; [cbn; tauto|exact H]).
Qed.
Lemma digit_class : forall c, in_class [] [(48%N, 57%N)] c <-> is_digit c = true.
Proof.
  intro c. unfold in_class, is_digit. rewrite andb_true_iff, !N.leb_le. split.
  - intros [[]|(lo & hi & [E|[]] & H)]; injection E as <- <-. exact H.
  - intros H; right; exists 48%N, 57%N; (split; [cbn; tauto|exact H]).
Qed.

Lemma letter_ok : forall c s, is_letter c = true -> peg G (RuleName (s_ "letter")) (c :: s) (PMatch [Rule (s_ "letter") [Val [c]]] s).
Proof. intros c s H. eapply mk_rule; [reflexivity|]. apply peg_class_ok. apply letter_class. exact H. Qed.
Lemma letter_fail : forall s, (forall c r, s = c :: r -> is_letter c = false) -> peg G (RuleName (s_ "letter")) s PFail.
Proof.
  intros s H. eapply mk_rule_fail; [reflexivity|]. apply peg_class_fail. intros c r E C. apply letter_class in C. rewrite (H c r E) in C. discriminate.
Qed.
Lemma letter_inv : forall s ts rest, peg G (RuleName (s_ "letter")) s (PMatch ts rest) ->
  exists c, s = c :: rest /\ is_letter c = true /\ ts = [Rule (s_ "letter") [Val [c]]].
Proof.
  intros s ts rest H. apply inv_rule in H. destruct H as (e & k & E & -> & H). injection E as <-.
  apply inv_class in H. destruct H as (c & C & -> & ->). exists c. split; [reflexivity|]. split; [apply letter_class; exact C|reflexivity].
Qed.

Definition basic_ok (c : char) : Prop := is_letter c = true \/ is_digit c = true.

Lemma lon_ok : forall c s, basic_ok c -> peg G (RuleName (s_ "letter_or_num")) (c :: s) (PMatch [basic_char c] s).
Proof.
  intros c s H. unfold basic_char. eapply mk_rule; [reflexivity|]. destruct (is_letter c) eqn:L.
  - apply mk_or1. apply letter_ok. exact L.
  - destruct H as [H|H]; [congruence|]. apply peg_or_next; [apply letter_fail; intros d r E; injection E as <- <-; exact L|].
    apply mk_or1. eapply mk_rule; [reflexivity|]. apply peg_class_ok. apply digit_class. exact H.
Qed.
Lemma lon_inv : forall s ts rest, peg G (RuleName (s_ "letter_or_num")) s (PMatch ts rest) ->
  exists c, s = c :: rest /\ basic_ok c /\ ts = [basic_char c].
Proof.
  intros s ts rest H. assert (X : exists c, s = c :: rest /\ basic_ok c).
  { apply inv_rule in H. destruct H as (e & k & E & -> & H). injection E as <-. apply inv_or in H. destruct H as (l1 & x & l2 & E & H & _).
    destruct l1 as [|y [|z l1]]; [| |destruct l1; discriminate E]; injection E; intros; subst.
    - apply letter_inv in H. destruct H as (c & -> & L & _). exists c. split; [reflexivity|left; exact L].
    - apply inv_rule in H. destruct H as (e & k2 & E2 & -> & H). injection E2 as <-. apply inv_class in H. destruct H as (c & C & -> & ->).
      exists c. split; [reflexivity|right; apply digit_class; exact C]. }
  destruct X as (c & -> & C). exists c. split; [reflexivity|]. split; [exact C|]. pose proof (peg_det _ _ _ _ H _ (lon_ok c rest C)) as E. injection E as ->. reflexivity.
Qed.
Lemma lon_end : peg G (RuleName (s_ "letter_or_num")) [] PFail.
Proof. apply (looks_fail G 5 _ None); [exact I|reflexivity]. Qed.

Lemma lon_star : forall w, Forall basic_ok w -> forall rest, star G (RuleName (s_ "letter_or_num")) (w ++ rest) (map (fun c => [basic_char c]) w) rest.
Proof. intros w F rest. induction F as [|c w C F IH]; cbn; [constructor|]. econstructor; [apply lon_ok; exact C|exact IH]. Qed.
Lemma lon_star_inv : forall s l rest, star G (RuleName (s_ "letter_or_num")) s l rest -> exists w, s = w ++ rest /\ Forall basic_ok w /\ l = map (fun c => [basic_char c]) w.
Proof.
  intros s l rest H. induction H as [s|s t s1 ts rest D H IH]; [exists []; repeat constructor|].
  apply lon_inv in D. destruct D as (c & -> & C & ->). destruct IH as (w & -> & F & ->). exists (c :: w). repeat split. constructor; assumption.
Qed.
Lemma concat_singles : forall A B (h : A -> B) (w : list A), concat (map (fun c => [h c]) w) = map h w.
Proof. intros A B h w. induction w as [|c w IH]; cbn; [reflexivity|rewrite IH; reflexivity]. Qed.

Lemma basic_peg : forall s t, peg_main basic_rules s (PMatch [t] []) <->
  exists c w, s = c :: w /\ is_letter c = true /\ w <> [] /\ Forall basic_ok w /\ t = basic_tree c w.
Proof.
  intros s t. split.
  - intro H. apply peg_main_shape in H. destruct H as (e & kids & E & T & H). injection E as <-. injection T as ->.
    apply inv_and_cons in H. destruct H as (t1 & s1 & t2 & -> & H1 & H2). apply letter_inv in H1. destruct H1 as (c & -> & L & ->).
    apply inv_and_cons in H2. destruct H2 as (t3 & s2 & t4 & -> & H2 & H3). apply inv_and_nil in H3. destruct H3 as [-> <-].
    apply inv_rep1 in H2. destruct H2 as (u & l & s3 & D & K & -> & _). apply lon_inv in D. destruct D as (d & -> & C & ->).
    apply lon_star_inv in K. destruct K as (w & -> & F & ->). rewrite app_nil_r in *. exists c, (d :: w).
    split; [reflexivity|]. split; [exact L|]. split; [discriminate|]. split; [constructor; assumption|].
    rewrite concat_singles, app_nil_r. reflexivity.
  - intros (c & w & -> & L & N & F & ->). unfold basic_tree, peg_main. eapply mk_rule; [reflexivity|].
    change (Rule (s_ "letter") [Val [c]] :: map basic_char w) with ([Rule (s_ "letter") [Val [c]]] ++ map basic_char w).
    eapply mk_and; [apply letter_ok; exact L|]. rewrite <- (app_nil_r (map basic_char w)). eapply mk_and; [|constructor].
    destruct w as [|d w]; [congruence|]. inversion F as [|? ? C F']; subst. cbn [map]. change (basic_char d :: ?x) with ([basic_char d] ++ x).
    rewrite <- concat_singles. eapply mk_plus; [apply lon_ok; exact C| |apply lon_end]. rewrite <- (app_nil_r w) at 1. apply lon_star. exact F'.
Qed.
End Basic.

Lemma letter_ascii : forall c, is_letter c = true -> ascii_char c.
Proof. intros c H. unfold is_letter in H. apply orb_prop in H. unfold ascii_char. destruct H as [H|H]; apply andb_prop in H; destruct H as [_ H]; apply N.leb_le in H; lia. Qed.
Lemma digit_ascii : forall c, is_digit c = true -> ascii_char c.
Proof. intros c H. unfold is_digit in H. unfold ascii_char. apply andb_prop in H; destruct H as [_ H]; apply N.leb_le in H; lia. Qed.

Lemma basic_accepts : forall s t, accepts basic_text s t <->
  exists c w, s = c :: w /\ is_letter c = true /\ w <> [] /\ Forall (fun d => is_letter d = true \/ is_digit d = true) w /\ t = basic_tree c w.
Proof.
  intros s t. rewrite (accepts_peg _ _ _ basic_reads basic_sane), basic_peg. split; [intros [_ H]; exact H|]. intro H. split; [|exact H].
  destruct H as (c & w & -> & L & _ & F & _). constructor; [apply letter_ascii; exact L|]. eapply Forall_impl; [|exact F].
  intros d [D|D]; [apply letter_ascii; exact D|apply digit_ascii; exact D].
Qed.

(* ------------------------------------------------------------------------------------------- *)
(** * Example 2 *)

Definition example2_read : rules :=
  [(s_ "d_or_z", Or [lit (s_ "d"); lit (s_ "z")]); (s_ "b_and_c", And [lit (s_ "b"); lit (s_ "c")]);
   (main, And [lit (s_ "a"); Or [And [lit (s_ "bc"); lit (s_ "c")]; lit (s_ "bcdd"); And [RuleName (s_ "b_and_c"); RuleName (s_ "d_or_z")]]])].

Lemma example2_reads : rules_from_peg 300 example2_text = Ok example2_read.
Proof. vm_compute. reflexivity. Qed.
Lemma example2_sane : sane_rules example2_read.
Proof. apply sane_rules_all. repeat constructor. Qed.

Lemma inv_one : forall G e s ts rest, peg G (And [e]) s (PMatch ts rest) -> peg G e s (PMatch ts rest).
Proof.
  intros G e s ts rest H. apply inv_and_cons in H. destruct H as (t1 & s1 & t2 & -> & H1 & H2). apply inv_and_nil in H2. destruct H2 as [-> ->].
  rewrite app_nil_r. exact H1.
Qed.

Lemma example2_words : forall s t, peg_main example2_read s (PMatch [t] []) -> In s [s_ "abcc"; s_ "abcdd"; s_ "abcd"; s_ "abcz"].
Proof.
  intros s t H. apply peg_main_shape in H. destruct H as (e & kids & E & T & H). injection E as <-.
  apply inv_and_cons in H. destruct H as (t1 & s1 & t2 & -> & H1 & H2). apply inv_lit in H1. destruct H1 as [-> ->]. apply inv_one in H2.
  apply inv_or in H2. destruct H2 as (l1 & x & l2 & E & H & _).
  destruct l1 as [|y [|z [|z2 l1]]]; [| | |destruct l1; discriminate E]; injection E; intros; subst.
  - apply inv_and_cons in H. destruct H as (t1 & s2 & t3 & -> & H1 & H2). apply inv_lit in H1. destruct H1 as [-> ->].
    apply inv_one, inv_lit in H2. destruct H2 as [-> ->]. left. reflexivity.
  - apply inv_lit in H. destruct H as [-> ->]. right. left. reflexivity.
  - apply inv_and_cons in H. destruct H as (t1 & s2 & t3 & -> & H1 & H2).
    apply inv_rule in H1. destruct H1 as (e & k & E1 & -> & H1). injection E1 as <-.
    apply inv_and_cons in H1. destruct H1 as (t4 & s3 & t5 & -> & H1 & H3). apply inv_lit in H1. destruct H1 as [-> ->]. apply inv_one, inv_lit in H3. destruct H3 as [-> ->].
    apply inv_one, inv_rule in H2. destruct H2 as (e & k & E2 & -> & H2). injection E2 as <-. apply inv_or in H2. destruct H2 as (l3 & x & l4 & E3 & H & _).
    destruct l3 as [|y3 [|z3 l3]]; [| |destruct l3; discriminate E3]; injection E3; intros; subst; apply inv_lit in H; destruct H as [-> ->].
    + right. right. left. reflexivity.
    + right. right. right. left. reflexivity.
Qed.

Lemma example2_accepts : forall s t, accepts example2_text s t <->
  (s = s_ "abcc" /\ t = Rule main [Val (s_ "a"); Val (s_ "bc"); Val (s_ "c")]) \/
  (s = s_ "abcdd" /\ t = Rule main [Val (s_ "a"); Val (s_ "bcdd")]) \/
  (s = s_ "abcd" /\ t = Rule main [Val (s_ "a"); Rule (s_ "b_and_c") [Val (s_ "b"); Val (s_ "c")]; Rule (s_ "d_or_z") [Val (s_ "d")]]) \/
  (s = s_ "abcz" /\ t = Rule main [Val (s_ "a"); Rule (s_ "b_and_c") [Val (s_ "b"); Val (s_ "c")]; Rule (s_ "d_or_z") [Val (s_ "z")]]).
Proof.
  intros s t. split.
  - intros H. assert (W := H). apply (accepts_peg _ _ _ example2_reads example2_sane) in W. destruct W as [_ W]. apply example2_words in W.
    destruct H as (f & rs & H & P). apply (same_rules _ _ _ example2_reads) in H. subst rs.
    assert (K : forall o, parse 40 s example2_read = Ok o -> t = o).
    { intros o Q. pose proof (parse_from example2_read f (Nat.max f 40) s _ ltac:(lia) P ltac:(discriminate)).
      pose proof (parse_from example2_read 40 (Nat.max f 40) s _ ltac:(lia) Q ltac:(discriminate)). congruence. }
    destruct W as [<-|[<-|[<-|[<-|[]]]]]; [left|right; left|right; right; left|right; right; right]; (split; [reflexivity|apply K; vm_compute; reflexivity]).
  - intros [[-> ->]|[[-> ->]|[[-> ->]|[-> ->]]]]; exists 300, example2_read; (split; [exact example2_reads|vm_compute; reflexivity]).
Qed.

(* ------------------------------------------------------------------------------------------- *)
(** * Unbalanced parenthesis *)

Definition closing : expr := Or [lit (s_ ")"); Simple (AError unbalanced_msg)].
Definition unbalanced_read : rules := [(main, Or [And [lit (s_ "("); RuleName main; closing]; lit (s_ "hello")])].

Lemma unbalanced_reads : rules_from_peg 300 unbalanced_text = Ok unbalanced_read.
Proof. vm_compute. reflexivity. Qed.
Lemma unbalanced_sane : sane_rules unbalanced_read.
Proof. apply sane_rules_all. repeat constructor. Qed.
Lemma unbalanced_wf : well_formed (grammar_of unbalanced_read).
Proof. apply wf_check_sound; vm_compute; reflexivity. Qed.

Section Unbalanced.
Let G := grammar_of unbalanced_read.
Let opens (n : nat) := times n (s_ "(").
Let closes (n : nat) := times n (s_ ")").

Definition no_close (r : str) : Prop := forall r', r <> s_ ")" ++ r'.

Lemma hello_ok : forall n r, peg G (RuleName main) (opens n ++ s_ "hello" ++ closes n ++ r) (PMatch [hello_tree n] r).
Proof.
  induction n as [|n IH]; intro r.
  - cbn [hello_tree]. eapply mk_rule; [reflexivity|]. apply peg_or_next; [|apply mk_or1; apply mk_lit; reflexivity].
    apply mk_and_fail1. apply peg_lit_fail. intros x E. discriminate E.
  - cbn [hello_tree]. eapply mk_rule; [reflexivity|]. apply mk_or1.
    assert (E : opens (S n) ++ s_ "hello" ++ closes (S n) ++ r = s_ "(" ++ (opens n ++ s_ "hello" ++ closes n ++ (s_ ")" ++ r))).
    { unfold opens, closes. rewrite (times_snoc n (s_ ")")). cbn [times]. rewrite <- !app_assoc. reflexivity. }
    rewrite E. change [Val (s_ "("); hello_tree n; Val (s_ ")")] with ([Val (s_ "(")] ++ [hello_tree n] ++ [Val (s_ ")")] ++ []).
    eapply mk_and; [apply mk_lit; reflexivity|]. eapply mk_and; [apply IH|]. eapply mk_and; [|constructor]. apply mk_or1. apply mk_lit. reflexivity.
Qed.

Lemma hello_abort : forall n m r, m < n -> no_close r -> peg G (RuleName main) (opens n ++ s_ "hello" ++ closes m ++ r) (PAbort unbalanced_msg r).
Proof.
  induction n as [|n IH]; intros m r L N; [lia|]. change (PAbort unbalanced_msg r) with (wrap main (PAbort unbalanced_msg r)).
  eapply peg_rule; [reflexivity|]. apply peg_or_first; [|discriminate].
  change (opens (S n) ++ ?x) with (s_ "(" ++ (opens n ++ x)). change (PAbort unbalanced_msg r) with (prepend [Val (s_ "(")] (PAbort unbalanced_msg r)).
  eapply peg_and_cons; [apply mk_lit; reflexivity|]. destruct (Nat.eq_dec m n) as [->|NE].
  - change (PAbort unbalanced_msg r) with (prepend [hello_tree n] (PAbort unbalanced_msg r)). eapply peg_and_cons; [apply hello_ok|].
    apply peg_and_stop; [|exact I]. apply peg_or_next; [apply peg_lit_fail; exact N|]. apply peg_or_first; [constructor|discriminate].
  - apply peg_and_stop; [|exact I]. apply IH; [lia|exact N].
Qed.

Lemma other_fail : forall n x, (forall r, x <> s_ "(" ++ r) -> (forall r, x <> s_ "hello" ++ r) -> peg G (RuleName main) (opens n ++ x) PFail.
Proof.
  intros n x N1 N2. induction n as [|n IH]; (eapply mk_rule_fail; [reflexivity|]).
  - apply peg_or_next; [apply mk_and_fail1; apply peg_lit_fail; exact N1|]. apply peg_or_next; [apply peg_lit_fail; exact N2|constructor].
  - apply peg_or_next.
    + change (opens (S n) ++ x) with (s_ "(" ++ (opens n ++ x)). eapply mk_and_fail; [apply mk_lit; reflexivity|]. apply mk_and_fail1. exact IH.
    + apply peg_or_next; [apply peg_lit_fail; intros r E; discriminate E|constructor].
Qed.

Lemma split_run : forall (c : char) s, exists n x, s = times n [c] ++ x /\ forall r, x <> [c] ++ r.
Proof.
  intros c s. induction s as [|d s (n & x & -> & N)]; [exists 0, []; split; [reflexivity|discriminate]|].
  destruct (N.eq_dec c d) as [<-|D]; [exists (S n), x; split; [reflexivity|exact N]|].
  exists 0, (d :: times n [c] ++ x). split; [reflexivity|]. intros r E. injection E as E _. congruence.
Qed.

Lemma times_sub : forall n k (w : str), times (n + k) w = times n w ++ times k w.
Proof. induction n as [|n IH]; intros k w; cbn; [reflexivity|]. rewrite IH, app_assoc. reflexivity. Qed.

(** Every text is of one of these shapes. *)
Lemma unbalanced_cases : forall s,
  (exists n r, s = opens n ++ s_ "hello" ++ closes n ++ r) \/
  (exists n m r, m < n /\ no_close r /\ s = opens n ++ s_ "hello" ++ closes m ++ r) \/
  peg G (RuleName main) s PFail.
Proof.
  intro s. destruct (split_run 40%N s) as (n & x & -> & N). destruct (starts_dec (s_ "hello") x) as [[y ->]|H].
  - destruct (split_run 41%N y) as (m & r & -> & K). destruct (le_lt_dec n m) as [L|L].
    + left. exists n, (closes (m - n) ++ r). unfold opens, closes. change (s_ ")") with [41%N]. rewrite (app_assoc (times n [41%N])), <- times_sub.
      replace (n + (m - n)) with m by lia. reflexivity.
    + right. left. exists n, m, r. split; [exact L|]. split; [exact K|reflexivity].
  - right. right. apply other_fail; assumption.
Qed.

Lemma unbalanced_match : forall s t, peg_main unbalanced_read s (PMatch [t] []) <-> exists n, s = opens n ++ s_ "hello" ++ closes n /\ t = hello_tree n.
Proof.
  intros s t. split.
  - intro H. destruct (unbalanced_cases s) as [(n & r & ->)|[(n & m & r & L & N & ->)|F]].
    + pose proof (peg_det _ _ _ _ H _ (hello_ok n r)) as E. injection E as -> <-. exists n. rewrite app_nil_r. auto.
    + pose proof (peg_det _ _ _ _ H _ (hello_abort n m r L N)) as E. discriminate.
    + pose proof (peg_det _ _ _ _ H _ F) as E. discriminate.
  - intros (n & -> & ->). rewrite <- (app_nil_r (closes n)). apply hello_ok.
Qed.

Lemma unbalanced_abort : forall s msg rest, peg_main unbalanced_read s (PAbort msg rest) <->
  msg = unbalanced_msg /\ exists n m, m < n /\ no_close rest /\ s = opens n ++ s_ "hello" ++ closes m ++ rest.
Proof.
  intros s msg rest. split.
  - intro H. destruct (unbalanced_cases s) as [(n & r & ->)|[(n & m & r & L & N & ->)|F]].
    + pose proof (peg_det _ _ _ _ H _ (hello_ok n r)) as E. discriminate.
    + pose proof (peg_det _ _ _ _ H _ (hello_abort n m r L N)) as E. injection E as -> ->. eauto 7.
    + pose proof (peg_det _ _ _ _ H _ F) as E. discriminate.
  - intros (-> & n & m & L & N & ->). apply hello_abort; assumption.
Qed.

Lemma times_length : forall n (w : str), length (times n w) = n * length w.
Proof. induction n as [|n IH]; intro w; cbn; [reflexivity|]. rewrite app_length, IH. reflexivity. Qed.
End Unbalanced.

Lemma times_ascii : forall n w, ascii w -> ascii (times n w).
Proof. intros n w A. induction n as [|n IH]; cbn; [constructor|]. apply Forall_app. split; assumption. Qed.

Lemma unbalanced_accepts : forall s t, accepts unbalanced_text s t <-> exists n, s = times n (s_ "(") ++ s_ "hello" ++ times n (s_ ")") /\ t = hello_tree n.
Proof.
  intros s t. rewrite (accepts_peg _ _ _ unbalanced_reads unbalanced_sane), unbalanced_match. split; [intros [_ H]; exact H|]. intro H. split; [|exact H].
  destruct H as (n & -> & _). unfold ascii. rewrite !Forall_app. repeat split; try (apply times_ascii); repeat constructor.
Qed.

Lemma unbalanced_complains : forall s msg k, ascii s -> (complains unbalanced_text s msg k <->
  msg = unbalanced_msg /\ exists n m r, s = times n (s_ "(") ++ s_ "hello" ++ times m (s_ ")") ++ r /\ m < n /\ (forall r', r <> s_ ")" ++ r') /\ k = n + 5 + m).
Proof.
  intros s msg k A. rewrite (complains_peg _ _ _ unbalanced_reads unbalanced_sane s msg k A).
  assert (LEN : forall n m r, length (times n (s_ "(") ++ s_ "hello" ++ times m (s_ ")") ++ r) = n + 5 + m + length r).
  { intros n m r. rewrite !app_length, !times_length. change (length (s_ "(")) with 1. change (length (s_ ")")) with 1. change (length (s_ "hello")) with 5. lia. }
  split.
  - intros (rest & H & L). apply unbalanced_abort in H. destruct H as (-> & n & m & LT & N & ->). split; [reflexivity|]. exists n, m, rest.
    rewrite LEN in L. repeat split; [exact LT|exact N|lia].
  - intros (-> & n & m & r & -> & LT & N & ->). exists r. split; [apply unbalanced_abort; split; [reflexivity|]; exists n, m; auto|]. rewrite LEN. lia.
Qed.

(* ------------------------------------------------------------------------------------------- *)
(** * Comments *)

Definition comment_read (stop : str) : rules :=
  [(s_ "comment", Or [And [lit (s_ "//"); Repeat (not_then_dot stop) 0 None]; And (lit (s_ "/*") :: [Repeat (not_then_dot (s_ "*/")) 0 None; lit (s_ "*/")])]);
   (main, RuleName (s_ "comment"))].

Lemma comment_reads_plain : rules_from_peg 300 (comment_text (s_ "'\n'")) = Ok (comment_read (s_ "\\n")).
Proof. vm_compute. reflexivity. Qed.
Lemma comment_reads_escaped : rules_from_peg 300 (comment_text (s_ """\n""")) = Ok (comment_read nl).
Proof. vm_compute. reflexivity. Qed.
Lemma comment_sane : forall stop, sane_rules (comment_read stop).
Proof. intro stop. apply sane_rules_all. repeat constructor. Qed.

Section Comment.
Variable stop : str.
Hypothesis NE : stop <> [].
Let G := grammar_of (comment_read stop).

Lemma star_chars : forall s ts rest, peg G (Repeat (not_then_dot stop) 0 None) s (PMatch ts rest) ->
  exists w, s = w ++ rest /\ ts = char_trees w /\ (rest = [] -> forall a b, s <> a ++ stop ++ b).
Proof.
  intros s ts rest H. destruct (scan G stop s) as [(w & r & [E M] & D)|[M D]]; pose proof (peg_det _ _ _ _ H _ D) as X; injection X as -> ->.
  - exists w. split; [exact E|]. split; [reflexivity|]. intro C. apply app_eq_nil in C. destruct C as [C _]. contradiction.
  - exists s. split; [symmetry; apply app_nil_r|]. split; [reflexivity|]. intros _. exact M.
Qed.

Lemma line_ok : forall w, (forall a b, w <> a ++ stop ++ b) -> peg G (Repeat (not_then_dot stop) 0 None) w (PMatch (char_trees w) []).
Proof. intros w N. destruct (scan G stop w) as [(x & r & [E M] & D)|[M D]]; [exfalso; exact (N _ _ E)|exact D]. Qed.

Lemma comment_peg : forall s t, peg_main (comment_read stop) s (PMatch [t] []) <-> is_comment stop s t.
Proof.
  intros s t. unfold peg_main. change (grammar_of (comment_read stop)) with G.
  assert (GC : G (s_ "comment") = Some (Or [And [lit (s_ "//"); Repeat (not_then_dot stop) 0 None]; And [lit (s_ "/*"); Repeat (not_then_dot (s_ "*/")) 0 None; lit (s_ "*/")]])) by reflexivity.
  assert (GM : G main = Some (RuleName (s_ "comment"))) by reflexivity. split.
  - intro H. apply inv_rule in H. destruct H as (e & k & GE & E & H). injection E as ->. rewrite GM in GE. injection GE as <-.
    apply inv_rule in H. destruct H as (e & k' & GE & -> & H). rewrite GC in GE. injection GE as <-.
    apply inv_or in H. destruct H as ([|x [|y l1]] & e & l2 & E & H & _); cbn [app] in E.
    + injection E as <- _. left. apply inv_and_cons in H. destruct H as (t1 & s1 & t2 & -> & D1 & D2). apply inv_lit in D1. destruct D1 as [-> ->].
      apply inv_one in D2. apply star_chars in D2. destruct D2 as (w & E & -> & N). rewrite app_nil_r in E. subst s1. exists w. split; [reflexivity|]. split; [exact (N eq_refl)|reflexivity].
    + injection E as _ <- _. right. apply inv_and_cons in H. destruct H as (t1 & s1 & t2 & -> & D1 & D2). apply inv_lit in D1. destruct D1 as [-> ->].
      apply (till_spec G (s_ "*/")) in D2. destruct D2 as [(w & r & F & E)|[_ E]]; [|discriminate E]. injection E as -> <-.
      exists w. destruct F as [F1 F2]. rewrite app_nil_r in F1. subst s1. split; [reflexivity|]. split; [split; [rewrite app_nil_r; reflexivity|exact F2]|reflexivity].
    + injection E as _ _ E. destruct l1; discriminate E.
  - intros [(w & -> & N & ->)|(w & -> & F & ->)]; (eapply mk_rule; [exact GM|]; eapply mk_rule; [exact GC|]).
    + apply mk_or1. change (Val (s_ "//") :: char_trees w) with ([Val (s_ "//")] ++ char_trees w). eapply mk_and; [apply mk_lit; reflexivity|].
      rewrite <- (app_nil_r (char_trees w)). eapply mk_and; [apply line_ok; exact N|constructor].
    + apply peg_or_next; [apply mk_and_fail1, peg_lit_fail; intros r E; discriminate E|]. apply mk_or1.
      change (Val (s_ "/*") :: ?x) with ([Val (s_ "/*")] ++ x). eapply mk_and; [apply mk_lit; reflexivity|].
      apply (till_spec G (s_ "*/")). left. exists w, []. split; [exact F|reflexivity].
Qed.
End Comment.

Lemma comment_accepts_plain : forall s t, accepts (comment_text (s_ "'\n'")) s t <-> ascii s /\ is_comment (s_ "\\n") s t.
Proof. intros s t. rewrite (accepts_peg _ _ _ comment_reads_plain (comment_sane _)), comment_peg; [reflexivity|discriminate]. Qed.
Lemma comment_accepts_escaped : forall s t, accepts (comment_text (s_ """\n""")) s t <-> ascii s /\ is_comment nl s t.
Proof. intros s t. rewrite (accepts_peg _ _ _ comment_reads_escaped (comment_sane _)), comment_peg; [reflexivity|discriminate]. Qed.
