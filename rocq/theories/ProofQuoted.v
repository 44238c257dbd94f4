(** Quoted strings are read exactly. *)
From Verif Require Import Base ModelAst ModelParser SpecPeg SpecPos SpecApi SpecTable SpecQuoted.
From Verif Require Import PegTools ProofParser ProofEngine ProofApi ProofTable.

Section Quoted.
Variables Q E : char.
Variable ch : expr.
Variable ok : qchar -> Prop.
Let rs := quoted_rules Q ch.
Let G := grammar_of rs.
Hypothesis SC : sane ch.
Hypothesis CH_ok : forall x rest, ok x -> peg G (RuleName nm_char) (written E x ++ rest) (PMatch [qtree E x] rest).
Hypothesis CH_stop : peg G (RuleName nm_char) [Q] PFail.
Hypothesis CH_end : peg G (RuleName nm_char) [] PFail.
Hypothesis CH_any : forall s, (exists x rest, ok x /\ s = written E x ++ rest) \/ peg G (RuleName nm_char) s PFail \/ exists ts, peg G (RuleName nm_char) s (PMatch ts []).

Let body := Repeat (RuleName nm_char) 0 None.

Lemma body_reads : forall l rest, Forall ok l -> peg G (RuleName nm_char) rest PFail -> peg G body (flat_map (written E) l ++ rest) (PMatch (map (qtree E) l) rest).
Proof.
  intros l rest F D. induction F as [|x l O F IH]; [apply peg_rep_done; [discriminate|exact D]|]. cbn [flat_map map]. rewrite <- app_assoc.
  exact (peg_rep_more G (RuleName nm_char) 0 None _ [qtree E x] _ (PMatch (map (qtree E) l) rest) ltac:(discriminate) (CH_ok x _ O) IH).
Qed.

Lemma body_answers : forall n s, length s <= n ->
  (exists l rest, Forall ok l /\ s = flat_map (written E) l ++ rest /\ peg G body s (PMatch (map (qtree E) l) rest)) \/ exists ts, peg G body s (PMatch ts []).
Proof.
  induction n as [|n IH]; intros s L.
  - destruct s; [|cbn in L; lia]. left. exists [], []. split; [constructor|]. split; [reflexivity|]. apply peg_rep_done; [discriminate|exact CH_end].
  - destruct (CH_any s) as [(x & rest & O & ->)|[D|[ts D]]].
    + destruct (IH rest) as [(l & rest' & F & -> & D)|[ts D]]; [rewrite app_length in L; destruct x; cbn in L; lia| |].
      * left. exists (x :: l), rest'. split; [constructor; assumption|]. split; [cbn [flat_map]; rewrite app_assoc; reflexivity|].
        exact (peg_rep_more G (RuleName nm_char) 0 None _ [qtree E x] _ (PMatch (map (qtree E) l) rest') ltac:(discriminate) (CH_ok x _ O) D).
      * right. eexists. exact (peg_rep_more G (RuleName nm_char) 0 None _ [qtree E x] _ (PMatch ts []) ltac:(discriminate) (CH_ok x _ O) D).
    + left. exists [], s. split; [constructor|]. split; [reflexivity|]. apply peg_rep_done; [discriminate|exact D].
    + right. eexists. exact (peg_rep_more G (RuleName nm_char) 0 None _ ts _ (PMatch [] []) ltac:(discriminate) D (peg_rep_done G _ None [] ltac:(discriminate) CH_end)).
Qed.

Lemma quote : forall rest, peg G (lit [Q]) (Q :: rest) (PMatch [Val [Q]] rest).
Proof. intro rest. exact (peg_lit_ok G [Q] rest). Qed.
Lemma no_quote : forall s, (forall rest, s <> Q :: rest) -> peg G (lit [Q]) s PFail.
Proof. intros s H. exact (peg_lit_fail G [Q] s H). Qed.

Lemma string_rule : forall s r, peg G (And [lit [Q]; body; lit [Q]]) s r -> peg_main rs s (wrap main (wrap nm_string r)).
Proof. intros s r D. exact (peg_rule G main (RuleName nm_string) s _ eq_refl (peg_rule G nm_string _ s r eq_refl D)). Qed.

Lemma string_reads : forall l, Forall ok l -> peg_main rs (string_text Q E l) (PMatch [string_tree Q E l] []).
Proof.
  intros l F. apply (string_rule _ (PMatch (Val [Q] :: map (qtree E) l ++ [Val [Q]]) [])).
  exact (peg_and_cons G _ _ _ [Val [Q]] _ _ (quote _) (peg_and_cons G _ _ _ _ _ _ (body_reads l [Q] F CH_stop) (peg_and_cons G _ [] _ [Val [Q]] _ _ (quote []) (peg_and_nil G [])))).
Qed.

Lemma string_answers : forall s, exists r, peg_main rs s r /\
  (r = PFail \/ (exists t c rest, r = PMatch [t] (c :: rest)) \/ exists l, Forall ok l /\ s = string_text Q E l /\ r = PMatch [string_tree Q E l] []).
Proof.
  intro s.
  assert (FAIL : peg G (And [lit [Q]; body; lit [Q]]) s PFail -> exists r, peg_main rs s r /\
    (r = PFail \/ (exists t c rest, r = PMatch [t] (c :: rest)) \/ exists l, Forall ok l /\ s = string_text Q E l /\ r = PMatch [string_tree Q E l] [])).
  { intro D. exists PFail. split; [exact (string_rule s PFail D)|left; reflexivity]. }
  destruct s as [|c s]; [apply FAIL, peg_and_stop; [apply no_quote; discriminate|exact Logic.I]|].
  destruct (N.eq_dec c Q) as [->|X]; [|apply FAIL, peg_and_stop; [apply no_quote; intros r Y; injection Y as Y _; contradiction|exact Logic.I]].
  destruct (body_answers (length s) s (le_n _)) as [(l & rest & F & -> & D)|[ts D]].
  - assert (Z : (exists r, rest = Q :: r) \/ forall r, rest <> Q :: r).
    { destruct rest as [|d r]; [right; discriminate|]. destruct (N.eq_dec d Q) as [->|Y]; [left; eauto|right]. intros r' Er. injection Er as Er _. contradiction. }
    destruct Z as [[r ->]|Z].
    + pose proof (string_rule (Q :: flat_map (written E) l ++ Q :: r) (PMatch (Val [Q] :: map (qtree E) l ++ [Val [Q]]) r)
        (peg_and_cons G _ _ _ [Val [Q]] _ _ (quote _) (peg_and_cons G _ _ _ _ _ _ D (peg_and_cons G _ [] _ [Val [Q]] _ _ (quote r) (peg_and_nil G r))))) as M.
      cbn [wrap] in M. eexists. split; [exact M|]. right. destruct r as [|d r]; [right|left; eauto]. exists l. split; [exact F|]. split; reflexivity.
    + apply FAIL. exact (peg_and_cons G _ _ _ _ _ PFail (quote _) (peg_and_cons G _ _ _ _ _ PFail D (peg_and_stop G _ _ _ _ (no_quote rest Z) Logic.I))).
  - apply FAIL. exact (peg_and_cons G _ _ _ _ _ PFail (quote _) (peg_and_cons G _ _ _ _ _ PFail D (peg_and_stop G _ _ _ _ (no_quote [] ltac:(discriminate)) Logic.I))).
Qed.

Lemma quoted_sane : sane_rules rs.
Proof.
  intros n e. unfold rs, quoted_rules. cbn [rules_get].
  destruct (str_eqb main n); [intros [= <-]; exact Logic.I|]. destruct (str_eqb nm_string n); [intros [= <-]; cbn; auto|]. destruct (str_eqb nm_char n); [intros [= <-]; exact SC|discriminate].
Qed.

Lemma quoted_accepts : forall s d, ascii s -> forall ast, (exists fuel, parse_with_debug fuel s rs d = Ok ast) <->
  exists l, Forall ok l /\ s = string_text Q E l /\ ast = string_tree Q E l.
Proof.
  intros s d A ast. rewrite (parse_accepts_iff s rs d quoted_sane A ast). split.
  - intro D. destruct (string_answers s) as (r & D' & X). pose proof (peg_det _ _ _ _ D _ D') as Y. subst r.
    destruct X as [X|[(t & c & rest & X)|(l & F & -> & X)]]; [discriminate|discriminate|]. injection X as ->. exists l. auto.
  - intros (l & F & -> & ->). exact (string_reads l F).
Qed.

Lemma quoted_decides : forall s d, ascii s -> exists bound, forall fuel, bound <= fuel ->
  (exists l, Forall ok l /\ s = string_text Q E l /\ parse_with_debug fuel s rs d = Ok (string_tree Q E l)) \/
  ((forall l, Forall ok l -> s <> string_text Q E l) /\ exists er, parse_with_debug fuel s rs d = Err er /\ e_priority er = Normal).
Proof.
  intros s d A. destruct (string_answers s) as (p & M & X).
  destruct (proj2 (parse_terminates_iff s rs d quoted_sane A) (ex_intro _ _ M)) as [fuel NF']. exists fuel. intros fuel' L.
  assert (NF : parse_with_debug fuel' s rs d <> Fuel) by (destruct (parse_with_debug_mono fuel fuel' s rs d L) as [Y|Y]; [contradiction|congruence]).
  pose proof (parse_sound fuel' s rs d quoted_sane) as H.
  destruct (parse_with_debug fuel' s rs d) as [t|er| |] eqn:R; [| |contradiction|contradiction].
  - left. destruct (proj1 (quoted_accepts s d A t) (ex_intro _ _ R)) as (v & V & Ev & ->). exists v. auto.
  - right. split.
    + intros v V Ev. destruct (proj2 (quoted_accepts s d A (string_tree Q E v))) as [f' H']; [exists v; auto|].
      pose proof (parse_same _ _ _ _ _ _ _ quoted_sane A R H' ltac:(discriminate) ltac:(discriminate)). discriminate.
    + exists er. split; [reflexivity|]. destruct H as [_ H]. destruct (e_priority er); [reflexivity|]. destruct H as (rest & H & _).
      pose proof (peg_det _ _ _ _ M _ H) as Y. destruct X as [->|[(t & c & r & ->)|(v & _ & _ & ->)]]; discriminate.
Qed.
End Quoted.

Lemma char_rule : forall Q ch s r, peg (grammar_of (quoted_rules Q ch)) ch s r -> peg (grammar_of (quoted_rules Q ch)) (RuleName nm_char) s (wrap nm_char r).
Proof. intros Q ch s r D. exact (peg_rule _ nm_char ch s r eq_refl D). Qed.

Section Chars.
Variables Q : char.
Variable G : str -> option expr.

Lemma plain_reads : forall c rest, c <> Q -> peg G (And [Not (lit [Q]); dot_]) (c :: rest) (PMatch [Val [c]] rest).
Proof.
  intros c rest N. refine (peg_and_cons G _ _ _ [] (c :: rest) (PMatch [Val [c]] rest) _ (peg_and_cons G _ [] _ [Val [c]] rest (PMatch [] rest) (peg_dot_ok G c rest) (peg_and_nil G rest))).
  apply (peg_not_ok G _ _ PFail); [|exact Logic.I]. apply peg_lit_fail. intros r Y. injection Y as Y _. contradiction.
Qed.
Lemma plain_quote : forall rest, peg G (And [Not (lit [Q]); dot_]) (Q :: rest) PFail.
Proof. intro rest. apply peg_and_stop; [|exact Logic.I]. eapply peg_not_fail. exact (peg_lit_ok G [Q] rest). Qed.
Lemma plain_end : peg G (And [Not (lit [Q]); dot_]) [] PFail.
Proof.
  refine (peg_and_cons G _ _ _ [] [] PFail _ (peg_and_stop G _ _ _ _ (peg_dot_fail G) Logic.I)).
  apply (peg_not_ok G _ _ PFail); [|exact Logic.I]. apply peg_lit_fail. discriminate.
Qed.
Lemma two_reads : forall a e c rest, peg G e (c :: rest) (PMatch [Val [c]] rest) -> peg G (And [lit [a]; e]) (a :: c :: rest) (PMatch [Val [a]; Val [c]] rest).
Proof.
  intros a e c rest D. exact (peg_and_cons G _ _ _ [Val [a]] (c :: rest) (PMatch [Val [c]] rest) (peg_lit_ok G [a] _) (peg_and_cons G _ [] _ [Val [c]] rest (PMatch [] rest) D (peg_and_nil G rest))).
Qed.
Lemma two_not : forall a e s, (forall r, s <> a :: r) -> peg G (And [lit [a]; e]) s PFail.
Proof. intros a e s N. apply peg_and_stop; [|exact Logic.I]. apply peg_lit_fail. exact N. Qed.
Lemma two_half : forall a e s, peg G e s PFail -> peg G (And [lit [a]; e]) (a :: s) PFail.
Proof. intros a e s D. exact (peg_and_cons G _ _ _ [Val [a]] s PFail (peg_lit_ok G [a] s) (peg_and_stop G _ _ _ _ D Logic.I)). Qed.
Lemma or_second : forall a b s r, peg G a s PFail -> peg G b s r -> peg G (Or [a; b]) s r.
Proof.
  intros a b s r A B. apply peg_or_next; [exact A|]. destruct r; [apply peg_or_first; [exact B|discriminate]|apply peg_or_next; [exact B|constructor]|apply peg_or_first; [exact B|discriminate]].
Qed.
End Chars.

Section Escape.
Variables Q E : char.
Let G := grammar_of (escape_rules Q E).

Lemma escape_sane : sane (escape_char Q E).
Proof. cbn. auto 9. Qed.

Lemma escape_reads : forall x rest, escape_ok Q E x -> peg G (RuleName nm_char) (written E x ++ rest) (PMatch [qtree E x] rest).
Proof.
  intros [c|c] rest O; cbn [written app qtree].
  - destruct O as [O1 O2]. apply (char_rule Q (escape_char Q E) _ (PMatch [Val [c]] rest)). apply or_second; [apply two_not; intros r Y; injection Y as Y _; contradiction|].
    apply plain_reads, O1.
  - apply (char_rule Q (escape_char Q E) _ (PMatch [Val [E]; Val [c]] rest)). apply peg_or_first; [|discriminate]. apply two_reads, peg_dot_ok.
Qed.

Lemma escape_stop : peg G (RuleName nm_char) [Q] PFail.
Proof.
  apply (char_rule Q (escape_char Q E) _ PFail). apply or_second; [|apply plain_quote]. destruct (N.eq_dec Q E) as [<-|X].
  - apply two_half, peg_dot_fail.
  - apply two_not. intros r Y. injection Y as Y _. contradiction.
Qed.

Lemma escape_end : peg G (RuleName nm_char) [] PFail.
Proof. apply (char_rule Q (escape_char Q E) _ PFail). apply or_second; [apply two_not; discriminate|apply plain_end]. Qed.

Lemma escape_any : forall s, (exists x rest, escape_ok Q E x /\ s = written E x ++ rest) \/ peg G (RuleName nm_char) s PFail \/ exists ts, peg G (RuleName nm_char) s (PMatch ts []).
Proof.
  intros [|c s]; [right; left; exact escape_end|]. destruct (N.eq_dec c E) as [->|X].
  - destruct s as [|c s]; [|left; exists (Marked c), s; split; [exact Logic.I|reflexivity]]. right.
    destruct (N.eq_dec E Q) as [->|Y].
    { left. apply (char_rule Q (escape_char Q Q) _ PFail). apply or_second; [apply two_half, peg_dot_fail|apply plain_quote]. }
    right. eexists. apply (char_rule Q (escape_char Q E) _ (PMatch [Val [E]] [])). apply or_second; [apply two_half, peg_dot_fail|]. apply plain_reads, Y.
  - destruct (N.eq_dec c Q) as [->|Y]; [|left; exists (Plain c), s; split; [split; assumption|reflexivity]]. right. left.
    apply (char_rule Q (escape_char Q E) _ PFail). apply or_second; [apply two_not; intros r Z; injection Z as Z _; contradiction|apply plain_quote].
Qed.

Lemma escape_accepts : forall s d, ascii s -> forall ast, (exists fuel, parse_with_debug fuel s (escape_rules Q E) d = Ok ast) <->
  exists l, Forall (escape_ok Q E) l /\ s = string_text Q E l /\ ast = string_tree Q E l.
Proof. exact (quoted_accepts Q E (escape_char Q E) (escape_ok Q E) escape_sane escape_reads escape_stop escape_end escape_any). Qed.

Lemma escape_decides : forall s d, ascii s -> exists bound, forall fuel, bound <= fuel ->
  (exists l, Forall (escape_ok Q E) l /\ s = string_text Q E l /\ parse_with_debug fuel s (escape_rules Q E) d = Ok (string_tree Q E l)) \/
  ((forall l, Forall (escape_ok Q E) l -> s <> string_text Q E l) /\ exists er, parse_with_debug fuel s (escape_rules Q E) d = Err er /\ e_priority er = Normal).
Proof. exact (quoted_decides Q E (escape_char Q E) (escape_ok Q E) escape_sane escape_reads escape_stop escape_end escape_any). Qed.

Lemma escaped_ok : forall w, Forall (escape_ok Q E) (map (escaped Q E) w) /\ map meant (map (escaped Q E) w) = w.
Proof.
  induction w as [|c w [IH1 IH2]]; [split; [constructor|reflexivity]|]. cbn [map]. unfold escaped at 1 3. destruct (N.eqb_spec c Q) as [->|X]; cbn [orb].
  - split; [constructor; [exact Logic.I|exact IH1]|]. cbn [meant]. congruence.
  - destruct (N.eqb_spec c E) as [->|Y]; [split; [constructor; [exact Logic.I|exact IH1]|cbn [meant]; congruence]|].
    split; [constructor; [split; assumption|exact IH1]|]. cbn [meant]. congruence.
Qed.
End Escape.

Section Double.
Variables Q : char.
Let G := grammar_of (double_rules Q).

Lemma double_sane : sane (double_char Q).
Proof. cbn. auto 9. Qed.

Lemma double_reads : forall x rest, double_ok Q x -> peg G (RuleName nm_char) (written Q x ++ rest) (PMatch [qtree Q x] rest).
Proof.
  intros [c|c] rest O; cbn [written app qtree].
  - apply (char_rule Q (double_char Q) _ (PMatch [Val [c]] rest)). apply or_second; [apply two_not; intros r Y; injection Y as Y _; contradiction|]. apply plain_reads, O.
  - cbn in O. subst c. apply (char_rule Q (double_char Q) _ (PMatch [Val [Q]; Val [Q]] rest)). apply peg_or_first; [|discriminate]. apply two_reads. exact (peg_lit_ok _ [Q] rest).
Qed.

Lemma double_stop : forall rest, (forall r, rest <> Q :: r) -> peg G (RuleName nm_char) (Q :: rest) PFail.
Proof.
  intros rest N. apply (char_rule Q (double_char Q) _ PFail). apply or_second; [apply two_half; apply peg_lit_fail; exact N|apply plain_quote].
Qed.

Lemma double_end : peg G (RuleName nm_char) [] PFail.
Proof. apply (char_rule Q (double_char Q) _ PFail). apply or_second; [apply two_not; discriminate|apply plain_end]. Qed.

Lemma double_any : forall s, (exists x rest, double_ok Q x /\ s = written Q x ++ rest) \/ peg G (RuleName nm_char) s PFail \/ exists ts, peg G (RuleName nm_char) s (PMatch ts []).
Proof.
  intros [|c s]; [right; left; exact double_end|]. destruct (N.eq_dec c Q) as [->|X]; [|left; exists (Plain c), s; split; [exact X|reflexivity]].
  destruct s as [|c s]; [right; left; apply double_stop; discriminate|].
  destruct (N.eq_dec c Q) as [->|X]; [left; exists (Marked Q), s; split; reflexivity|]. right. left. apply double_stop. intros r Y. injection Y as Y _. contradiction.
Qed.

Lemma double_accepts : forall s d, ascii s -> forall ast, (exists fuel, parse_with_debug fuel s (double_rules Q) d = Ok ast) <->
  exists l, Forall (double_ok Q) l /\ s = string_text Q Q l /\ ast = string_tree Q Q l.
Proof. exact (quoted_accepts Q Q (double_char Q) (double_ok Q) double_sane double_reads (double_stop [] ltac:(discriminate)) double_end double_any). Qed.

Lemma double_decides : forall s d, ascii s -> exists bound, forall fuel, bound <= fuel ->
  (exists l, Forall (double_ok Q) l /\ s = string_text Q Q l /\ parse_with_debug fuel s (double_rules Q) d = Ok (string_tree Q Q l)) \/
  ((forall l, Forall (double_ok Q) l -> s <> string_text Q Q l) /\ exists er, parse_with_debug fuel s (double_rules Q) d = Err er /\ e_priority er = Normal).
Proof. exact (quoted_decides Q Q (double_char Q) (double_ok Q) double_sane double_reads (double_stop [] ltac:(discriminate)) double_end double_any). Qed.

Lemma doubled_ok : forall w, Forall (double_ok Q) (map (doubled Q) w) /\ map meant (map (doubled Q) w) = w.
Proof.
  induction w as [|c w [IH1 IH2]]; [split; [constructor|reflexivity]|]. cbn [map]. unfold doubled at 1 3. destruct (N.eqb_spec c Q) as [->|X].
  - split; [constructor; [reflexivity|exact IH1]|]. cbn [meant]. congruence.
  - split; [constructor; [exact X|exact IH1]|]. cbn [meant]. congruence.
Qed.

Lemma double_one_way : forall l, Forall (double_ok Q) l -> l = map (doubled Q) (map meant l).
Proof.
  intros l F. induction F as [|x l O F IH]; [reflexivity|]. cbn [map]. rewrite <- IH. f_equal. unfold doubled. destruct x as [c|c]; cbn in *.
  - destruct (N.eqb_spec c Q); [contradiction|reflexivity].
  - subst c. rewrite N.eqb_refl. reflexivity.
Qed.
End Double.

Lemma qtree_inj : forall E x y, qtree E x = qtree E y -> x = y.
Proof. intros E [c|c] [d|d] H; cbn in H; injection H; intros; congruence. Qed.

Lemma string_tree_inj : forall Q E l l', string_tree Q E l = string_tree Q E l' -> l = l'.
Proof.
  intros Q E l l' H. unfold string_tree in H. injection H as H. apply app_inv_tail in H. revert l' H.
  induction l as [|x l IH]; intros [|y l'] H; try discriminate; [reflexivity|]. cbn [map] in H. injection H as H1 H2. rewrite (qtree_inj E x y) by (unfold qtree; congruence). f_equal. exact (IH l' H2).
Qed.

Lemma string_ascii : forall Q E l, (Q < 128)%N -> (E < 128)%N -> ascii (map meant l) -> ascii (string_text Q E l).
Proof.
  intros Q E l HQ HE A. unfold string_text. constructor; [exact HQ|]. apply Forall_app. split; [|repeat constructor; exact HQ].
  induction l as [|x l IH]; [constructor|]. cbn [map flat_map] in *. inversion A as [|? ? A1 A2]; subst. apply Forall_app. split; [|exact (IH A2)].
  destruct x; cbn in *; repeat constructor; assumption.
Qed.
