(** Proofs about tries. *)
From Verif Require Import Base ModelAst ModelParser ModelCost SpecPeg SpecPos SpecApi SpecTable SpecOrder SpecTrie.
From Verif Require Import ProofParser ProofEngine ProofApi ProofDocs ProofRun ProofRunDet Examples.

Definition here (t : trie) : bool := let (h, _) := t in h.
Definition kids (t : trie) : list (char * trie) := let (_, k) := t in k.
Fixpoint find_kid (c : char) (k : list (char * trie)) : option trie :=
  match k with [] => None | (d, t) :: r => if N.eqb c d then Some t else find_kid c r end.
Fixpoint contains (w : str) (t : trie) : bool :=
  match w with
  | [] => here t
  | c :: r => match find_kid c (kids t) with Some u => contains r u | None => false end
  end.

Lemma find_put : forall c d f k, find_kid c (put d f k) = if N.eqb c d then Some (f (match find_kid d k with Some t => t | None => TNode false [] end)) else find_kid c k.
Proof.
  intros c d f. induction k as [|[e t] k IH]; cbn [put find_kid].
  - destruct (N.eqb c d); reflexivity.
  - destruct (N.eqb d e) eqn:DE; cbn [find_kid].
    + apply N.eqb_eq in DE. subst e. destruct (N.eqb c d); reflexivity.
    + rewrite IH. destruct (N.eqb c e) eqn:CE; [|reflexivity]. apply N.eqb_eq in CE. subst e. rewrite N.eqb_sym, DE. reflexivity.
Qed.
Lemma contains_empty : forall w, contains w (TNode false []) = false.
Proof. intros [|c w]; reflexivity. Qed.
Lemma contains_insert : forall w t v, contains v (insert w t) = true <-> v = w \/ contains v t = true.
Proof.
  induction w as [|c w IH]; intros [h k] v; cbn [insert].
  - destruct v as [|d v]; cbn [contains here kids]; [tauto|]. split; [tauto|]. intros [H|H]; [discriminate|exact H].
  - destruct v as [|d v]; cbn [contains here kids]; [split; [tauto|intros [H|H]; [discriminate|exact H]]|]. rewrite find_put. destruct (N.eqb d c) eqn:E.
    + apply N.eqb_eq in E. subst d. rewrite IH. destruct (find_kid c k) as [u|].
      * split; (intros [H|H]; [left; congruence|right; exact H]).
      * rewrite contains_empty. split; (intros [H|H]; [left; congruence|discriminate]).
    + split; [tauto|]. intros [H|H]; [|exact H]. injection H as -> _. rewrite N.eqb_refl in E. discriminate.
Qed.
Lemma contains_words : forall ws v, contains v (trie_of ws) = true <-> In v ws.
Proof.
  intros ws v. unfold trie_of. assert (X : forall t, contains v (fold_left (fun t w => insert w t) ws t) = true <-> In v ws \/ contains v t = true).
  { induction ws as [|w ws IH]; intro t; cbn [fold_left In]; [tauto|]. rewrite IH, contains_insert. intuition. }
  rewrite X, contains_empty. intuition discriminate.
Qed.

(** No char is there twice, and there are only chars of an alphabet. *)
Inductive tidy (cs : str) : trie -> Prop :=
| tidy_node h k : NoDup (map fst k) -> incl (map fst k) cs -> (forall c u, find_kid c k = Some u -> tidy cs u) -> tidy cs (TNode h k).
Lemma put_keys : forall c f k x, In x (map fst (put c f k)) <-> x = c \/ In x (map fst k).
Proof.
  intros c f. induction k as [|[d t] k IH]; intro x; cbn [put].
  - cbn. intuition.
  - destruct (N.eqb c d) eqn:E; cbn [map fst In]; [apply N.eqb_eq in E; subst; intuition|]. rewrite IH. intuition.
Qed.
Lemma put_nodup : forall c f k, NoDup (map fst k) -> NoDup (map fst (put c f k)).
Proof.
  intros c f. induction k as [|[d t] k IH]; intro N; cbn [put]; [repeat constructor; intros []|]. inversion N as [|? ? X N']; subst.
  destruct (N.eqb c d) eqn:E; [exact N|]. cbn [map fst]. constructor; [|exact (IH N')]. rewrite put_keys. intros [->|H]; [rewrite N.eqb_refl in E; discriminate|exact (X H)].
Qed.
Lemma tidy_insert : forall cs w t, tidy cs t -> incl w cs -> tidy cs (insert w t).
Proof.
  intros cs. induction w as [|c w IH]; intros [h k] T I; inversion T as [? ? N K F]; subst; cbn [insert]; [constructor; assumption|].
  assert (Iw : incl w cs) by (intros x X; apply I; right; exact X).
  constructor; [apply put_nodup; exact N| |].
  - intros x X. apply put_keys in X. destruct X as [->|X]; [apply I; left; reflexivity|apply K; exact X].
  - intros d u. rewrite find_put. destruct (N.eqb d c); [|apply F]. intro E. injection E as <-. apply IH; [|exact Iw].
    destruct (find_kid c k) as [t|] eqn:E; [exact (F _ _ E)|]. constructor; [constructor|intros x []|discriminate].
Qed.
Lemma tidy_words : forall cs ws, Forall (fun w => incl w cs) ws -> tidy cs (trie_of ws).
Proof.
  intros cs ws F. unfold trie_of. assert (X : forall t, tidy cs t -> tidy cs (fold_left (fun t w => insert w t) ws t)).
  { induction F as [|w ws W F IH]; intros t T; cbn [fold_left]; [exact T|]. apply IH. apply tidy_insert; assumption. }
  apply X. constructor; [constructor|intros x []|discriminate].
Qed.

(** ** Walking down *)
Fixpoint walk (t : trie) (s : str) : option (str * str) :=
  match s with
  | [] => if here t then Some ([], []) else None
  | c :: r =>
      match match find_kid c (kids t) with Some u => walk u r | None => None end with
      | Some (w, rest) => Some (c :: w, rest)
      | None => if here t then Some ([], s) else None
      end
  end.
Lemma walk_some : forall s t w r, walk t s = Some (w, r) -> s = w ++ r /\ contains w t = true /\ forall u, contains u t = true -> starts u s -> length u <= length w.
Proof.
  induction s as [|c s IH]; intros t w r H; cbn [walk] in H.
  - destruct (here t) eqn:E; [|discriminate]. injection H as <- <-. split; [reflexivity|]. split; [exact E|]. intros u _ (x & X). destruct u; [cbn; lia|discriminate].
  - destruct (find_kid c (kids t)) as [u|] eqn:F.
    + destruct (walk u s) as [[w' r']|] eqn:W.
      * injection H as <- <-. destruct (IH _ _ _ W) as (-> & C & L). split; [reflexivity|]. split; [cbn [contains]; rewrite F; exact C|].
        intros v V (x & X). destruct v as [|d v]; [cbn; lia|]. injection X as <- X. cbn [contains] in V. rewrite F in V. cbn [length]. apply le_n_S. apply (L v V). exists x. exact X.
      * destruct (here t) eqn:E; [|discriminate]. injection H as <- <-. split; [reflexivity|]. split; [exact E|].
        intros v V (x & X). destruct v as [|d v]; [cbn; lia|]. exfalso. injection X as <- X. cbn [contains] in V. rewrite F in V.
        clear IH F E. revert u v V X W. clear. revert x. induction s as [|c s IH]; intros x u v V X W; cbn [walk] in W.
        -- destruct v; [|discriminate]. cbn [contains] in V. rewrite V in W. discriminate.
        -- destruct v as [|d v]; cbn [contains] in V.
           ++ rewrite V in W. destruct (find_kid c (kids u)) as [u'|]; [destruct (walk u' s) as [[? ?]|]|]; discriminate.
           ++ injection X as -> X. destruct (find_kid d (kids u)) as [u'|] eqn:F; [|discriminate]. destruct (walk u' s) as [[? ?]|] eqn:W'; [discriminate|]. exact (IH _ _ _ V X W').
    + destruct (here t) eqn:E; [|discriminate]. injection H as <- <-. split; [reflexivity|]. split; [exact E|].
      intros v V (x & X). destruct v as [|d v]; [cbn; lia|]. injection X as <- X. cbn [contains] in V. rewrite F in V. discriminate.
Qed.
Lemma walk_none : forall s t, walk t s = None -> forall u, contains u t = true -> ~ starts u s.
Proof.
  induction s as [|c s IH]; intros t H u V (x & X); cbn [walk] in H.
  - destruct u; [|discriminate]. cbn [contains] in V. rewrite V in H. discriminate.
  - destruct u as [|d v]; cbn [contains] in V.
    + rewrite V in H. destruct (find_kid c (kids t)) as [u'|]; [destruct (walk u' s) as [[? ?]|]|]; discriminate.
    + injection X as -> X. destruct (find_kid d (kids t)) as [u'|] eqn:F; [|discriminate]. destruct (walk u' s) as [[? ?]|] eqn:W'; [discriminate|]. apply (IH _ W' v V). exists x. exact X.
Qed.

(** ** The expression walks down *)
Section Down.
Variable G : str -> option expr.
Definition result (o : option (str * str)) : presult := match o with Some (w, r) => PMatch (by_chars w) r | None => PFail end.
Definition ending_of (o : option (str * str)) : ending := match o with Some (_, r) => OM r | None => OF end.

Notation alts k := (map (fun p => And [lit [fst p]; trie_expr (snd p)]) k).
Notation stop h := (if h : bool then [And []] else []).

Lemma stop_peg : forall (h : bool) s, peg G (Or (stop h)) s (if h then PMatch [] s else PFail).
Proof. intros [|] s; [apply peg_or_first; [apply peg_and_nil|discriminate]|apply peg_or_nil]. Qed.
Lemma stop_costs : forall (h : bool) s, exists n, costs_or G (stop h) s (if h then OM s else OF) n /\ n <= 1.
Proof.
  intros [|] s; [|exists 0; split; [apply co_nil|lia]]. exists 1. split; [|lia]. apply co_match. apply c_and. apply ca_nil.
Qed.

(** Alternatives that begin with other chars fail. *)
Lemma others_peg : forall k l c s r, ~ In c (map fst k) -> peg G (Or l) (c :: s) r -> peg G (Or (alts k ++ l)) (c :: s) r.
Proof.
  induction k as [|[d t] k IH]; intros l c s r N H; [exact H|]. cbn [map app fst snd]. apply peg_or_next.
  - apply peg_and_stop; [|exact I]. apply peg_lit_fail. intros x E. injection E as -> _. apply N. left. reflexivity.
  - apply IH; [intro X; apply N; right; exact X|exact H].
Qed.
Lemma others_costs : forall k l c s o n, ~ In c (map fst k) -> costs_or G l (c :: s) o n -> costs_or G (alts k ++ l) (c :: s) o (2 * length k + n).
Proof.
  induction k as [|[d t] k IH]; intros l c s o n N H; [exact H|]. cbn [map app fst snd length].
  replace (2 * S (length k) + n) with (2 + (2 * length k + n)) by lia. apply co_next.
  - apply c_and. apply ca_fail. apply c_fail. apply peg_lit_fail. intros x E. injection E as -> _. apply N. left. reflexivity.
  - apply IH; [intro X; apply N; right; exact X|exact H].
Qed.
Lemma empty_peg : forall k l r, peg G (Or l) [] r -> peg G (Or (alts k ++ l)) [] r.
Proof.
  induction k as [|[d t] k IH]; intros l r H; [exact H|]. cbn [map app fst snd]. apply peg_or_next; [|apply IH, H].
  apply peg_and_stop; [|exact I]. apply peg_lit_fail. discriminate.
Qed.
Lemma empty_costs : forall k l o n, costs_or G l [] o n -> costs_or G (alts k ++ l) [] o (2 * length k + n).
Proof.
  induction k as [|[d t] k IH]; intros l o n H; [exact H|]. cbn [map app fst snd length].
  replace (2 * S (length k) + n) with (2 + (2 * length k + n)) by lia. apply co_next; [|apply IH, H].
  apply c_and. apply ca_fail. apply c_fail. apply peg_lit_fail. discriminate.
Qed.
Lemma find_split : forall c k u, NoDup (map fst k) -> find_kid c k = Some u -> exists k1 k2, k = k1 ++ (c, u) :: k2 /\ ~ In c (map fst k1) /\ ~ In c (map fst k2).
Proof.
  intros c. induction k as [|[d t] k IH]; intros u N F; cbn [find_kid] in F; [discriminate|]. inversion N as [|? ? X N']; subst. destruct (N.eqb c d) eqn:E.
  - injection F as <-. apply N.eqb_eq in E. subst d. exists [], k. split; [reflexivity|]. split; [intros []|exact X].
  - destruct (IH u N' F) as (k1 & k2 & -> & A & B). exists ((d, t) :: k1), k2. split; [reflexivity|]. split; [|exact B]. intros [H|H]; [cbn in H; subst; rewrite N.eqb_refl in E; discriminate|exact (A H)].
Qed.
Lemma find_none : forall c k, find_kid c k = None -> ~ In c (map fst k).
Proof.
  intros c. induction k as [|[d t] k IH]; intros F; cbn [find_kid] in F; [intros []|]. destruct (N.eqb c d) eqn:E; [discriminate|].
  intros [H|H]; [cbn in H; subst; rewrite N.eqb_refl in E; discriminate|exact (IH F H)].
Qed.

Lemma down_peg : forall cs s t, tidy cs t -> peg G (trie_expr t) s (result (walk t s)).
Proof.
  intros cs. induction s as [|c s IH]; intros [h k] T; inversion T as [? ? N K F]; subst; cbn [trie_expr walk here kids].
  - apply empty_peg. pose proof (stop_peg h []) as X. destruct h; exact X.
  - destruct (find_kid c k) as [u|] eqn:E.
    + destruct (find_split c k u N E) as (k1 & k2 & -> & A & B). rewrite map_app, <- app_assoc. apply others_peg; [exact A|]. cbn [map app fst snd].
      pose proof (IH u (F c u E)) as D. destruct (walk u s) as [[w r]|]; cbn [result] in *.
      * apply peg_or_first; [|discriminate]. refine (peg_and_cons G _ _ _ [Val [c]] s (PMatch (by_chars w) r) (peg_lit_ok G [c] s) _).
        pose proof (peg_and_cons G _ [] _ _ _ _ D (peg_and_nil G _)) as X. cbn [prepend] in X. rewrite app_nil_r in X. exact X.
      * apply peg_or_next.
        -- refine (peg_and_cons G _ _ _ [Val [c]] s PFail (peg_lit_ok G [c] s) _). apply peg_and_stop; [exact D|exact I].
        -- apply others_peg; [exact B|]. pose proof (stop_peg h (c :: s)) as X. destruct h; exact X.
    + apply others_peg; [exact (find_none c k E)|]. pose proof (stop_peg h (c :: s)) as X. destruct h; exact X.
Qed.

(** Each char costs two calls for each way to go on, and two more. *)
Lemma down_costs : forall cs s t, tidy cs t -> exists n, costs G (trie_expr t) s (ending_of (walk t s)) n /\ n <= (2 * length cs + 2) * S (length s).
Proof.
  intros cs. induction s as [|c s IH]; intros [h k] T; inversion T as [? ? N K F]; subst; cbn [trie_expr walk here kids];
    assert (LK : length k <= length cs) by (rewrite <- (map_length fst k); apply NoDup_incl_length; assumption).
  - destruct (stop_costs h []) as (n & H & L). exists (S (2 * length k + n)). split.
    + apply c_or. pose proof (empty_costs k _ _ _ H) as X. destruct h; exact X.
    + cbn [length]. lia.
  - destruct (find_kid c k) as [u|] eqn:E.
    + destruct (find_split c k u N E) as (k1 & k2 & -> & A & B). rewrite app_length in LK. cbn [length] in LK. rewrite map_app, <- app_assoc. cbn [map app fst snd].
      destruct (IH u (F c u E)) as (n & H & L). destruct (walk u s) as [[w r]|]; cbn [ending_of] in *.
      * exists (S (2 * length k1 + S (1 + (n + 0)))). split; [|cbn [length] in *; nia].
        apply c_or. apply others_costs; [exact A|]. apply co_match. apply c_and. apply ca_cons with (s1 := s); [apply c_match with (ts := [Val [c]]); exact (peg_lit_ok G [c] s)|].
        apply ca_cons with (s1 := r); [exact H|apply ca_nil].
      * destruct (stop_costs h (c :: s)) as (n' & H' & L'). exists (S (2 * length k1 + (S (1 + n) + (2 * length k2 + n')))). split; [|cbn [length] in *; nia].
        apply c_or. assert (X : costs_or G (alts k1 ++ And [lit [c]; trie_expr u] :: alts k2 ++ stop h) (c :: s) (if h then OM (c :: s) else OF) (2 * length k1 + (S (1 + n) + (2 * length k2 + n')))).
        { apply others_costs; [exact A|]. apply co_next; [|apply others_costs; [exact B|exact H']].
          apply c_and. apply ca_cons with (s1 := s); [apply c_match with (ts := [Val [c]]); exact (peg_lit_ok G [c] s)|]. apply ca_fail. exact H. }
        destruct h; exact X.
    + destruct (stop_costs h (c :: s)) as (n' & H' & L'). exists (S (2 * length k + n')). split; [|cbn [length] in *; nia].
      apply c_or. pose proof (others_costs k _ c s _ _ (find_none c k E) H') as X. destruct h; exact X.
Qed.
End Down.

Lemma sane_trie : forall t, sane (trie_expr t).
Proof.
  fix IH 1. intros [h k]. cbn [trie_expr sane]. assert (H : fold_right (fun x P => sane x /\ P) True (if h then [And []] else [])) by (destruct h; cbn; tauto). revert k. fix IHk 1. intros [|[c t] k]; [exact H|].
  split; [split; [exact I|split; [exact (IH t)|exact I]]|exact (IHk k)].
Qed.
Lemma sane_words : forall ws, sane_rules (words_rules ws).
Proof. intro ws. apply sane_rules_all. constructor; [apply sane_trie|constructor]. Qed.

Lemma words_alphabet : forall ws : list str, exists cs : str, Forall (fun w => incl w cs) ws.
Proof.
  induction ws as [|w ws [cs H]]; [exists []; constructor|]. exists (w ++ cs). constructor; [apply incl_appl, incl_refl|].
  eapply Forall_impl; [|exact H]. intros x X. apply incl_appr. exact X.
Qed.
Lemma words_peg : forall G ws s, peg G (words_expr ws) s (result (walk (trie_of ws) s)).
Proof. intros G ws s. destruct (words_alphabet ws) as [cs H]. exact (down_peg G cs s _ (tidy_words cs ws H)). Qed.

(** The longest word is matched. *)
Lemma words_longest : forall G ws s p, peg G (words_expr ws) s p <->
  (exists w r, In w ws /\ s = w ++ r /\ (forall u, In u ws -> starts u s -> length u <= length w) /\ p = PMatch (by_chars w) r) \/
  ((forall w, In w ws -> ~ starts w s) /\ p = PFail).
Proof.
  intros G ws s p. pose proof (words_peg G ws s) as D. split.
  - intro H. pose proof (peg_det _ _ _ _ D _ H) as <-. destruct (walk (trie_of ws) s) as [[w r]|] eqn:E; cbn [result].
    + left. destruct (walk_some _ _ _ _ E) as (S & C & L). exists w, r. apply contains_words in C. split; [exact C|]. split; [exact S|]. split; [|reflexivity].
      intros u U. apply L. apply contains_words. exact U.
    + right. split; [|reflexivity]. intros w W. apply (walk_none _ _ E). apply contains_words. exact W.
  - destruct (walk (trie_of ws) s) as [[w r]|] eqn:E; cbn [result] in D.
    + destruct (walk_some _ _ _ _ E) as (S & C & L). apply contains_words in C. intros [(w' & r' & W & S' & L' & ->)|[N ->]].
      * assert (EQ : length w = length w').
        { apply Nat.le_antisymm; [apply L'; [exact C|exists r; exact S]|apply L; [apply contains_words; exact W|exists r'; exact S']]. }
        assert (X : w = w' /\ r = r').
        { rewrite S in S'. clear -S' EQ. revert w' S' EQ. induction w as [|x w IH]; intros [|y w'] S' EQ; cbn in *; try discriminate; [auto|]. injection S' as <- S'. injection EQ as EQ. destruct (IH w' S' EQ) as [-> ->]. auto. }
        destruct X as [-> ->]. exact D.
      * destruct (N w C). exists r. exact S.
    + intros [(w' & r' & W & S' & L' & ->)|[N ->]]; [|exact D]. destruct (walk_none _ _ E w'); [apply contains_words; exact W|exists r'; exact S'].
Qed.

Lemma words_accepts : forall ws s d t, ascii s -> (exists fuel, parse_with_debug fuel s (words_rules ws) d = Ok t) <-> In s ws /\ t = Rule main (by_chars s).
Proof.
  intros ws s d t A. rewrite (parse_accepts_iff s _ d (sane_words ws) A t). unfold peg_main.
  assert (E : grammar_of (words_rules ws) main = Some (words_expr ws)) by reflexivity. split.
  - intro H. pose proof (words_peg (grammar_of (words_rules ws)) ws s) as D. pose proof (peg_rule _ _ _ _ _ E D) as X. pose proof (peg_det _ _ _ _ X _ H) as Y.
    destruct (walk (trie_of ws) s) as [[w r]|] eqn:W; cbn [result wrap] in Y; [|discriminate]. injection Y as <- ->. destruct (walk_some _ _ _ _ W) as (S & C & _).
    rewrite app_nil_r in S. subst w. split; [apply contains_words; exact C|reflexivity].
  - intros [I ->]. refine (peg_rule _ _ _ _ (PMatch (by_chars s) []) E _). apply words_longest. left. exists s, []. split; [exact I|]. split; [symmetry; apply app_nil_r|].
    split; [|reflexivity]. intros u U (r & ->). rewrite app_length. lia.
Qed.

Lemma words_calls : forall cs ws s fuel d, Forall (fun w => incl w cs) ws -> ascii s -> parse_with_debug fuel s (words_rules ws) d <> Fuel ->
  parse_calls fuel s (words_rules ws) d <= (2 * length cs + 2) * S (length s).
Proof.
  intros cs ws s fuel d W A NF. destruct (down_costs (grammar_of (words_rules ws)) cs s _ (tidy_words cs ws W)) as (n & H & L).
  assert (E : grammar_of (words_rules ws) main = Some (words_expr ws)) by reflexivity. pose proof (c_rule _ _ _ _ _ _ E H) as X.
  pose proof (parse_calls_run _ s fuel d _ _ (sane_words ws) A NF X) as Y. assert (Z : ending_of (walk (trie_of ws) s) <> OC) by (destruct (walk (trie_of ws) s) as [[? ?]|]; discriminate).
  specialize (Y Z). lia.
Qed.
(** A list of literals is tried from the start to the end. *)
Lemma literals_calls : forall ws s fuel d, (forall w, In w ws -> ~ starts w s) -> ascii s -> parse_with_debug fuel s (rules_macro [(main, Or (map lit ws))]) d <> Fuel ->
  parse_calls fuel s (rules_macro [(main, Or (map lit ws))]) d = S (length ws).
Proof.
  intros ws s fuel d N A NF. set (rs := rules_macro [(main, Or (map lit ws))]) in *.
  assert (SR : sane_rules rs). { apply sane_rules_all. constructor; [|constructor]. cbn. clear. induction ws as [|w ws IH]; [exact I|]. split; [exact I|exact IH]. }
  assert (C : costs_or (grammar_of rs) (map lit ws) s OF (length ws)).
  { generalize rs. clear -N. intro rs. induction ws as [|w ws IH]; [apply co_nil|]. cbn [map length]. apply (co_next _ _ _ _ _ 1); [|apply IH; intros x X; apply N; right; exact X].
    apply c_fail. apply peg_lit_fail. intros r E. apply (N w); [left; reflexivity|exists r; exact E]. }
  assert (E : grammar_of rs main = Some (Or (map lit ws))) by reflexivity. pose proof (c_rule _ _ _ _ _ _ E (c_or _ _ _ _ _ C)) as X.
  pose proof (parse_calls_run _ s fuel d _ _ SR A NF X ltac:(discriminate)) as Y. lia.
Qed.
Lemma words_rejects : forall ws s d, ascii s -> ~ In s ws -> exists fuel er, parse_with_debug fuel s (words_rules ws) d = Err er /\ e_priority er = Normal.
Proof.
  intros ws s d A N. pose proof (sane_words ws) as SR. assert (E : grammar_of (words_rules ws) main = Some (words_expr ws)) by reflexivity.
  pose proof (peg_rule _ _ _ _ _ E (words_peg (grammar_of (words_rules ws)) ws s)) as Q.
  destruct (proj2 (parse_terminates_iff s _ d SR A) (ex_intro _ _ Q)) as [fuel F]. exists fuel. pose proof (parse_sound fuel s _ d SR) as Y.
  destruct (parse_with_debug fuel s (words_rules ws) d) as [t|er| |] eqn:P; [| |destruct (Y A)|destruct (F eq_refl)].
  - destruct (N (proj1 (proj1 (words_accepts ws s d t A) (ex_intro _ fuel P)))).
  - exists er. split; [reflexivity|]. destruct (e_priority er); [reflexivity|]. destruct Y as [_ (rest & Y & _)]. pose proof (peg_det _ _ _ _ Q _ Y) as X.
    destruct (walk (trie_of ws) s) as [[w r]|]; discriminate.
Qed.
