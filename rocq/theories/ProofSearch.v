(** Searching a text: proofs. *)
From Verif Require Import Base ModelAst ModelParser SpecPeg SpecPos SpecApi SpecAst SpecStuck SpecPower SpecTable SpecLines SpecLexer SpecSearch.
From Verif Require Import PegTools PegLeaf ProofParser ProofAst ProofEngine ProofSim ProofApi ProofPower ProofLines ProofLexer ProofFinite.

Lemma and_cons_inv : forall G e es s r, peg G (And (e :: es)) s r ->
  (exists ts s1 r1, peg G e s (PMatch ts s1) /\ peg G (And es) s1 r1 /\ r = prepend ts r1) \/ (peg G e s r /\ stops r).
Proof.
  intros G e es s r D. inversion D as [| | | | | | | | | |e0 es0 s0 ts s1 r0 D1 D2|e0 es0 s0 r0 D1 St| | | | | | | | | | | |]; subst; [left; exists ts, s1, r0; repeat split; assumption|right; split; assumption].
Qed.
Lemma name_shape : forall G n s ts rest, peg G (RuleName n) s (PMatch ts rest) -> exists ks, ts = [Rule n ks].
Proof.
  intros G n s ts rest D. inversion D as [| | | | | | | | | | | | | | | | | | | | | |m e s0 r0 E0 D0 E1 E2 E3|]; subst. destruct r0; cbn in E3; try discriminate. injection E3 as <- _. eexists. reflexivity.
Qed.

Lemma abort_shorter : forall G e s m rest, peg G e s (PAbort m rest) -> length rest <= length s.
Proof. intros G e s m rest D. destruct (peg_rest _ _ _ _ D) as [w ->]. rewrite app_length. lia. Qed.

Section Until.
Variable G : str -> option expr.
Variable n : str.
Notation N_ := (RuleName n).
Notation body := (And [Not N_; dot_]).
Notation loop := (Repeat body 0 None).

Lemma body_miss : forall c s, misses G n (c :: s) -> peg G body (c :: s) (PMatch [Val [c]] s).
Proof.
  intros c s (r & D & St). refine (peg_and_cons G _ _ _ [] (c :: s) (PMatch [Val [c]] s) (peg_not_ok G _ _ r D St) _).
  exact (peg_and_cons G _ _ _ [Val [c]] s (PMatch [] s) (peg_dot_ok G c s) (peg_and_nil G s)).
Qed.
Lemma body_end : misses G n [] -> peg G body [] PFail.
Proof.
  intros (r & D & St). refine (peg_and_cons G _ _ _ [] [] PFail (peg_not_ok G _ _ r D St) _). apply peg_and_stop; [apply peg_dot_fail|exact I].
Qed.
Lemma body_hit : forall v ts rest, peg G N_ v (PMatch ts rest) -> peg G body v PFail.
Proof. intros v ts rest D. apply peg_and_stop; [exact (peg_not_fail G _ _ ts rest D)|exact I]. Qed.

Lemma body_inv : forall s r, peg G body s r ->
  (misses G n s /\ exists c s', s = c :: s' /\ r = PMatch [Val [c]] s') \/ (misses G n [] /\ s = [] /\ r = PFail) \/ ((exists ts rest, peg G N_ s (PMatch ts rest)) /\ r = PFail).
Proof.
  intros s r D.
  assert (X : exists r0, peg G N_ s r0).
  { destruct (and_cons_inv _ _ _ _ _ D) as [(ts & s1 & r1 & D1 & _)|[D1 _]]; inversion D1; subst; eexists; eassumption. }
  destruct X as [r0 D0]. destruct r0 as [ts rest| |m rest].
  - right. right. split; [exists ts, rest; exact D0|]. exact (peg_det _ _ _ _ D _ (body_hit s ts rest D0)).
  - assert (M : misses G n s) by (exists PFail; split; [exact D0|exact I]). destruct s as [|c s].
    + right. left. split; [exact M|]. split; [reflexivity|]. exact (peg_det _ _ _ _ D _ (body_end M)).
    + left. split; [exact M|]. exists c, s. split; [reflexivity|]. exact (peg_det _ _ _ _ D _ (body_miss c s M)).
  - assert (M : misses G n s) by (exists (PAbort m rest); split; [exact D0|exact I]). destruct s as [|c s].
    + right. left. split; [exact M|]. split; [reflexivity|]. exact (peg_det _ _ _ _ D _ (body_end M)).
    + left. split; [exact M|]. exists c, s. split; [reflexivity|]. exact (peg_det _ _ _ _ D _ (body_miss c s M)).
Qed.

Definition stays (u v : str) : Prop := forall a b, u = a ++ b -> b <> [] -> misses G n (b ++ v).

Lemma stays_cons : forall c u v, stays (c :: u) v <-> misses G n (c :: u ++ v) /\ stays u v.
Proof.
  intros c u v. split.
  - intro H. split; [exact (H [] (c :: u) eq_refl ltac:(discriminate))|]. intros a b E N. apply (H (c :: a) b); [rewrite E; reflexivity|exact N].
  - intros [M H] a b E N. destruct a as [|x a]; [cbn in E; subst b; exact M|]. injection E as <- E. exact (H a b E N).
Qed.

Lemma loop_go : forall u v r, stays u v -> peg G loop v r -> peg G loop (u ++ v) (prepend (by_chars u) r).
Proof.
  induction u as [|c u IH]; intros v r H D.
  - cbn. destruct r; exact D.
  - apply stays_cons in H. destruct H as [M H]. cbn [app by_chars map].
    replace (prepend (Val [c] :: map (fun c => Val [c]) u) r) with (prepend [Val [c]] (prepend (by_chars u) r)) by (destruct r; reflexivity).
    apply (peg_rep_more G body 0 None _ [Val [c]] (u ++ v)); [discriminate|exact (body_miss c (u ++ v) M)|exact (IH v r H D)].
Qed.
Lemma loop_at : forall v, (exists ts rest, peg G N_ v (PMatch ts rest)) \/ (v = [] /\ misses G n []) -> peg G loop v (PMatch [] v).
Proof.
  intros v [(ts & rest & D)|[-> M]]; (apply peg_rep_done; [discriminate|]); [exact (body_hit v ts rest D)|exact (body_end M)].
Qed.
Lemma loop_back : forall e s r, peg G e s r -> e = loop ->
  exists u v, s = u ++ v /\ stays u v /\ r = PMatch (by_chars u) v /\ ((exists ts rest, peg G N_ v (PMatch ts rest)) \/ (v = [] /\ misses G n [])).
Proof.
  induction 1 as [| | | | | | | | | | | | | | | | | |e mn mx s ts s1 r MX D1 _ D2 IH|e mx s MX D _|e mn mx s MX L D _|e mn mx s m rest MX D _| |]; intro E; try discriminate; injection E as -> ?; subst.
  - destruct (IH eq_refl) as (u & v & -> & H & -> & W). destruct (body_inv _ _ D1) as [(M & c & s' & -> & X)|[(_ & _ & X)|[_ X]]]; try discriminate. injection X as -> <-.
    exists (c :: u), v. split; [reflexivity|]. split; [apply stays_cons; split; assumption|]. split; [reflexivity|exact W].
  - exists [], s. split; [reflexivity|]. split; [intros a b E N; symmetry in E; apply app_eq_nil in E; destruct E as [_ ->]; destruct (N eq_refl)|]. split; [reflexivity|].
    destruct (body_inv _ _ D) as [(_ & c & s' & _ & X)|[(M & -> & _)|[W _]]]; [discriminate|right; split; [reflexivity|exact M]|left; exact W].
  - lia.
  - exfalso. destruct (body_inv _ _ D) as [(_ & c & s' & _ & X)|[(_ & _ & X)|[_ X]]]; discriminate.
Qed.

Notation whole_ := (And [loop; N_; Repeat dot_ 0 None]).

Lemma dots : forall s, peg G (Repeat dot_ 0 None) s (PMatch (by_chars s) []).
Proof.
  induction s as [|c s IH]; [apply peg_rep_done; [discriminate|apply peg_dot_fail]|].
  exact (peg_rep_more G dot_ 0 None _ [Val [c]] s (PMatch (by_chars s) []) ltac:(discriminate) (peg_dot_ok G c s) IH).
Qed.
Lemma dots_inv : forall s r, peg G (Repeat dot_ 0 None) s r -> r = PMatch (by_chars s) [].
Proof. intros s r D. exact (peg_det _ _ _ _ D _ (dots s)). Qed.

Lemma find_hit : forall s u ks rest, first_match G n s u ks rest -> peg G whole_ s (PMatch (by_chars u ++ Rule n ks :: by_chars rest) []).
Proof.
  intros s u ks rest (v & -> & H & D).
  refine (peg_and_cons G _ _ _ (by_chars u) v (PMatch (Rule n ks :: by_chars rest) []) _ _).
  - pose proof (loop_go u v (PMatch [] v) H (loop_at v (or_introl (ex_intro _ _ (ex_intro _ _ D))))) as X. cbn in X. rewrite app_nil_r in X. exact X.
  - refine (peg_and_cons G _ _ _ [Rule n ks] rest (PMatch (by_chars rest) []) D _). rewrite <- (app_nil_r (by_chars rest)).
    exact (peg_and_cons G _ _ _ (by_chars rest) [] (PMatch [] []) (dots rest) (peg_and_nil G [])).
Qed.
Lemma find_none : forall s r, never_matches G n s -> peg G N_ [] r -> stops r -> peg G whole_ s r.
Proof.
  intros s r H D St. assert (X : peg G (And [N_; Repeat dot_ 0 None]) [] r) by (apply peg_and_stop; assumption).
  assert (L : peg G loop s (PMatch (by_chars s) [])).
  { pose proof (loop_go s [] (PMatch [] [])) as Y. rewrite app_nil_r in Y. cbn in Y. rewrite app_nil_r in Y. apply Y.
    - intros a b E N. rewrite app_nil_r. exact (H a b E).
    - apply loop_at. right. split; [reflexivity|]. apply (H s []). rewrite app_nil_r. reflexivity. }
  pose proof (peg_and_cons G _ _ _ _ _ r L X) as Y. destruct r; [destruct St| |]; exact Y.
Qed.
Lemma find_back : forall s r, peg G whole_ s r ->
  (exists u ks rest, first_match G n s u ks rest /\ r = PMatch (by_chars u ++ Rule n ks :: by_chars rest) []) \/ (never_matches G n s /\ peg G N_ [] r /\ stops r).
Proof.
  intros s r D. assert (X : exists r0, peg G loop s r0).
  { destruct (and_cons_inv _ _ _ _ _ D) as [(ts & s1 & r1 & D1 & _)|[D1 _]]; eexists; exact D1. }
  destruct X as [r0 L]. destruct (loop_back _ _ _ L eq_refl) as (u & v & -> & H & E & [(ts & rest & W)|[-> M]]).
  - destruct (name_shape _ _ _ _ _ W) as [ks ->]. left. exists u, ks, rest. assert (F : first_match G n (u ++ v) u ks rest) by (exists v; repeat split; assumption).
    split; [exact F|]. exact (peg_det _ _ _ _ D _ (find_hit _ _ _ _ F)).
  - right. destruct M as (r1 & D1 & St). assert (NM : never_matches G n (u ++ [])).
    { rewrite app_nil_r. intros a b ->. destruct b as [|c b]; [exists r1; split; assumption|]. specialize (H a (c :: b) eq_refl ltac:(discriminate)). rewrite app_nil_r in H. exact H. }
    split; [exact NM|]. pose proof (peg_det _ _ _ _ D _ (find_none _ _ NM D1 St)) as ->. split; assumption.
Qed.
End Until.

Section Find.
Variable rs : rules.
Variable n : str.
Hypothesis SR : sane_rules rs.
Hypothesis MU : main_unused rs [ref_rule n].
Notation E_ := (And [rep0 (And [Not (ref_rule n); dot_]) 0; ref_rule n; rep0 dot_ 0]).

Lemma n_main : n <> main.
Proof. intros ->. apply (Forall_inv (proj2 MU)). constructor. Qed.
Lemma f_ref : ~ has_ref main E_.
Proof.
  intro H. inversion H as [|y es J X| | |]; subst. destruct J as [<-|[<-|[<-|[]]]].
  - inversion X as [| | | |y mn mx Y]; subst. inversion Y as [|y es K Z| | |]; subst. destruct K as [<-|[<-|[]]]; [|inversion Z].
    inversion Z as [| | |y U|]; subst. exact (Forall_inv (proj2 MU) U).
  - exact (Forall_inv (proj2 MU) X).
  - inversion X as [| | | |y mn mx Y]; subst. inversion Y.
Qed.
Lemma f_sane : sane E_.
Proof. cbn. repeat split. Qed.
Lemma f_unused : main_unused rs [E_; E_].
Proof. split; [exact (proj1 MU)|]. repeat constructor; exact f_ref. Qed.

Let G := grammar_of (find_rules rs n).
Let G0 := grammar_of rs.

Lemma f_inward : forall s r, peg G (RuleName n) s r <-> peg G0 (RuleName n) s r.
Proof.
  assert (AG : forall m, m <> main -> G m = G0 m) by (intros m N; unfold G, grammar_of, find_rules; apply get_other; exact N).
  assert (NR : ~ has_ref main (RuleName n)) by (exact (Forall_inv (proj2 MU))).
  intros s r. split; intro D.
  - refine (peg_agree G G0 AG _ _ _ _ D NR). intros m e N E. rewrite (AG m N) in E. exact (proj1 MU m e N E).
  - refine (peg_agree G0 G (fun m N => eq_sym (AG m N)) _ _ _ _ D NR). intros m e N E. exact (proj1 MU m e N E).
Qed.
Lemma m_inward : forall s, misses G n s <-> misses G0 n s.
Proof. intro s. unfold misses. split; intros (r & D & St); exists r; (split; [apply f_inward; exact D|exact St]). Qed.
Lemma fm_inward : forall s u ks rest, first_match G n s u ks rest <-> first_match G0 n s u ks rest.
Proof.
  intros s u ks rest. unfold first_match. split; intros (v & E & H & D); exists v; (split; [exact E|]); (split; [intros a b X N; apply m_inward; exact (H a b X N)|apply f_inward; exact D]).
Qed.
Lemma nm_inward : forall s, never_matches G n s <-> never_matches G0 n s.
Proof. intro s. unfold never_matches. split; intros H a b E; apply m_inward; exact (H a b E). Qed.

Lemma find_ok : forall s, ascii s -> forall debug ast, (exists fuel, parse_with_debug fuel s (find_rules rs n) debug = Ok ast) <->
  exists u ks rest, first_match G0 n s u ks rest /\ ast = Rule main (by_chars u ++ Rule n ks :: by_chars rest).
Proof.
  intros s A debug ast. rewrite (parse_accepts_iff s _ debug (with_sane rs E_ SR f_sane) A ast). split.
  - intro D. destruct (peg_main_shape _ _ _ _ D) as (e' & ts & E & Y & D'). unfold find_rules in E. rewrite get_main in E. injection E as <-. injection Y as ->.
    destruct (find_back _ _ _ _ D') as [(u & ks & rest & F & X)|(_ & _ & St)]; [|destruct St]. injection X as ->. exists u, ks, rest. split; [apply fm_inward; exact F|reflexivity].
  - intros (u & ks & rest & F & ->). apply fm_inward in F. refine (peg_rule _ main E_ s (PMatch _ []) _ (find_hit _ _ _ _ _ _ F)). exact (get_main rs E_).
Qed.
Lemma find_finishes : forall s, ascii s -> finishes (find_rules rs n) s <-> (exists u ks rest, first_match G0 n s u ks rest) \/ never_matches G0 n s.
Proof.
  intros s A. unfold find_rules. rewrite (with_finishes rs E_ E_ s SR f_unused A E_ E_ f_sane f_ref). split.
  - intros [r D]. destruct (find_back _ _ _ _ D) as [(u & ks & rest & F & _)|(N & _)].
    + left. exists u, ks, rest. apply fm_inward. exact F.
    + right. apply nm_inward. exact N.
  - intros [(u & ks & rest & F)|N]; [apply fm_inward in F; eexists; exact (find_hit _ _ _ _ _ _ F)|]. apply nm_inward in N.
    destruct (N s []) as (r & D & St); [rewrite app_nil_r; reflexivity|]. exists r. exact (find_none _ _ _ _ N D St).
Qed.
Lemma find_complains : forall s m k, ascii s -> complains (find_rules rs n) s m k <-> never_matches G0 n s /\ (exists rest, peg G0 (RuleName n) [] (PAbort m rest)) /\ k = length s.
Proof.
  intros s m k A. unfold complains. rewrite (parse_abort_iff s _ m k (with_sane rs E_ SR f_sane) A). split.
  - intros (rest & D & K). unfold peg_main in D. inversion D as [| | | | | | | | | | | | | | | | | | | | | |n0 e' s' r' E D' H1 H2 H3|n0 s' E]; subst; unfold grammar_of, find_rules in E; rewrite get_main in E; [|discriminate].
    injection E as <-. destruct r' as [ts x| |m' x]; try discriminate. cbn in H3. injection H3 as -> ->.
    destruct (find_back _ _ _ _ D') as [(u & ks & x & _ & X)|(N & X & _)]; [discriminate|]. split; [apply nm_inward; exact N|]. split; [exists rest; apply f_inward; exact X|].
    pose proof (abort_shorter _ _ _ _ _ X) as L. cbn in L. lia.
  - intros (N & (rest & X) & ->). pose proof (abort_shorter _ _ _ _ _ X) as L. cbn in L. exists rest. split; [|lia]. apply nm_inward in N. apply f_inward in X.
    refine (peg_rule _ main E_ s (PAbort m rest) (get_main rs E_) (find_none _ _ _ _ N X Logic.I)).
Qed.
Lemma find_rejects : forall s debug, ascii s -> (exists fuel er, parse_with_debug fuel s (find_rules rs n) debug = Err er /\ e_priority er = Normal) <->
  never_matches G0 n s /\ peg G0 (RuleName n) [] PFail.
Proof.
  intros s debug A. assert (SF : sane_rules (find_rules rs n)) by exact (with_sane rs E_ SR f_sane). split.
  - intros (fuel & er & H & P). pose proof (parse_sound fuel s _ debug SF) as X. rewrite H in X. rewrite P in X. destruct X as [_ X].
    assert (Y : exists r, peg_main (find_rules rs n) s r /\ (r = PFail \/ exists ts rest, r = PMatch ts rest /\ rest <> [])).
    { destruct X as [X|(ts & rest & X & Z)]; [exists PFail; split; [exact X|left; reflexivity]|eexists; split; [exact X|right; exists ts, rest; split; [reflexivity|destruct Z as [Z|Z]; [exact Z|destruct (Z A)]]]]. }
    destruct Y as (r & D & Y). unfold peg_main in D. inversion D as [| | | | | | | | | | | | | | | | | | | | | |n0 e' s' r' E D' H1 H2 H3|n0 s' E]; subst; unfold grammar_of, find_rules in E; rewrite get_main in E; [|discriminate].
    injection E as <-. destruct (find_back _ _ _ _ D') as [(u & ks & x & _ & Z)|(N & Z & St)].
    + subst r'. destruct Y as [Y|(ts & rest & Y & NE)]; [discriminate|]. cbn in Y. injection Y as _ <-. destruct (NE eq_refl).
    + destruct Y as [Y|(ts & rest & Y & NE)]; [|destruct r'; [destruct St|discriminate|discriminate]]. destruct r'; try discriminate. split; [apply nm_inward; exact N|apply f_inward; exact Z].
  - intros [N Z]. apply nm_inward in N. apply f_inward in Z.
    assert (M : peg_main (find_rules rs n) s PFail) by exact (peg_rule _ main E_ s PFail (get_main rs E_) (find_none _ _ _ _ N Z Logic.I)).
    destruct (proj2 (parse_terminates_iff s _ debug SF A) (ex_intro _ _ M)) as [fuel F]. pose proof (parse_sound fuel s _ debug SF) as X.
    destruct (parse_with_debug fuel s (find_rules rs n) debug) as [t|er| |] eqn:E; [| |destruct (X A)|destruct (F eq_refl)].
    + destruct X as [_ X]. pose proof (peg_det _ _ _ _ M _ X). discriminate.
    + exists fuel, er. split; [exact E|]. destruct (e_priority er); [reflexivity|]. destruct X as [_ X]. destruct X as (rest & X & _). pose proof (peg_det _ _ _ _ M _ X). discriminate.
Qed.
End Find.

Section Scan.
Variable rs : rules.
Variables n o : str.
Hypothesis SR : sane_rules rs.
Hypothesis MU : main_unused rs (map ref_rule [n; o]).
Hypothesis OD : rules_get rs o = Some dot_.
Let G0 := grammar_of rs.

Lemma o_char : forall c s, peg G0 (RuleName o) (c :: s) (PMatch [Rule o [Val [c]]] s).
Proof. intros c s. exact (peg_rule G0 o dot_ (c :: s) (PMatch [Val [c]] s) OD (peg_dot_ok G0 c s)). Qed.
Lemma o_end : peg G0 (RuleName o) [] PFail.
Proof. exact (peg_rule G0 o dot_ [] PFail OD (peg_dot_fail G0)). Qed.

Lemma picks_n : forall s r, peg G0 (RuleName n) s r -> r <> PFail -> picks G0 [n; o] s n r.
Proof. intros s r D N. exists [], [o]. split; [reflexivity|]. split; [intros m []|]. split; assumption. Qed.
Lemma picks_o : forall c s, peg G0 (RuleName n) (c :: s) PFail -> picks G0 [n; o] (c :: s) o (PMatch [Rule o [Val [c]]] s).
Proof. intros c s D. exists [n], []. split; [reflexivity|]. split; [intros m [<-|[]]; exact D|]. split; [apply o_char|discriminate]. Qed.

Definition tok (p : part) : token := match p with Hit ks w => Token n ks w | Between c => Token o [Val [c]] [c] end.
Lemma scans_lexes : forall s ps, scans G0 n s ps -> lexes G0 [n; o] s (map tok ps) [] /\ no_token G0 [n; o] [].
Proof.
  induction 1 as [D|ks w s ps D W _ [IH N]|c s ps D _ [IH N]].
  - split; [apply lx_stop|]. intros m [<-|[<-|[]]]; [exact D|exact o_end].
  - split; [|exact N]. apply lx_next; [apply picks_n; [exact D|discriminate]|exact W|exact IH].
  - split; [|exact N]. apply (lx_next G0 [n; o] o [Val [c]] [c] s); [exact (picks_o c s D)|discriminate|exact IH].
Qed.
Lemma lexes_scans : forall s toks rest, lexes G0 [n; o] s toks rest -> rest = [] -> no_token G0 [n; o] [] -> exists ps, scans G0 n s ps /\ toks = map tok ps.
Proof.
  induction 1 as [s|m ks w s toks rest P W _ IH]; intros E N.
  - subst s. exists []. split; [|reflexivity]. apply sc_end. apply N. left. reflexivity.
  - destruct (IH E N) as (ps & S & ->). destruct P as (a & b & L & F & D & _). destruct a as [|x [|y a]]; cbn in L.
    + injection L as <- _. exists (Hit ks w :: ps). split; [apply sc_hit; assumption|reflexivity].
    + injection L as <- <- _. destruct w as [|c w]; [destruct (W eq_refl)|]. cbn [app] in D, F. pose proof (peg_det _ _ _ _ D _ (o_char c (w ++ s))) as X. injection X as -> X.
      rewrite <- (app_nil_l s) in X at 1. apply app_inv_tail in X. subst w. exists (Between c :: ps). split; [|reflexivity]. apply sc_char; [|exact S]. apply F. left. reflexivity.
    + injection L as _ _ L. destruct a; discriminate L.
Qed.
Lemma tok_nodes : forall ps, map token_node (map tok ps) = map (part_node n o) ps.
Proof. intro ps. rewrite map_map. apply map_ext. intros [ks w|c]; reflexivity. Qed.

Lemma scan_ok : forall s debug ast, ascii s -> (exists fuel, parse_with_debug fuel s (scan_rules rs n o) debug = Ok ast) <->
  exists ps, scans G0 n s ps /\ ast = Rule main (map (part_node n o) ps).
Proof.
  intros s debug ast A. unfold scan_rules. rewrite (lexer_accepts rs [n; o] SR MU s debug ast A). split.
  - intros (toks & H & N & ->). destruct (lexes_scans _ _ _ H eq_refl N) as (ps & S & ->). exists ps. split; [exact S|]. rewrite tok_nodes. reflexivity.
  - intros (ps & S & ->). destruct (scans_lexes _ _ S) as [H N]. exists (map tok ps). split; [exact H|]. split; [exact N|]. rewrite tok_nodes. reflexivity.
Qed.
Lemma scan_rejects : forall s debug fuel er, ascii s -> parse_with_debug fuel s (scan_rules rs n o) debug = Err er -> e_priority er = Critical.
Proof.
  intros s debug fuel er A H. destruct (e_priority er) eqn:P; [|reflexivity]. exfalso.
  destruct (proj1 (lexer_rejects rs [n; o] SR MU s debug A) (ex_intro _ fuel (ex_intro _ er (conj H P)))) as (toks & rest & _ & N & Z).
  destruct rest as [|c rest]; [exact (Z eq_refl)|]. pose proof (N o (or_intror (or_introl eq_refl))) as X. pose proof (peg_det _ _ _ _ X _ (o_char c rest)). discriminate.
Qed.
Lemma scans_all : forall s, (forall a v, s = a ++ v -> peg G0 (RuleName n) v PFail \/ exists w ks rest, v = w ++ rest /\ w <> [] /\ peg G0 (RuleName n) v (PMatch [Rule n ks] rest)) ->
  exists ps, scans G0 n s ps.
Proof.
  intro s. remember (length s) as k eqn:K. assert (L : length s <= k) by lia. clear K. revert s L. induction k as [|k IH]; intros s L H.
  - destruct s; [|cbn in L; lia]. destruct (H [] [] eq_refl) as [D|(w & ks & rest & E & W & _)]; [exists []; apply sc_end; exact D|]. symmetry in E. apply app_eq_nil in E. destruct E as [-> _]. destruct (W eq_refl).
  - destruct (H [] s eq_refl) as [D|(w & ks & rest & -> & W & D)].
    + destruct s as [|c s]; [exists []; apply sc_end; exact D|]. cbn in L. destruct (IH s) as [ps S]; [lia| |exists (Between c :: ps); apply sc_char; assumption].
      intros a v ->. exact (H (c :: a) v eq_refl).
    + destruct w as [|c w]; [destruct (W eq_refl)|]. cbn in L. rewrite app_length in L. destruct (IH rest) as [ps S]; [lia| |exists (Hit ks (c :: w) :: ps); apply sc_hit; assumption].
      intros a v ->. apply (H ((c :: w) ++ a) v). rewrite app_assoc. reflexivity.
Qed.
End Scan.

Lemma scans_det : forall G n s ps, scans G n s ps -> forall qs, scans G n s qs -> ps = qs.
Proof.
  intros G n s ps. induction 1 as [D|ks w s ps D W _ IH|c s ps D _ IH]; intros qs Q.
  - remember ([] : str) as z eqn:Z in Q. destruct Q as [D'|ks' w' s' ps' D' W' Q'|c s' ps' D' Q']; [reflexivity| |discriminate].
    apply app_eq_nil in Z. destruct Z as [-> _]. destruct (W' eq_refl).
  - remember (w ++ s) as z eqn:Z in Q. destruct Q as [D'|ks' w' s' ps' D' W' Q'|c s' ps' D' Q'].
    + symmetry in Z. apply app_eq_nil in Z. destruct Z as [-> _]. destruct (W eq_refl).
    + rewrite Z in D'. pose proof (peg_det _ _ _ _ D _ D') as X. injection X as -> ->. apply app_inv_tail in Z. subst w'. rewrite (IH _ Q'). reflexivity.
    + rewrite Z in D'. pose proof (peg_det _ _ _ _ D _ D') as X. discriminate.
  - remember (c :: s) as z eqn:Z in Q. destruct Q as [D'|ks' w' s' ps' D' W' Q'|c' s' ps' D' Q']; [discriminate| |].
    + rewrite Z in D'. pose proof (peg_det _ _ _ _ D _ D') as X. discriminate.
    + injection Z as -> ->. rewrite (IH _ Q'). reflexivity.
Qed.
Lemma scans_text : forall G n s ps, scans G n s ps -> flat_map part_text ps = s.
Proof. induction 1 as [D|ks w s ps D W _ IH|c s ps D _ IH]; cbn; [reflexivity| |]; rewrite IH; reflexivity. Qed.

Lemma prune_clean : forall o l, ~ In o (flat_map names l) -> prune_list [o] l = l.
Proof.
  intros o. induction l as [|v l IH|l IH|n k l IHk IH] using forest_ind; intro H; unfold prune_list; cbn [flat_map node2prune app].
  - reflexivity.
  - f_equal. exact (IH H).
  - f_equal. exact (IH H).
  - cbn in H. assert (N : name_in [o] n = false) by (apply name_in_false; intros [->|[]]; apply H; left; reflexivity). rewrite N. cbn [app]. rewrite prune_unfold.
    f_equal; [f_equal; apply IHk; intro X; apply H; right; apply in_or_app; left; exact X|apply IH; intro X; apply H; right; apply in_or_app; right; exact X].
Qed.
Lemma prune_between : forall n o ps, n <> o -> (forall ks w, In (Hit ks w) ps -> ~ In o (flat_map names ks)) ->
  prune [o] (Rule main (map (part_node n o) ps)) = Rule main (hit_nodes n ps).
Proof.
  intros n o ps N H. rewrite prune_unfold. f_equal. induction ps as [|[ks w|c] ps IH]; [reflexivity| |].
  - unfold prune_list, hit_nodes. cbn [map part_node flat_map node2prune]. assert (E : name_in [o] n = false) by (apply name_in_false; intros [X|[]]; apply N; symmetry; exact X).
    rewrite E. cbn [app]. rewrite prune_unfold, (prune_clean o ks (H ks w (or_introl eq_refl))). f_equal. apply IH. intros k v I. exact (H k v (or_intror I)).
  - unfold prune_list, hit_nodes. cbn [map part_node flat_map node2prune]. assert (E : name_in [o] o = true) by (apply name_in_spec; left; reflexivity).
    rewrite E. cbn [app]. apply IH. intros k v I. exact (H k v (or_intror I)).
Qed.
Lemma prune_hits : forall n o ps, n <> o -> prune [n] (Rule main (map (part_node n o) ps)) = Rule main (map (fun c => Rule o [Val [c]]) (text_between ps)).
Proof.
  intros n o ps N. rewrite prune_unfold. f_equal. induction ps as [|[ks w|c] ps IH]; [reflexivity| |]; unfold prune_list, text_between; cbn [map part_node flat_map node2prune].
  - assert (E : name_in [n] n = true) by (apply name_in_spec; left; reflexivity). rewrite E. exact IH.
  - assert (E : name_in [n] o = false) by (apply name_in_false; intros [X|[]]; apply N; exact X). rewrite E. cbn [app map]. f_equal. exact IH.
Qed.
