(** Proofs about the parsing engine: strings and positions, state invariant, fuel, repetition bounds. *)
From Verif Require Import Base ModelAst ModelParser SpecPeg SpecPos.

(* ------------------------------------------------------------------------------------------- *)
(** * Strings *)

Lemma str_eqb_refl : forall a, str_eqb a a = true.
Proof. induction a as [|x a IH]; cbn; [reflexivity|]. rewrite N.eqb_refl, IH. reflexivity. Qed.

Lemma str_eqb_eq : forall a b, str_eqb a b = true <-> a = b.
Proof.
  induction a as [|x a IH]; destruct b as [|y b]; cbn; split; intro H; try easy.
  - apply andb_true_iff in H. destruct H as [H1 H2]. apply N.eqb_eq in H1. apply IH in H2. congruence.
  - inversion H; subst. rewrite N.eqb_refl, str_eqb_refl. reflexivity.
Qed.

Lemma str_eqb_neq : forall a b, str_eqb a b = false <-> a <> b.
Proof.
  intros a b. split; intro H.
  - intro E. apply str_eqb_eq in E. congruence.
  - destruct (str_eqb a b) eqn:E; [|reflexivity]. apply str_eqb_eq in E. contradiction.
Qed.

Lemma str_eqb_sym : forall a b, str_eqb a b = str_eqb b a.
Proof.
  intros a b. destruct (str_eqb b a) eqn:E.
  - apply str_eqb_eq in E. subst. apply str_eqb_refl.
  - apply str_eqb_neq in E. apply str_eqb_neq. congruence.
Qed.

Lemma str_dec : forall a b : str, {a = b} + {a <> b}.
Proof. decide equality. apply N.eq_dec. Qed.

Lemma utf8_len_ascii : forall c, ascii_char c -> utf8_len c = 1.
Proof. intros c H. unfold utf8_len. apply N.ltb_lt in H. rewrite H. reflexivity. Qed.

Lemma utf8_len_pos : forall c, 1 <= utf8_len c.
Proof. intros c. unfold utf8_len. repeat match goal with |- context [if ?b then _ else _] => destruct b end; lia. Qed.

Lemma utf8_len_big : forall c, ~ ascii_char c -> 2 <= utf8_len c.
Proof.
  intros c H. unfold utf8_len, ascii_char in *. destruct (c <? 128)%N eqn:E.
  - apply N.ltb_lt in E. contradiction.
  - repeat match goal with |- context [if ?b then _ else _] => destruct b end; lia.
Qed.

Lemma byte_len_app : forall a b, byte_len (a ++ b) = byte_len a + byte_len b.
Proof. induction a as [|c a IH]; intros b; cbn; [reflexivity|]. rewrite IH. lia. Qed.

Lemma byte_len_ascii : forall s, ascii s -> byte_len s = length s.
Proof.
  induction s as [|c s IH]; intro H; cbn; [reflexivity|]. inversion H; subst.
  rewrite utf8_len_ascii, IH by assumption. reflexivity.
Qed.

Lemma byte_len_ge : forall s, length s <= byte_len s.
Proof. induction s as [|c s IH]; cbn; [lia|]. pose proof (utf8_len_pos c). lia. Qed.

Lemma byte_len_eq_ascii : forall s, byte_len s <= length s -> ascii s.
Proof.
  induction s as [|c s IH]; intro H; constructor.
  - destruct (N.ltb_spec c 128) as [L|L]; [exact L|]. exfalso. cbn in H.
    assert (2 <= utf8_len c) by (apply utf8_len_big; unfold ascii_char; lia).
    pose proof (byte_len_ge s). lia.
  - apply IH. cbn in H. pose proof (utf8_len_pos c). lia.
Qed.

Lemma drop_bytes_ascii : forall a b, ascii a -> drop_bytes (length a) (a ++ b) = Some b.
Proof.
  induction a as [|c a IH]; intros b H; [destruct b; reflexivity|]. inversion H; subst.
  cbn [length app drop_bytes]. rewrite utf8_len_ascii by assumption. cbn [Nat.leb].
  replace (S (length a) - 1) with (length a) by lia. apply IH; assumption.
Qed.

Lemma take_bytes_ascii : forall a b, ascii a -> take_bytes (length a) (a ++ b) = Some a.
Proof.
  induction a as [|c a IH]; intros b H; [destruct b; reflexivity|]. inversion H; subst.
  cbn [length app take_bytes]. rewrite utf8_len_ascii by assumption. cbn [Nat.leb].
  replace (S (length a) - 1) with (length a) by lia. rewrite IH by assumption. reflexivity.
Qed.

Lemma ascii_app : forall a b, ascii (a ++ b) <-> ascii a /\ ascii b.
Proof. intros. apply Forall_app. Qed.

Lemma slice_ascii : forall a b c, ascii (a ++ b) -> slice (a ++ b ++ c) (length a) (length a + length b) = Some b.
Proof.
  intros a b c H. apply ascii_app in H. destruct H as [Ha Hb]. unfold slice.
  assert (L : length a <=? length a + length b = true) by (apply Nat.leb_le; lia).
  rewrite L, drop_bytes_ascii by assumption.
  replace (length a + length b - length a) with (length b) by lia. apply take_bytes_ascii; assumption.
Qed.

(* ------------------------------------------------------------------------------------------- *)
(** * Positions *)

Lemma up_to_app_split : forall f s, exists r, s = up_to f s ++ r.
Proof.
  intros f s. induction s as [|c s IH]; cbn; [exists []; reflexivity|].
  destruct (f c); [exists (c :: s); reflexivity|]. destruct IH as [r IH]. exists r. cbn. congruence.
Qed.

Lemma take_until_eol : forall s, take_while (fun ch => negb (N.eqb ch ch_nl) && negb (N.eqb ch ch_cr)) s = until_eol s.
Proof.
  induction s as [|c s IH]; [reflexivity|]. unfold until_eol in *. cbn [take_while up_to]. unfold is_eol at 1. rewrite IH.
  destruct (N.eqb c ch_nl), (N.eqb c ch_cr); reflexivity.
Qed.

Lemma up_to_length : forall f s, length (up_to f s) <= length s.
Proof. intros f s. induction s as [|c s IH]; cbn; [lia|]. destruct (f c); cbn; lia. Qed.

Lemma tail_after_suffix : forall f s, exists h, s = h ++ tail_after f s.
Proof.
  intros f s. unfold tail_after. destruct (up_to_app_split f (rev s)) as [r H].
  exists (rev r). rewrite <- rev_app_distr, <- H, rev_involutive. reflexivity.
Qed.

Lemma tail_after_length : forall f s, length (tail_after f s) <= length s.
Proof.
  intros. unfold tail_after. rewrite rev_length. etransitivity; [apply up_to_length|].
  rewrite rev_length. lia.
Qed.

Lemma tail_after_snoc : forall f s c,
  tail_after f (s ++ [c]) = if f c then [] else tail_after f s ++ [c].
Proof.
  intros f s c. unfold tail_after. rewrite rev_app_distr. cbn. destruct (f c); reflexivity.
Qed.

Definition next_pos (p : position) (ch : char) : position :=
  if N.eqb ch ch_nl then Pos (pn p + 1) (prow p + 1) 0 (pn p + 1)
  else if N.eqb ch ch_cr then Pos (pn p + 1) (prow p) 0 (pstart_line p)
  else Pos (pn p + 1) (prow p) (pcol p + 1) (pstart_line p).

Lemma pos_of_snoc : forall pre c, pos_of (pre ++ [c]) = next_pos (pos_of pre) c.
Proof.
  intros pre c. pose proof (tail_after_length is_nl pre) as TL.
  unfold pos_of, next_pos. cbn [pn prow pcol pstart_line].
  rewrite app_length, filter_app, app_length. cbn [length filter].
  rewrite !tail_after_snoc. change (is_nl c) with (N.eqb c ch_nl). change (is_eol c) with (N.eqb c ch_nl || N.eqb c ch_cr).
  destruct (N.eqb c ch_nl) eqn:E1; cbn [orb length].
  - f_equal; lia.
  - destruct (N.eqb c ch_cr) eqn:E2; cbn [length].
    + rewrite app_length. cbn [length]. f_equal; lia.
    + rewrite !app_length. cbn [length]. f_equal; lia.
Qed.

Lemma pos_of_nil : pos_of [] = pos_init.
Proof. reflexivity. Qed.

(* ------------------------------------------------------------------------------------------- *)
(** * State invariant *)

(** The error is placed after a prefix of [t] of at least [lo] chars. *)
Definition err_ok (t : str) (lo : nat) (er : perror) : Prop :=
  exists pre post, t = pre ++ post /\ lo <= length pre /\ e_pos er = pos_of pre /\
    e_line_after er = until_eol post /\ (ascii t -> e_line_before er = tail_after is_nl pre).

Definition inv (st : status) : Prop :=
  (exists pre, text2parse st = pre ++ it_parsing st /\ st_pos st = pos_of pre) /\
  (forall er, potential_error st = Some er -> err_ok (text2parse st) 0 er /\ e_priority er = Normal).

(** [st'] is [st] after consuming some chars. *)
Definition adv (st st' : status) : Prop :=
  text2parse st' = text2parse st /\ trace_rules st' = trace_rules st /\
  exists c, it_parsing st = c ++ it_parsing st'.

Lemma adv_refl : forall st, adv st st.
Proof. intro st. repeat split. exists []. reflexivity. Qed.

Lemma adv_trans : forall a b c, adv a b -> adv b c -> adv a c.
Proof.
  intros a b c (T1 & R1 & x & X) (T2 & R2 & y & Y). repeat split; try congruence.
  exists (x ++ y). rewrite X, Y, app_assoc. reflexivity.
Qed.

Lemma inv_pn : forall st, inv st -> pn (st_pos st) + length (it_parsing st) = length (text2parse st).
Proof. intros st [(pre & T & P) _]. rewrite T, P, app_length. reflexivity. Qed.

Lemma adv_pn : forall st st', inv st -> inv st' -> adv st st' -> pn (st_pos st) <= pn (st_pos st').
Proof.
  intros st st' I I' (T & _ & c & E). apply inv_pn in I. apply inv_pn in I'.
  rewrite T in I'. rewrite E, app_length in I. lia.
Qed.

Definition good {A} (st : status) (r : outcome perror (status * A)) : Prop :=
  match r with
  | Ok (st', _) => inv st' /\ adv st st'
  | Err er => err_ok (text2parse st) (pn (st_pos st)) er
  | Panic => ~ ascii (text2parse st)
  | Fuel => True
  end.

Lemma err_ok_weaken : forall t lo lo' er, lo' <= lo -> err_ok t lo er -> err_ok t lo' er.
Proof. intros t lo lo' er L (pre & post & A & B & C). exists pre, post. repeat split; try tauto; lia. Qed.

Lemma good_adv : forall A st st' (r : outcome perror (status * A)),
  inv st -> inv st' -> adv st st' -> good st' r -> good st r.
Proof.
  intros A st st' r I I' AD G. pose proof (adv_pn _ _ I I' AD) as L. destruct AD as (T & R & c & E).
  destruct r as [[s a]|er| |]; cbn in *.
  - destruct G as [G1 G2]. split; [exact G1|]. eapply adv_trans; [|exact G2]. repeat split; eauto.
  - rewrite T in G. eapply err_ok_weaken; eassumption.
  - rewrite T in G. exact G.
  - exact Logic.I.
Qed.

Lemma from_status_ok : forall st d p er,
  inv st -> from_status st d p = Some er ->
  err_ok (text2parse st) (pn (st_pos st)) er /\ e_priority er = p /\ e_descr er = d /\
  e_pos er = st_pos st /\ e_parsing_rules er = walking_rules st.
Proof.
  intros st d p er [(pre & T & P) _] H. unfold from_status in H.
  destruct (slice (text2parse st) (pstart_line (st_pos st)) (pn (st_pos st))) as [lb|] eqn:S; [|discriminate].
  injection H as H. subst er. cbn. repeat split. exists pre, (it_parsing st). repeat split; cbn; try assumption.
  - rewrite P. cbn. lia.
  - apply take_until_eol.
  - intro As. destruct (tail_after_suffix is_nl pre) as [h Hh].
    assert (L : pstart_line (st_pos st) = length h).
    { rewrite P. cbn. rewrite Hh at 1. rewrite app_length. lia. }
    assert (L2 : pn (st_pos st) = length h + length (tail_after is_nl pre)).
    { rewrite P. cbn. rewrite Hh at 1. rewrite app_length. reflexivity. }
    rewrite L, L2, T in S. rewrite Hh in S at 1. rewrite <- app_assoc in S.
    rewrite slice_ascii in S; [congruence|]. rewrite <- Hh. rewrite T in As. apply ascii_app in As. tauto.
Qed.

Lemma from_status_ascii : forall st d p, inv st -> ascii (text2parse st) -> from_status st d p <> None.
Proof.
  intros st d p [(pre & T & P) _] As H. unfold from_status in H.
  destruct (slice (text2parse st) (pstart_line (st_pos st)) (pn (st_pos st))) as [lb|] eqn:S; [discriminate|].
  clear H. destruct (tail_after_suffix is_nl pre) as [h Hh].
  assert (L : pstart_line (st_pos st) = length h).
  { rewrite P. cbn. rewrite Hh at 1. rewrite app_length. lia. }
  assert (L2 : pn (st_pos st) = length h + length (tail_after is_nl pre)).
  { rewrite P. cbn. rewrite Hh at 1. rewrite app_length. reflexivity. }
  rewrite L, L2, T in S. rewrite Hh in S at 1. rewrite <- app_assoc in S.
  rewrite slice_ascii in S; [congruence|]. rewrite <- Hh. rewrite T in As. apply ascii_app in As. tauto.
Qed.

Lemma err_status_good : forall A st0 st d p,
  inv st0 -> inv st -> adv st0 st -> good st0 (@err_status (status * A) st d p).
Proof.
  intros A st0 st d p I0 I AD. apply (good_adv _ st0 st); try assumption. unfold err_status.
  destruct (from_status st d p) as [er|] eqn:F; cbn.
  - apply from_status_ok in F; [tauto|assumption].
  - intro As. apply (from_status_ascii st d p I As F).
Qed.

Lemma get_char_spec : forall st,
  inv st ->
  match get_char st with
  | inl (st', c) => inv st' /\ adv st st' /\ it_parsing st = c :: it_parsing st' /\
                    potential_error st' = potential_error st /\ walking_rules st' = walking_rules st
  | inr st' => st' = st /\ it_parsing st = []
  end.
Proof.
  intros st I. unfold get_char. destruct (it_parsing st) as [|c rest] eqn:E; [split; reflexivity|].
  destruct I as [(pre & T & P) Q]. split; [|split; [|cbn; repeat split]].
  - split; [|cbn; exact Q]. exists (pre ++ [c]). cbn. rewrite <- app_assoc. cbn. rewrite T, E. split; [reflexivity|].
    rewrite pos_of_snoc, P. unfold next_pos. cbn. reflexivity.
  - repeat split. cbn. exists [c]. exact E.
Qed.

Lemma parse_char_spec : forall st ch,
  inv st ->
  match parse_char st ch with
  | inl st' => inv st' /\ adv st st' /\ it_parsing st = ch :: it_parsing st' /\
               potential_error st' = potential_error st /\ walking_rules st' = walking_rules st
  | inr st' => inv st' /\ adv st st' /\ (forall r, it_parsing st <> ch :: r) /\
               potential_error st' = potential_error st /\ walking_rules st' = walking_rules st
  end.
Proof.
  intros st ch I. unfold parse_char. pose proof (get_char_spec st I) as H.
  destruct (get_char st) as [[st' c]|st'].
  - destruct H as (H1 & H2 & H3 & H4 & H5). destruct (N.eqb ch c) eqn:E.
    + apply N.eqb_eq in E. subst c. auto.
    + apply N.eqb_neq in E. split; [exact H1|]. split; [exact H2|].
      split; [intros r Hr; congruence|split; assumption].
  - destruct H as [-> H]. split; [exact I|]. split; [apply adv_refl|].
    split; [intros r Hr; congruence|split; reflexivity].
Qed.

(** Exact effect of an atom on the state, and its PEG meaning. *)
Definition same_side (st st' : status) : Prop :=
  potential_error st' = potential_error st /\ walking_rules st' = walking_rules st.

Lemma parse_literal_loop_spec : forall l chs st,
  inv st ->
  match parse_literal_loop l st chs with
  | Ok st' => inv st' /\ adv st st' /\ it_parsing st = chs ++ it_parsing st' /\ same_side st st'
  | Err er => err_ok (text2parse st) (pn (st_pos st)) er /\ e_priority er = Normal /\
              (forall r, it_parsing st <> chs ++ r)
  | Panic => ~ ascii (text2parse st)
  | Fuel => False
  end.
Proof.
  intros l chs. induction chs as [|ch chs IH]; intros st I; cbn [parse_literal_loop].
  - split; [exact I|]. split; [apply adv_refl|]. split; [reflexivity|split; reflexivity].
  - pose proof (parse_char_spec st ch I) as H. destruct (parse_char st ch) as [st'|st'].
    + destruct H as (I' & AD & E & S1 & S2). specialize (IH st' I').
      pose proof (adv_pn _ _ I I' AD) as L.
      destruct (parse_literal_loop l st' chs) as [st2|er| |]; try contradiction.
      * destruct IH as (J1 & J2 & J3 & J4 & J5). split; [exact J1|].
        split; [exact (adv_trans _ _ _ AD J2)|]. split; [rewrite E, J3; reflexivity|].
        split; congruence.
      * destruct AD as (T & _). destruct IH as (J1 & J2 & J3). split; [|split; [exact J2|]].
        -- rewrite T in J1. eapply err_ok_weaken; eassumption.
        -- intros r Hr. rewrite E in Hr. cbn in Hr. injection Hr as Hr. apply (J3 r Hr).
      * destruct AD as (T & _). rewrite T in IH. exact IH.
    + destruct H as (I' & AD & E & S1 & S2).
      pose proof (err_status_good unit st st' (s_ "expected literal: <" ++ l ++ s_ ">") Normal I I' AD) as G.
      unfold err_normal, err_status in *.
      destruct (from_status st' (s_ "expected literal: <" ++ l ++ s_ ">") Normal) as [er|] eqn:F; cbn in G; [|exact G].
      apply from_status_ok in F; [|assumption]. split; [exact G|]. split; [tauto|]. intros r Hr. apply (E (chs ++ r) Hr).
Qed.

Lemma match_char_iff : forall cs rs c, match_char cs rs c = true <-> in_class cs rs c.
Proof.
  intros cs rs c. unfold match_char, in_class. destruct (existsb (fun c0 => N.eqb c0 c) cs) eqn:E.
  - split; [intros _; left|reflexivity]. apply existsb_exists in E. destruct E as (x & H1 & H2).
    apply N.eqb_eq in H2. subst. exact H1.
  - split.
    + intro H. right. apply existsb_exists in H. destruct H as ([lo hi] & H1 & H2). cbn in H2.
      apply andb_true_iff in H2. destruct H2 as [A B]. apply N.leb_le in A. apply N.leb_le in B. exists lo, hi. auto.
    + intros [H|(lo & hi & H1 & H2 & H3)].
      * exfalso. assert (existsb (fun c0 => N.eqb c0 c) cs = true); [|congruence].
        apply existsb_exists. exists c. rewrite N.eqb_refl. auto.
      * apply existsb_exists. exists (lo, hi). split; [exact H1|]. cbn. apply andb_true_iff.
        split; apply N.leb_le; assumption.
Qed.

(** What an outcome of the engine means for the PEG semantics. *)
Definition sound (G : str -> option expr) (st : status) (e : expr) (r : result_expr) : Prop :=
  match r with
  | Ok (st', ts) => peg G e (it_parsing st) (PMatch ts (it_parsing st'))
  | Err er =>
      match e_priority er with
      | Normal => peg G e (it_parsing st) PFail
      | Critical => exists rest, peg G e (it_parsing st) (PAbort (e_descr er) rest) /\
                      pn (e_pos er) + length rest = length (text2parse st)
      end
  | _ => True
  end.

Lemma parse_atom_good : forall G st a,
  inv st ->
  match parse_atom st a with
  | Ok (st', t) => inv st' /\ adv st st' /\ same_side st st' /\
                   peg G (Simple a) (it_parsing st) (PMatch [t] (it_parsing st'))
  | Err er => err_ok (text2parse st) (pn (st_pos st)) er /\ sound G st (Simple a) (Err er)
  | Panic => ~ ascii (text2parse st)
  | Fuel => False
  end.
Proof.
  intros G st a I. destruct a as [l|cs rs|m| |]; cbn [parse_atom].
  - unfold parse_literal. pose proof (parse_literal_loop_spec l l st I) as H.
    destruct (parse_literal_loop l st l) as [st'|er| |]; cbn [bind]; try assumption.
    + destruct H as (H1 & H2 & H3 & H4). split; [|split; [|split]]; try assumption.
      rewrite H3. apply peg_lit_ok.
    + destruct H as (H1 & H2 & H3). split; [exact H1|]. cbn. rewrite H2. apply peg_lit_fail. exact H3.
  - unfold parse_match. pose proof (get_char_spec st I) as H. destruct (get_char st) as [[st' c]|st'].
    + destruct H as (I' & AD & E & S). destruct (match_char cs rs c) eqn:M.
      * split; [|split; [|split]]; try assumption. rewrite E. apply peg_class_ok. apply match_char_iff. exact M.
      * pose proof (err_status_good node st st' (s_ "match. expected " ++ cs ++ s_ " " ++ debug_ranges rs) Normal I I' AD) as G'.
        unfold err_normal, err_status in *.
        destruct (from_status st' _ Normal) as [er|] eqn:F; cbn in G'; [|exact G'].
        apply from_status_ok in F; [|assumption]. split; [exact G'|]. destruct F as (_ & F & _).
        unfold sound. rewrite F. apply peg_class_fail. intros c' r' E' H. apply match_char_iff in H. congruence.
    + destruct H as [-> E].
      pose proof (err_status_good node st st (s_ "match. expected " ++ cs ++ s_ " " ++ debug_ranges rs) Normal I I (adv_refl st)) as G'.
      unfold err_normal, err_status in *.
      destruct (from_status st _ Normal) as [er|] eqn:F; cbn in G'; [|exact G'].
      apply from_status_ok in F; [|assumption]. split; [exact G'|]. destruct F as (_ & F & _).
      unfold sound. rewrite F. apply peg_class_fail. intros c' r' E' H. congruence.
  - unfold parse_error. pose proof (err_status_good node st st m Critical I I (adv_refl st)) as G'.
    unfold err_status in *.
    destruct (from_status st m Critical) as [er|] eqn:F; cbn in G'; [|exact G'].
    apply from_status_ok in F; [|assumption]. split; [exact G'|]. destruct F as (_ & F & D & P & _).
    unfold sound. rewrite F, D, P. exists (it_parsing st). split; [apply peg_error|]. apply inv_pn. exact I.
  - unfold parse_dot. pose proof (get_char_spec st I) as H. destruct (get_char st) as [[st' c]|st'].
    + destruct H as (I' & AD & E & S). split; [|split; [|split]]; try assumption. rewrite E. apply peg_dot_ok.
    + destruct H as [-> E].
      pose proof (err_status_good node st st (s_ "dot") Normal I I (adv_refl st)) as G'.
      unfold err_normal, err_status in *.
      destruct (from_status st _ Normal) as [er|] eqn:F; cbn in G'; [|exact G'].
      apply from_status_ok in F; [|assumption]. split; [exact G'|]. destruct F as (_ & F & _).
      unfold sound. rewrite F, E. apply peg_dot_fail.
  - unfold parse_eof. pose proof (get_char_spec st I) as H. destruct (get_char st) as [[st' c]|st'].
    + destruct H as (I' & AD & E & S).
      pose proof (err_status_good node st st' (s_ "expected EOF") Normal I I' AD) as G'.
      unfold err_normal, err_status in *.
      destruct (from_status st' _ Normal) as [er|] eqn:F; cbn in G'; [|exact G'].
      apply from_status_ok in F; [|assumption]. split; [exact G'|]. destruct F as (_ & F & _).
      unfold sound. rewrite F, E. apply peg_eof_fail.
    + destruct H as [-> E]. split; [exact I|]. split; [apply adv_refl|]. split; [split; reflexivity|].
      rewrite E. apply peg_eof_ok.
Qed.
