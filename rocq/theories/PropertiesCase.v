(** Properties: rules that ignore the difference between some chars. *)
From Verif Require Import Base ModelAst ModelParser ModelCost SpecPeg SpecPos SpecApi SpecPower SpecSwap SpecCase.
From Verif Require Import ProofParser ProofEngine ProofApi ProofSwap ProofCase Examples.

(** * C103 rules that ignore case *)

(** Let [f] say how chars count, as [lower]. Rules where each literal ['if'] is exchanged for [[iI] [fF]], and each class has all chars that
    count as one of its chars, accept a text if the old rules accept it with all chars replaced. The tree is that of the old rules, with the
    chars of the text. *)
Theorem C103_texts_are_read_as_if_replaced : forall f rs, (forall c, ascii_char c -> ascii_char (f c)) -> sane_rules rs ->
  forall s debug debug', ascii s ->
  (forall ast, (exists fuel, parse_with_debug fuel (map f s) rs debug = Ok ast) ->
     exists fuel ast', parse_with_debug fuel s (ignoring_rules f rs) debug' = Ok ast' /\ respelled f [ast'] [ast]) /\
  (forall ast', (exists fuel, parse_with_debug fuel s (ignoring_rules f rs) debug' = Ok ast') ->
     exists fuel ast, parse_with_debug fuel (map f s) rs debug = Ok ast /\ respelled f [ast'] [ast]).
Proof.
  intros f rs FA SR s debug debug' A. split; [intros ast H; exact (accepted_there f rs FA SR s ast debug debug' A H)|].
  intros ast' H. exact (accepted_back f rs FA SR s ast' debug debug' A H).
Qed.
Print Assumptions C103_texts_are_read_as_if_replaced.

(** The messages are the same, at the same places. *)
Theorem C103_same_messages : forall f rs, (forall c, ascii_char c -> ascii_char (f c)) -> sane_rules rs ->
  forall s m k, ascii s -> aborts rs (map f s) m k <-> aborts (ignoring_rules f rs) s m k.
Proof. intros f rs FA SR s m k A. exact (aborted f rs FA SR s m k A). Qed.
Print Assumptions C103_same_messages.

(** The parse ends for the same texts. *)
Theorem C103_same_ends : forall f rs, (forall c, ascii_char c -> ascii_char (f c)) -> sane_rules rs ->
  forall s debug debug', ascii s ->
  (exists fuel, parse_with_debug fuel (map f s) rs debug <> Fuel) <-> (exists fuel, parse_with_debug fuel s (ignoring_rules f rs) debug' <> Fuel).
Proof. intros f rs FA SR s debug debug' A. exact (finished f rs FA SR s debug debug' A). Qed.
Print Assumptions C103_same_ends.

(** The work grows at most by the length of the longest literal. *)
Theorem C103_calls : forall f rs L, (forall c, ascii_char c -> ascii_char (f c)) -> sane_rules rs ->
  (forall n e l, rules_get rs n = Some e -> has_atom (Literal l) e -> length l <= L) ->
  forall s debug debug' fuel fuel', ascii s ->
  parse_with_debug fuel (map f s) rs debug <> Fuel -> parse_with_debug fuel' s (ignoring_rules f rs) debug' <> Fuel ->
  parse_calls fuel' s (ignoring_rules f rs) debug' <= (L + 1) * parse_calls fuel (map f s) rs debug.
Proof. intros f rs L FA SR LL s debug debug' fuel fuel' A NF NF'. exact (calls_there f rs FA SR L LL s debug debug' fuel fuel' A NF NF'). Qed.
Print Assumptions C103_calls.

(** Texts that differ only in what is ignored get the same answers. *)
Theorem C103_only_what_counts_matters : forall f rs, (forall c, ascii_char c -> ascii_char (f c)) -> sane_rules rs ->
  forall s t, ascii s -> ascii t -> map f s = map f t ->
  (takes (ignoring_rules f rs) s <-> takes (ignoring_rules f rs) t) /\ (finishes (ignoring_rules f rs) s <-> finishes (ignoring_rules f rs) t) /\
  (forall m k, aborts (ignoring_rules f rs) s m k <-> aborts (ignoring_rules f rs) t m k).
Proof.
  intros f rs FA SR s t AS AT E. split; [|split].
  - assert (X : forall s t, ascii s -> ascii t -> map f s = map f t -> takes (ignoring_rules f rs) s -> takes (ignoring_rules f rs) t).
    { clear s t AS AT E. intros s t AS AT E (fuel & ast & H). destruct (accepted_back f rs FA SR s ast false false AS (ex_intro _ fuel H)) as (f1 & a1 & H1 & _). rewrite E in H1.
      destruct (accepted_there f rs FA SR t a1 false false AT (ex_intro _ f1 H1)) as (f2 & a2 & H2 & _). exists f2, a2. exact H2. }
    split; apply X; auto.
  - unfold finishes, parse. rewrite <- (finished f rs FA SR s false false AS), <- (finished f rs FA SR t false false AT), E. reflexivity.
  - intros m k. rewrite <- (aborted f rs FA SR s m k AS), <- (aborted f rs FA SR t m k AT), E. reflexivity.
Qed.
Print Assumptions C103_only_what_counts_matters.

(** For a text that is not changed by [f], as one of small letters, the answers are the old ones. *)
Theorem C103_plain_texts_as_before : forall f rs, (forall c, ascii_char c -> ascii_char (f c)) -> sane_rules rs ->
  forall s, ascii s -> map f s = s ->
  (takes (ignoring_rules f rs) s <-> takes rs s) /\ (finishes (ignoring_rules f rs) s <-> finishes rs s) /\
  (forall m k, aborts (ignoring_rules f rs) s m k <-> aborts rs s m k).
Proof.
  intros f rs FA SR s A E. split; [|split].
  - split.
    + intros (fuel & ast & H). destruct (accepted_back f rs FA SR s ast false false A (ex_intro _ fuel H)) as (f1 & a1 & H1 & _). rewrite E in H1. exists f1, a1. exact H1.
    + intros (fuel & ast & H). rewrite <- E in H. destruct (accepted_there f rs FA SR s ast false false A (ex_intro _ fuel H)) as (f1 & a1 & H1 & _). exists f1, a1. exact H1.
  - unfold finishes, parse. rewrite <- (finished f rs FA SR s false false A), E. reflexivity.
  - intros m k. rewrite <- (aborted f rs FA SR s m k A), E. reflexivity.
Qed.
Print Assumptions C103_plain_texts_as_before.

Lemma lower_ascii : forall c, ascii_char c -> ascii_char (lower c).
Proof.
  intros c H. unfold lower, ascii_char in *. destruct (N.leb 65 c && N.leb c 90) eqn:E; [|exact H]. apply andb_prop in E. destruct E as [_ E]. apply N.leb_le in E. lia.
Qed.

(** The rules have to be written with small letters: with [lower], no text counts as one with a capital letter. *)
Theorem C103_capitals_in_rules_refuted : exists rs, sane_rules rs /\ (exists ast, parse 100 (s_ "If") rs = Ok ast) /\
  exists er, parse 100 (s_ "If") (ignoring_rules lower rs) = Err er.
Proof.
  exists [(main, lit (s_ "If"))]. split; [apply sane_rules_all; repeat constructor|]. split; eexists; vm_compute; reflexivity.
Qed.
Print Assumptions C103_capitals_in_rules_refuted.

Definition nm_word : str := s_ "word".
(** [main = 'if ' word / error('what?')], [word = [a-y]+]. *)
Definition if_rules : rules :=
  [(main, Or [And [lit (s_ "if "); ref_rule nm_word]; Simple (AError (s_ "what?"))]); (nm_word, rep0 (Simple (Match [] [(97, 121)%N])) 1)].

Example C103_nonvacuous : sane_rules if_rules /\ (forall c, ascii_char c -> ascii_char (lower c)) /\
  (forall n e l, rules_get if_rules n = Some e -> has_atom (Literal l) e -> length l <= 3) /\
  map lower (s_ "iF yOu") = s_ "if you" /\
  parse 100 (s_ "if you") if_rules = Ok (Rule main [Val (s_ "if "); Rule nm_word [Val (s_ "y"); Val (s_ "o"); Val (s_ "u")]]) /\
  parse 100 (s_ "iF yOu") (ignoring_rules lower if_rules) =
    Ok (Rule main [Val (s_ "i"); Val (s_ "F"); Val (s_ " "); Rule nm_word [Val (s_ "y"); Val (s_ "O"); Val (s_ "u")]]) /\
  (exists er, parse 100 (s_ "iF yOu") if_rules = Err er) /\
  aborts (ignoring_rules lower if_rules) (s_ "iF Z") (s_ "what?") 0.
Proof.
  split; [apply sane_rules_all; repeat constructor|]. split; [exact lower_ascii|]. split; [apply lits_all; reflexivity|].
  split; [reflexivity|]. split; [vm_compute; reflexivity|]. split; [vm_compute; reflexivity|]. split; [eexists; vm_compute; reflexivity|].
    exists 100. eexists. split; [vm_compute; reflexivity|]. repeat split.
Qed.
