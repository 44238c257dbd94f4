(** Properties: cutting a text into tokens. *)
From Verif Require Import Base ModelAst ModelParser SpecPeg SpecPos SpecApi SpecStuck SpecPower SpecLines SpecLexer.
From Verif Require Import ProofParser ProofEngine ProofApi ProofPower ProofLines ProofLexer Examples.
From Coq Require Import Permutation.

(** * C97 rules as a lexer *)

(** [main = (n1 / n2 / ..)*] accepts the texts that can be cut into tokens, each taken by the first rule that does not fail where the
    token starts, if no token starts at the end of the text; and the tree has the tokens. *)
Theorem C97_texts_are_cut_into_tokens : forall rs ns, sane_rules rs -> main_unused rs (map ref_rule ns) -> forall s debug ast, ascii s ->
  ((exists fuel, parse_with_debug fuel s (lexer_rules rs ns) debug = Ok ast) <->
   exists toks, lexes (grammar_of rs) ns s toks [] /\ no_token (grammar_of rs) ns [] /\ ast = Rule main (map token_node toks)).
Proof. intros rs ns SR MU s debug ast A. exact (lexer_accepts rs ns SR MU s debug ast A). Qed.
Print Assumptions C97_texts_are_cut_into_tokens.

(** There is one way to do that: to go on until no token starts, or a token gives a message. The texts of the tokens make up the text;
    none is empty. *)
Theorem C97_one_way_to_cut : forall G ns s toks rest, lexes G ns s toks rest ->
  s = flat_map t_text toks ++ rest /\ (forall t, In t toks -> In (t_name t) ns /\ t_text t <> []) /\
  forall toks' rest', lexes G ns s toks' rest' ->
    (no_token G ns rest \/ exists n m r, picks G ns rest n (PAbort m r)) ->
    (no_token G ns rest' \/ exists n m r, picks G ns rest' n (PAbort m r)) -> toks = toks' /\ rest = rest'.
Proof.
  intros G ns s toks rest H. split; [exact (lexes_text G ns s toks rest H)|]. split; [exact (lexes_in G ns s toks rest H)|].
  intros toks' rest' H' F F'. exact (lexes_det G ns s toks rest H F toks' rest' H' F').
Qed.
Print Assumptions C97_one_way_to_cut.

(** [flatten] makes a plain list of the tokens: after [pass_through_except], with the names of the token rules, and [compact], each token
    is its name and its text, whatever rules its own rule uses. *)
Theorem C97_the_list_of_tokens : forall rs ns, sane_rules rs -> main_unused rs (map ref_rule ns) -> no_eof_atom rs -> forall fuel s debug ast, ascii s ->
  parse_with_debug fuel s (lexer_rules rs ns) debug = Ok ast ->
  exists toks, lexes (grammar_of rs) ns s toks [] /\ ast = Rule main (map token_node toks) /\
    ((forall t n, In t toks -> In n (flat_map names (t_kids t)) -> ~ In n ns) -> flatten (compact (pass_through_except ns ast)) = token_list toks).
Proof.
  intros rs ns SR MU NE fuel s debug ast A E. destruct (proj1 (lexer_accepts rs ns SR MU s debug ast A) (ex_intro _ fuel E)) as (toks & H & _ & ->).
  exists toks. split; [exact H|]. split; [reflexivity|]. intro N. exact (tokens_listed rs ns MU NE s toks [] H N).
Qed.
Print Assumptions C97_the_list_of_tokens.

(** A text is rejected without a message when some of it is left where no token starts. *)
Theorem C97_rejected_where_no_token_starts : forall rs ns, sane_rules rs -> main_unused rs (map ref_rule ns) -> forall s debug, ascii s ->
  ((exists fuel er, parse_with_debug fuel s (lexer_rules rs ns) debug = Err er /\ e_priority er = Normal) <->
   exists toks rest, lexes (grammar_of rs) ns s toks rest /\ no_token (grammar_of rs) ns rest /\ rest <> []).
Proof. intros rs ns SR MU s debug A. exact (lexer_rejects rs ns SR MU s debug A). Qed.
Print Assumptions C97_rejected_where_no_token_starts.

(** The error stands there, or after it, never in the tokens before; and in debug mode the rules of these tokens come first. *)
Theorem C97_errors_stand_after_the_tokens : forall rs ns, sane_rules rs -> main_unused rs (map ref_rule ns) -> forall s toks rest debug, ascii s ->
  lexes (grammar_of rs) ns s toks rest -> no_token (grammar_of rs) ns rest -> rest <> [] ->
  exists p m d tr fuel, rest = p ++ m /\ parse_with_debug fuel s (lexer_rules rs ns) debug =
    Err (PError (pos_of (flat_map t_text toks ++ p)) d (tail_after is_nl (flat_map t_text toks ++ p)) (until_eol m)
      (if debug then map (fun n => s_ "r:" ++ n) (main :: flat_map names (map token_node toks) ++ tr) else []) Normal).
Proof. intros rs ns SR MU s toks rest debug A H N Z. exact (lexer_error rs ns SR MU s toks rest debug A H N Z). Qed.
Print Assumptions C97_errors_stand_after_the_tokens.

(** A message is that of the first token that gives one. *)
Theorem C97_messages_of_tokens : forall rs ns, sane_rules rs -> main_unused rs (map ref_rule ns) -> forall s m k, ascii s ->
  (complains (lexer_rules rs ns) s m k <->
   exists toks rest n rest', lexes (grammar_of rs) ns s toks rest /\ picks (grammar_of rs) ns rest n (PAbort m rest') /\ k + length rest' = length s).
Proof. intros rs ns SR MU s m k A. exact (lexer_complains rs ns SR MU s m k A). Qed.
Print Assumptions C97_messages_of_tokens.

(** Where an empty token is taken the parse never returns. *)
Theorem C97_empty_tokens_hang : forall rs ns s toks rest n ks, sane_rules rs -> main_unused rs (map ref_rule ns) -> ascii s ->
  lexes (grammar_of rs) ns s toks rest -> picks (grammar_of rs) ns rest n (PMatch [Rule n ks] rest) ->
  forall fuel debug, parse_with_debug fuel s (lexer_rules rs ns) debug = Fuel.
Proof. intros rs ns s toks rest n ks SR MU A H P fuel debug. exact (empty_token_hangs rs ns s toks rest n ks fuel debug SR MU A H P). Qed.
Print Assumptions C97_empty_tokens_hang.

(** If no two tokens can start at the same place, the order of the token rules does not matter. *)
Theorem C97_order_does_not_matter : forall rs ns ns', sane_rules rs -> main_unused rs (map ref_rule ns) -> Permutation ns ns' ->
  (forall s n m r, In n ns -> In m ns -> m <> n -> peg (grammar_of rs) (RuleName n) s r -> r <> PFail -> peg (grammar_of rs) (RuleName m) s PFail) ->
  forall s debug, ascii s ->
  (forall ast, (exists fuel, parse_with_debug fuel s (lexer_rules rs ns) debug = Ok ast) <-> (exists fuel, parse_with_debug fuel s (lexer_rules rs ns') debug = Ok ast)) /\
  ((exists fuel er, parse_with_debug fuel s (lexer_rules rs ns) debug = Err er /\ e_priority er = Normal) <->
   (exists fuel er, parse_with_debug fuel s (lexer_rules rs ns') debug = Err er /\ e_priority er = Normal)).
Proof.
  intros rs ns ns' SR MU PE EX s debug A. 
  assert (MU' : main_unused rs (map ref_rule ns')) by (destruct MU as [M1 M2]; split; [exact M1|]; apply (Permutation_Forall (Permutation_map ref_rule PE)); exact M2).
  assert (EX' : forall s n m r, In n ns' -> In m ns' -> m <> n -> peg (grammar_of rs) (RuleName n) s r -> r <> PFail -> peg (grammar_of rs) (RuleName m) s PFail).
  { intros s0 n m r I J. apply EX; apply (Permutation_in _ (Permutation_sym PE)); assumption. }
  assert (PI : forall x y, Permutation x y -> (forall s n m r, In n x -> In m x -> m <> n -> peg (grammar_of rs) (RuleName n) s r -> r <> PFail -> peg (grammar_of rs) (RuleName m) s PFail) ->
    forall s toks rest, lexes (grammar_of rs) x s toks rest -> lexes (grammar_of rs) y s toks rest).
  { intros x y P X s0 toks rest H. induction H as [s0|n ks w s0 toks rest Q W H IH]; [apply lx_stop|]. apply lx_next; [|exact W|exact IH].
    apply (picks_order _ x y _ _ _ P Q). intros m J D. destruct Q as (a & b & E & F & D0 & NF). refine (X _ n m _ _ J D D0 NF). rewrite E. apply in_or_app. right. left. reflexivity. }
  assert (NI : forall s0, no_token (grammar_of rs) ns s0 <-> no_token (grammar_of rs) ns' s0).
  { intro s0. split; intros N n I; apply N; [apply (Permutation_in _ (Permutation_sym PE)); exact I|apply (Permutation_in _ PE); exact I]. }
  split.
  - intro ast. rewrite (lexer_accepts rs ns SR MU s debug ast A), (lexer_accepts rs ns' SR MU' s debug ast A).
    split; intros (toks & H & N & E); exists toks; (split; [|split; [apply NI; exact N|exact E]]); [exact (PI ns ns' PE EX _ _ _ H)|exact (PI ns' ns (Permutation_sym PE) EX' _ _ _ H)].
  - rewrite (lexer_rejects rs ns SR MU s debug A), (lexer_rejects rs ns' SR MU' s debug A).
    split; intros (toks & rest & H & N & Z); exists toks, rest; (split; [|split; [apply NI; exact N|exact Z]]); [exact (PI ns ns' PE EX _ _ _ H)|exact (PI ns' ns (Permutation_sym PE) EX' _ _ _ H)].
Qed.
Print Assumptions C97_order_does_not_matter.

(** [word = letter+], [letter = [a-z]], [number = [0-9]+], [if = "if"], [blank = ' ']. *)
Definition word_rules : rules := rules_macro
  [(s_ "word", rep0 (ref_rule (s_ "letter")) 1); (s_ "letter", Simple (Match [] [(97, 122)%N]));
   (s_ "number", rep0 (Simple (Match [] [(48, 57)%N])) 1); (s_ "if", lit (s_ "if")); (s_ "blank", lit (s_ " "))].

(** In general it does matter: with [if] before [word], the text [iffy] is two tokens, and one with [word] first. *)
Theorem C97_order_matters_refuted : exists ast ast',
  parse 100 (s_ "iffy") (lexer_rules word_rules [s_ "if"; s_ "word"]) = Ok ast /\ parse 100 (s_ "iffy") (lexer_rules word_rules [s_ "word"; s_ "if"]) = Ok ast' /\
  flatten (compact (pass_through_except [s_ "if"; s_ "word"] ast)) = [FBegin main; FBegin (s_ "if"); FVal (s_ "if"); FEnd (s_ "if"); FBegin (s_ "word"); FVal (s_ "fy"); FEnd (s_ "word"); FEnd main] /\
  flatten (compact (pass_through_except [s_ "word"; s_ "if"] ast')) = [FBegin main; FBegin (s_ "word"); FVal (s_ "iffy"); FEnd (s_ "word"); FEnd main].
Proof. eexists. eexists. split; [vm_compute; reflexivity|]. split; [vm_compute; reflexivity|]. split; vm_compute; reflexivity. Qed.
Print Assumptions C97_order_matters_refuted.

Lemma word_rules_fit : sane_rules word_rules /\ main_unused word_rules (map ref_rule [s_ "word"; s_ "number"; s_ "blank"]) /\ no_eof_atom word_rules.
Proof.
  split; [apply sane_rules_all; repeat constructor|]. split; [|apply no_eof_all; reflexivity].
  destruct (main_unused_all word_rules (Or (map ref_rule [s_ "word"; s_ "number"; s_ "blank"])) eq_refl eq_refl) as [M N]. split; [exact M|].
  inversion N as [|x l X Y]; subst. apply Forall_forall. intros e I H. apply X. exact (hr_or _ e _ I H).
Qed.

Example C97_nonvacuous : exists ast toks er, let ns := [s_ "word"; s_ "number"; s_ "blank"] in
  (sane_rules word_rules /\ main_unused word_rules (map ref_rule ns) /\ no_eof_atom word_rules) /\
  parse 100 (s_ "ab 12") (lexer_rules word_rules ns) = Ok ast /\
  lexes (grammar_of word_rules) ns (s_ "ab 12") toks [] /\ no_token (grammar_of word_rules) ns [] /\
  map (fun t => (t_name t, t_text t)) toks = [(s_ "word", s_ "ab"); (s_ "blank", s_ " "); (s_ "number", s_ "12")] /\
  flatten (compact (pass_through_except ns ast)) = token_list toks /\
  parse 100 (s_ "ab #") (lexer_rules word_rules ns) = Err er /\ e_priority er = Normal /\ pn (e_pos er) = 4.
Proof.
  assert (E : exists ast, parse 100 (s_ "ab 12") (lexer_rules word_rules [s_ "word"; s_ "number"; s_ "blank"]) = Ok ast) by (eexists; vm_compute; reflexivity).
  destruct E as [ast E]. destruct word_rules_fit as (SR & MU & NE).
  assert (A : ascii (s_ "ab 12")) by (repeat constructor).
  destruct (proj1 (C97_texts_are_cut_into_tokens _ _ SR MU (s_ "ab 12") false ast A) (ex_intro _ 100 E)) as (toks & H & N & X).
  assert (L : flatten (compact (pass_through_except [s_ "word"; s_ "number"; s_ "blank"] ast)) =
    [FBegin main; FBegin (s_ "word"); FVal (s_ "ab"); FEnd (s_ "word"); FBegin (s_ "blank"); FVal (s_ " "); FEnd (s_ "blank"); FBegin (s_ "number"); FVal (s_ "12"); FEnd (s_ "number"); FEnd main]).
  { vm_compute in E. injection E as <-. vm_compute. reflexivity. }
  assert (K : map token_node toks = [Rule (s_ "word") [Rule (s_ "letter") [Val (s_ "a")]; Rule (s_ "letter") [Val (s_ "b")]]; Rule (s_ "blank") [Val (s_ " ")]; Rule (s_ "number") [Val (s_ "1"); Val (s_ "2")]]).
  { rewrite X in E. vm_compute in E. injection E as E. symmetry. exact E. }
  assert (T : flatten (compact (pass_through_except [s_ "word"; s_ "number"; s_ "blank"] ast)) = token_list toks).
  { rewrite X. apply (tokens_listed _ _ MU NE _ _ _ H). intros t n I J B.
    assert (Z : exists y, In y (map token_node toks) /\ In n (match y with Rule _ k => flat_map names k | _ => [] end)) by (exists (token_node t); split; [apply in_map; exact I|exact J]).
    rewrite K in Z. destruct Z as (y & I' & J'). destruct I' as [<-|[<-|[<-|[]]]]; cbn in J'; [destruct J' as [<-|[<-|[]]]| |]; try (destruct J'); destruct B as [B|[B|[B|[]]]]; discriminate B. }
  eexists ast, toks, _. cbv zeta. split; [split; [exact SR|split; [exact MU|exact NE]]|]. split; [exact E|]. split; [exact H|]. split; [exact N|]. split.
  { rewrite L in T. unfold token_list in T. destruct toks as [|[a ka wa] [|[b kb wb] [|[c kc wc] [|d toks]]]]; try discriminate K. cbn in T. injection T as -> -> _ -> -> _ -> -> _. reflexivity. }
  split; [exact T|]. split; [vm_compute; reflexivity|]. split; reflexivity.
Qed.

(** An empty token: with [main = (letters)*], [letters = [a-z]*], no text is ever answered. *)
Theorem C97_empty_token_refuted : let rs := [(s_ "letters", rep0 (Simple (Match [] [(97, 122)%N])) 0)] in
  forall fuel, parse fuel (s_ "ab") (lexer_rules rs [s_ "letters"]) = Fuel.
Proof.
  intros rs fuel. set (l1 := Simple (Match [] [(97, 122)%N])).
  assert (D0 : peg (grammar_of rs) (RuleName (s_ "letters")) [] (PMatch [Rule (s_ "letters") []] [])).
  { apply (peg_rule (grammar_of rs) (s_ "letters") (rep0 l1 0) [] (PMatch [] []) eq_refl). apply peg_rep_done; [discriminate|]. apply peg_class_fail. intros c rest X. discriminate. }
  assert (C : forall c s, (97 <= c <= 122)%N -> peg (grammar_of rs) l1 (c :: s) (PMatch [Val [c]] s)) by (intros c s X; apply peg_class_ok; right; exists 97%N, 122%N; split; [left; reflexivity|exact X]).
  assert (D2 : peg (grammar_of rs) (RuleName (s_ "letters")) (s_ "ab") (PMatch [Rule (s_ "letters") [Val (s_ "a"); Val (s_ "b")]] [])).
  { apply (peg_rule (grammar_of rs) (s_ "letters") (rep0 l1 0) (s_ "ab") (PMatch [Val (s_ "a"); Val (s_ "b")] []) eq_refl).
    apply (peg_rep_more (grammar_of rs) l1 0 None (s_ "ab") [Val (s_ "a")] (s_ "b") (PMatch [Val (s_ "b")] [])); [discriminate|apply (C 97%N (s_ "b")); lia|].
    apply (peg_rep_more (grammar_of rs) l1 0 None (s_ "b") [Val (s_ "b")] [] (PMatch [] [])); [discriminate|apply (C 98%N []); lia|].
    apply peg_rep_done; [discriminate|]. apply peg_class_fail. intros c rest X. discriminate. }
  assert (P : forall s r, peg (grammar_of rs) (RuleName (s_ "letters")) s r -> r <> PFail -> picks (grammar_of rs) [s_ "letters"] s (s_ "letters") r)
    by (intros s r D NF; exists [], []; split; [reflexivity|split; [intros m []|split; assumption]]).
  refine (C97_empty_tokens_hang rs [s_ "letters"] (s_ "ab") [Token (s_ "letters") [Val (s_ "a"); Val (s_ "b")] (s_ "ab")] [] (s_ "letters") [] _ _ _ _ _ fuel false).
  - apply sane_rules_all. repeat constructor.
  - destruct (main_unused_all rs (RuleName (s_ "letters")) eq_refl eq_refl) as [M N]. split; [exact M|exact N].
  - repeat constructor.
  - apply (lx_next _ _ (s_ "letters") [Val (s_ "a"); Val (s_ "b")] (s_ "ab") [] [] []); [apply P; [exact D2|discriminate]|discriminate|apply lx_stop].
  - apply P; [exact D0|discriminate].
Qed.
Print Assumptions C97_empty_token_refuted.
