(** Properties: options in any order. *)
From Coq Require Import Permutation.
From Verif Require Import Base ModelAst ModelParser SpecPos SpecApi SpecOnce.
From Verif Require Import ProofOnce.

(** * C115 options in any order, none of them twice *)

(** Accepted are the lists of known options with all the required ones, in any order, none of them twice.  The tree has the options in
    the order of the text. *)
Theorem C115_accepted : forall mark required known, ascii_char mark -> Forall ascii known ->
  Forall (fun w => ~ In mark w) required -> Forall (fun w => ~ In mark w) known -> forall s debug t,
  (exists fuel, parse_with_debug fuel s (once_rules mark required known) debug = Ok t) <->
  exists l, incl required l /\ incl l known /\ NoDup l /\ s = options_text mark l /\ t = Rule main (map (fun w => Val (option_text mark w)) l).
Proof. exact once_accepts. Qed.
Print Assumptions C115_accepted.

(** Other texts are rejected, with an ordinary error. *)
Theorem C115_rejected : forall mark required known,
  Forall (fun w => ~ In mark w) required -> Forall (fun w => ~ In mark w) known -> forall s debug, ascii s ->
  (forall l, incl required l -> incl l known -> NoDup l -> s <> options_text mark l) ->
  exists fuel er, parse_with_debug fuel s (once_rules mark required known) debug = Err er /\ e_priority er = Normal.
Proof. exact once_rejects. Qed.
Print Assumptions C115_rejected.

(** If all are required, all the orders are accepted and nothing else, with rules as short as the list. *)
Theorem C115_all_orders : forall mark ws, ascii_char mark -> Forall ascii ws -> Forall (fun w => ~ In mark w) ws -> NoDup ws -> forall s,
  (exists fuel t, parse fuel s (once_rules mark ws ws) = Ok t) <-> exists l, Permutation ws l /\ s = options_text mark l.
Proof.
  intros mark ws M A W N s. split.
  - intros (fuel & t & P). destruct (proj1 (C115_accepted mark ws ws M A W W s false t) (ex_intro _ fuel P)) as (l & I & J & ND & E & _).
    exists l. split; [|exact E]. apply NoDup_Permutation; [exact N|exact ND|]. intro x. split; [apply I|apply J].
  - intros (l & P & E). destruct (proj2 (C115_accepted mark ws ws M A W W s false (Rule main (map (fun w => Val (option_text mark w)) l)))) as (fuel & H); [|eauto].
    exists l. split; [intros x X; exact (Permutation_in _ P X)|]. split; [intros x X; exact (Permutation_in _ (Permutation_sym P) X)|].
    split; [exact (Permutation_NoDup P N)|auto].
Qed.
Print Assumptions C115_all_orders.

(** The text says which options there are. *)
Theorem C115_one_reading : forall mark l m, Forall (fun w => ~ In mark w) l -> Forall (fun w => ~ In mark w) m ->
  options_text mark l = options_text mark m -> l = m.
Proof.
  intros mark l m L M E. apply (text_inj mark l m [] [] L M); [intros []|intros []|]. rewrite !app_nil_r. exact E.
Qed.
Print Assumptions C115_one_reading.

(** Without the looks at the rest of the text an option can come twice. *)
Theorem C115_plain_choice_refuted : ~ forall mark known s fuel t,
  parse fuel s (rules_macro [(main, rep0 (Or (map (fun w => lit (option_text mark w)) known)) 0)]) = Ok t ->
  exists l, NoDup l /\ incl l known /\ s = options_text mark l.
Proof.
  intro H. destruct (H 59%N [s_ "a"] (s_ "a;a;") 20 _ eq_refl) as (l & N & I & E).
  destruct l as [|x [|y l]]; [discriminate| |].
  - destruct (I x ltac:(left; reflexivity)) as [<-|[]]. discriminate.
  - destruct (I x ltac:(left; reflexivity)) as [<-|[]]. destruct (I y ltac:(right; left; reflexivity)) as [<-|[]]. inversion N as [|? ? X]. destruct X. left. reflexivity.
Qed.
Print Assumptions C115_plain_choice_refuted.

Definition opts : rules := once_rules 59%N [s_ "to"] [s_ "to"; s_ "from"; s_ "t"].
Definition accepted (o : outcome perror node) : bool := match o with Ok _ => true | _ => false end.
Definition rejected (o : outcome perror node) : bool := match o with Err _ => true | _ => false end.

Example C115_nonvacuous :
  ascii_char 59%N /\ Forall ascii [s_ "to"; s_ "from"; s_ "t"] /\ Forall (fun w => ~ In 59%N w) [s_ "to"; s_ "from"; s_ "t"] /\
  parse 60 (s_ "from;t;to;") opts = Ok (Rule main [Val (s_ "from;"); Val (s_ "t;"); Val (s_ "to;")]) /\
  accepted (parse 60 (s_ "to;") opts) = true /\ rejected (parse 60 (s_ "from;t;") opts) = true /\ rejected (parse 60 (s_ "to;from;to;") opts) = true /\
  rejected (parse 60 (s_ "to;via;") opts) = true /\ rejected (parse 60 (s_ "to;from") opts) = true.
Proof.
  split; [reflexivity|]. split; [repeat constructor|]. split; [|repeat split; vm_compute; reflexivity].
  repeat constructor; cbn; intuition discriminate.
Qed.
