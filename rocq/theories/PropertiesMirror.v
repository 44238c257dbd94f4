(** Properties: texts that are read the same from both ends. *)
From Verif Require Import Base ModelAst ModelParser SpecPeg SpecPos SpecApi SpecMirror Examples.
From Verif Require Import ProofParser ProofEngine ProofApi ProofMirror.

(** * C86 texts that are read the same from both ends *)

(** With another char in the middle, the accepted texts are exactly the mirrored ones, and the tree is that of the pairs .. *)
Theorem C86_marked_mirrors_are_read_exactly : forall cs m, ~ In m cs -> forall s debug, ascii s -> forall t,
  (exists fuel, parse_with_debug fuel s (mirror_rules cs [lit [m]]) debug = Ok t) <->
  exists w, Forall (fun c => In c cs) w /\ s = w ++ m :: rev w /\ t = mirror_tree [Val [m]] w.
Proof. exact marked_accepts. Qed.
Print Assumptions C86_marked_mirrors_are_read_exactly.

(** .. and every text gets an answer. *)
Theorem C86_every_text_is_decided : forall cs m, ~ In m cs -> forall s debug, ascii s ->
  exists bound, forall fuel, bound <= fuel -> parse_with_debug fuel s (mirror_rules cs [lit [m]]) debug <> Fuel.
Proof. exact marked_decides. Qed.
Print Assumptions C86_every_text_is_decided.

(** With nothing, or one of the chars, in the middle the accepted texts are mirrored .. *)
Theorem C86_accepted_texts_are_mirrored : forall cs s debug fuel t,
  (parse_with_debug fuel s (mirror_rules cs [And []]) debug = Ok t -> exists w, s = w ++ rev w) /\
  (parse_with_debug fuel s (mirror_rules cs (map (fun c => lit [c]) cs)) debug = Ok t -> exists w c, s = w ++ c :: rev w).
Proof. intros cs s debug fuel t. split; [apply even_sound|apply odd_sound]. Qed.
Print Assumptions C86_accepted_texts_are_mirrored.

(** .. but not all mirrored texts are accepted: n times the same char is accepted iff n + 2 is a power of two, .. *)
Theorem C86_one_char_even : forall a, (a < 128)%N -> forall n debug,
  (exists fuel t, parse_with_debug fuel (repeat a n) (mirror_rules [a] [And []]) debug = Ok t) <-> exists k, n + 2 = 2 ^ S k.
Proof. exact even_exact. Qed.
Print Assumptions C86_one_char_even.

(** .. or n + 1, with the char in the middle. *)
Theorem C86_one_char_odd : forall a, (a < 128)%N -> forall n debug,
  (exists fuel t, parse_with_debug fuel (repeat a n) (mirror_rules [a] [lit [a]]) debug = Ok t) <-> exists k, n + 1 = 2 ^ S k.
Proof. exact odd_exact. Qed.
Print Assumptions C86_one_char_odd.

Theorem C86_unmarked_mirrors_are_accepted_refuted : exists cs w er, Forall (fun c => In c cs) w /\ ascii (w ++ rev w) /\ parse 50 (w ++ rev w) (mirror_rules cs [And []]) = Err er.
Proof.
  exists (s_ "ab"), (s_ "aa"). eexists. split; [repeat constructor|]. split; [repeat constructor|]. vm_compute. reflexivity.
Qed.
Print Assumptions C86_unmarked_mirrors_are_accepted_refuted.

Example C86_nonvacuous : ~ In 46%N (s_ "ab") /\ ascii (s_ "aab.baa") /\ parse 50 (s_ "aab.baa") (mirror_rules (s_ "ab") [lit (s_ ".")]) = Ok (mirror_tree [Val (s_ ".")] (s_ "aab")) /\
  (exists er, parse 50 (s_ "aab.bab") (mirror_rules (s_ "ab") [lit (s_ ".")]) = Err er) /\
  (exists t, parse 50 (s_ "abba") (mirror_rules (s_ "ab") [And []]) = Ok t) /\ (exists t, parse 50 (s_ "abbabba") (mirror_rules (s_ "ab") [lit (s_ "a"); lit (s_ "b")]) = Ok t) /\
  (exists t, parse 50 (s_ "aaaaaa") (mirror_rules (s_ "a") [And []]) = Ok t) /\ (exists er, parse 50 (s_ "aaaa") (mirror_rules (s_ "a") [And []]) = Err er) /\
  (exists t, parse 50 (s_ "aaaaaaa") (mirror_rules (s_ "a") [lit (s_ "a")]) = Ok t) /\ (exists er, parse 50 (s_ "aaaaa") (mirror_rules (s_ "a") [lit (s_ "a")]) = Err er).
Proof.
  split; [intros [X|[X|[]]]; discriminate|]. split; [repeat constructor|]. split; [vm_compute; reflexivity|].
  split; [vm_compute; eexists; reflexivity|]. split; [vm_compute; eexists; reflexivity|]. split; [vm_compute; eexists; reflexivity|]. split; [vm_compute; eexists; reflexivity|].
  split; [vm_compute; eexists; reflexivity|]. split; vm_compute; eexists; reflexivity.
Qed.
