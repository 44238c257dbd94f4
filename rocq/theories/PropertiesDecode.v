(** Properties: a program that reads JSON with the crate. *)
From Verif Require Import Base ModelAst ModelParser ModelPeg SpecPos SpecDocs SpecJson SpecDecode.
From Verif Require Import ProofApi ProofJson ProofDecode.

(** * C113 a JSON reader gives the value that is written *)

(** Reading the grammar text, parsing, pruning, compacting and walking over slices of nodes with the consuming helpers gives a value
    exactly for the JSON texts, and it is the value that is written. *)
Theorem C113_values : forall s v, ascii s -> ((exists fuel, read_json fuel s = Ok v) <-> json_text v s).
Proof.
  intros s v A. split.
  - intros [f H]. destruct (read_json_inv f s _ H ltac:(discriminate)) as [(er & _ & X)|[[_ X]|(v' & J & X)]]; [discriminate|discriminate|congruence].
  - intro J. destruct (read_json_text s v A J) as (n & H). exists n. apply H. lia.
Qed.
Print Assumptions C113_values.

(** All other texts are rejected by the parser, and no others. *)
Theorem C113_other_texts_are_rejected : forall s, ascii s -> ((exists fuel er, read_json fuel s = Err (OfText er)) <-> forall v, ~ json_text v s).
Proof. exact read_json_rejects. Qed.
Print Assumptions C113_other_texts_are_rejected.

(** Nothing else can happen: the helpers always find what they expect. *)
Theorem C113_nothing_else : forall fuel s,
  (forall e, read_json fuel s <> Err (OfGrammar e)) /\ (forall e, read_json fuel s <> Err (OfTree e)) /\ (ascii s -> read_json fuel s <> Panic).
Proof.
  intros fuel s. pose proof (read_json_inv fuel s _ eq_refl) as X. repeat split.
  - intros e E. rewrite E in X. destruct (X ltac:(discriminate)) as [(er & _ & Y)|[[_ Y]|(v & _ & Y)]]; discriminate.
  - intros e E. rewrite E in X. destruct (X ltac:(discriminate)) as [(er & _ & Y)|[[_ Y]|(v & _ & Y)]]; discriminate.
  - intros A E. rewrite E in X. destruct (X ltac:(discriminate)) as [(er & _ & Y)|[[P _]|(v & _ & Y)]]; try discriminate.
    exact (parse_no_panic fuel s jrules false A P).
Qed.
Print Assumptions C113_nothing_else.

(** Every value comes back if it is written and read. *)
Theorem C113_written_values_come_back : forall v, ok_json v -> ascii (show v) -> exists fuel, read_json fuel (show v) = Ok v.
Proof.
  intros v O A. destruct (shown_is_read v O A) as (t & (f & rs & R & P) & T). unfold tidied in T.
  assert (rs = jrules) by (destruct (json_rules_at f); congruence). subst rs.
  destruct (parsed_value f _ t P) as (v' & J & T'). rewrite T in T'. injection T' as T'. apply json_tree_inj in T'. subst v'.
  apply C113_values; assumption.
Qed.
Print Assumptions C113_written_values_come_back.

Example C113_nonvacuous :
  read_json 600 (s_ " {""a"" : [1, -2.5e+3, ""x\n\u00fF]""] , ""b"":{}, ""c"": [ true,false ,null,[ ] ] } ") =
    Ok (JObject [(s_ "a", JArray [JNumber (s_ "1"); JNumber (s_ "-2.5e+3"); JString (s_ "x\n\u00fF]")]); (s_ "b", JObject []);
                 (s_ "c", JArray [JTrue; JFalse; JNull; JArray []])]) /\
  (exists er, read_json 600 (s_ "[1, 2") = Err (OfText er)) /\
  ascii (show (JArray [JNumber (s_ "1"); JObject []])) /\ ok_json (JArray [JNumber (s_ "1"); JObject []]).
Proof.
  split; [vm_compute; reflexivity|]. split; [eexists; vm_compute; reflexivity|]. split; [repeat constructor|].
  split; [|split; exact I]. exists [], (s_ "1"), [], []. split; [left; reflexivity|]. split; [apply (in_digits 49%N []); [split; vm_compute; discriminate|constructor]|].
  split; [left; reflexivity|]. split; [left; reflexivity|reflexivity].
Qed.
