(** Properties: quoted strings. *)
From Verif Require Import Base ModelAst ModelParser ModelPeg SpecPeg SpecPos SpecApi SpecQuoted Examples.
From Verif Require Import ProofParser ProofEngine ProofApi ProofQuoted.

(** * C74 quoted strings *)

(** With an escape char: the accepted texts are exactly those of quoted strings, and the tree tells how each char was written. *)
Theorem C74_escaped_strings_are_read_exactly : forall Q E s debug, ascii s -> forall ast,
  (exists fuel, parse_with_debug fuel s (escape_rules Q E) debug = Ok ast) <->
  exists l, Forall (escape_ok Q E) l /\ s = string_text Q E l /\ ast = string_tree Q E l.
Proof. exact escape_accepts. Qed.

(** So it is with doubled quotes. *)
Theorem C74_doubled_strings_are_read_exactly : forall Q s debug, ascii s -> forall ast,
  (exists fuel, parse_with_debug fuel s (double_rules Q) debug = Ok ast) <->
  exists l, Forall (double_ok Q) l /\ s = string_text Q Q l /\ ast = string_tree Q Q l.
Proof. exact double_accepts. Qed.

(** Every other text is rejected with a plain error. *)
Theorem C74_every_text_is_decided : forall Q E s debug, ascii s -> exists bound, forall fuel, bound <= fuel ->
  ((exists l, Forall (escape_ok Q E) l /\ s = string_text Q E l /\ parse_with_debug fuel s (escape_rules Q E) debug = Ok (string_tree Q E l)) \/
   (forall l, Forall (escape_ok Q E) l -> s <> string_text Q E l) /\
   exists er, parse_with_debug fuel s (escape_rules Q E) debug = Err er /\ e_priority er = Normal) /\
  ((exists l, Forall (double_ok Q) l /\ s = string_text Q Q l /\ parse_with_debug fuel s (double_rules Q) debug = Ok (string_tree Q Q l)) \/
   (forall l, Forall (double_ok Q) l -> s <> string_text Q Q l) /\
   exists er, parse_with_debug fuel s (double_rules Q) debug = Err er /\ e_priority er = Normal).
Proof.
  intros Q E s d A. destruct (escape_decides Q E s d A) as [b1 H1]. destruct (double_decides Q s d A) as [b2 H2]. exists (b1 + b2). intros fuel L.
  split; [apply H1; lia|apply H2; lia].
Qed.

(** Every text can be written as a quoted string and is read back. *)
Theorem C74_every_content_is_read_back : forall Q E w, (Q < 128)%N -> (E < 128)%N -> ascii w ->
  (exists fuel, parse fuel (string_text Q E (map (escaped Q E) w)) (escape_rules Q E) = Ok (string_tree Q E (map (escaped Q E) w))) /\
  (exists fuel, parse fuel (string_text Q Q (map (doubled Q) w)) (double_rules Q) = Ok (string_tree Q Q (map (doubled Q) w))) /\
  map meant (map (escaped Q E) w) = w /\ map meant (map (doubled Q) w) = w.
Proof.
  intros Q E w HQ HE A. destruct (escaped_ok Q E w) as [F1 M1]. destruct (doubled_ok Q w) as [F2 M2].
  split; [|split; [|split; assumption]].
  - apply (escape_accepts Q E _ false); [apply string_ascii; [exact HQ|exact HE|rewrite M1; exact A]|]. eexists. split; [exact F1|]. split; reflexivity.
  - apply (double_accepts Q _ false); [apply string_ascii; [exact HQ|exact HQ|rewrite M2; exact A]|]. eexists. split; [exact F2|]. split; reflexivity.
Qed.

(** The tree tells the content; and with doubled quotes there is one way only to write it. *)
Theorem C74_the_tree_tells_the_content : forall Q E l l', (string_tree Q E l = string_tree Q E l' -> l = l') /\
  (Forall (double_ok Q) l -> l = map (doubled Q) (map meant l)).
Proof. intros Q E l l'. split; [apply string_tree_inj|apply double_one_way]. Qed.

(** The alternatives in the other order do not see the escape char. *)
Theorem C74_other_order_refuted : exists Q E l, Q <> E /\ Forall (escape_ok Q E) l /\ ascii (string_text Q E l) /\
  exists fuel er, parse fuel (string_text Q E l) (quoted_rules Q (Or [And [Not (lit [Q]); dot_]; And [lit [E]; dot_]])) = Err er.
Proof.
  exists 34%N, 92%N, [Marked 34%N]. split; [discriminate|]. split; [repeat constructor|]. split; [repeat constructor|]. exists 40. eexists. vm_compute. reflexivity.
Qed.

(** Double quotes (char 34) and a backslash (char 92); single quotes (39). *)
Example C74_nonvacuous :
  Forall (escape_ok 34%N 92%N) [Plain 97%N; Marked 34%N; Marked 92%N; Marked 98%N] /\
  ascii (string_text 34%N 92%N [Plain 97%N; Marked 34%N; Marked 92%N; Marked 98%N]) /\
  string_text 34%N 92%N [Plain 97%N; Marked 34%N; Marked 92%N; Marked 98%N] = [34; 97; 92; 34; 92; 92; 92; 98; 34]%N /\
  parse 40 [34; 97; 92; 34; 92; 92; 92; 98; 34]%N (escape_rules 34%N 92%N) =
    Ok (string_tree 34%N 92%N [Plain 97%N; Marked 34%N; Marked 92%N; Marked 98%N]) /\
  (exists er, parse 40 [34; 97; 92; 34]%N (escape_rules 34%N 92%N) = Err er) /\
  Forall (double_ok 39%N) (map (doubled 39%N) (s_ "it's")) /\ string_text 39%N 39%N (map (doubled 39%N) (s_ "it's")) = s_ "'it''s'" /\
  parse 40 (s_ "'it''s'") (double_rules 39%N) = Ok (string_tree 39%N 39%N (map (doubled 39%N) (s_ "it's"))) /\
  (exists er, parse 40 (s_ "'it's'") (double_rules 39%N) = Err er).
Proof.
  split; [repeat first [discriminate|constructor]|]. split; [repeat constructor|]. split; [reflexivity|]. split; [vm_compute; reflexivity|].
  split; [eexists; vm_compute; reflexivity|]. split; [apply doubled_ok|]. split; [reflexivity|]. split; [vm_compute; reflexivity|]. eexists. vm_compute. reflexivity.
Qed.

Print Assumptions C74_escaped_strings_are_read_exactly.
Print Assumptions C74_doubled_strings_are_read_exactly.
Print Assumptions C74_every_text_is_decided.
Print Assumptions C74_every_content_is_read_back.
Print Assumptions C74_the_tree_tells_the_content.
Print Assumptions C74_other_order_refuted.
