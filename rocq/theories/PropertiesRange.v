(** Properties: numbers up to given bounds. *)
From Verif Require Import Base ModelAst ModelParser SpecPos SpecApi SpecTable SpecRange.
From Verif Require Import ProofRange.

(** * C114 rules for numbers in a range accept these numbers and no others *)

(** As many numbers as there are bounds, each up to its bound and written as usual, with the separator between them, and nothing else.
    The tree has the chars of the text. *)
Theorem C114_accepted : forall sep bounds, ascii_char sep -> ~ is_dec_digit sep -> forall s debug t,
  (exists fuel, parse_with_debug fuel s (range_rules sep bounds) debug = Ok t) <->
  exists ns, Forall2 le ns bounds /\ s = join sep (map dec ns) /\ t = Rule main (by_chars s).
Proof. exact range_accepts. Qed.
Print Assumptions C114_accepted.

(** All other texts are rejected, with an ordinary error. *)
Theorem C114_rejected : forall sep bounds, ascii_char sep -> ~ is_dec_digit sep -> forall s debug, ascii s ->
  (forall ns, Forall2 le ns bounds -> s <> join sep (map dec ns)) ->
  exists fuel er, parse_with_debug fuel s (range_rules sep bounds) debug = Err er /\ e_priority er = Normal.
Proof. exact range_rejects. Qed.
Print Assumptions C114_rejected.

(** The text says what the numbers are. *)
Theorem C114_one_reading : forall sep, ~ is_dec_digit sep -> forall ns ms, join sep (map dec ns) = join sep (map dec ms) -> ns = ms.
Proof. exact join_one. Qed.
Print Assumptions C114_one_reading.

(** The rules must try the long numbers first: [[0-9] / [1-9][0-9]] does not accept all numbers up to 99. *)
Theorem C114_short_ones_first_refuted :
  ~ forall s n, n <= 99 -> s = dec n ->
    exists fuel t, parse fuel s (rules_macro [(main, Or [any_digit; And [ematch [] [(49, 57)%N]; any_digit]])]) = Ok t.
Proof.
  intro H. destruct (H (s_ "10") 10 ltac:(repeat constructor) eq_refl) as (fuel & t & P).
  assert (X : forall u, parse fuel (s_ "10") (rules_macro [(main, Or [any_digit; And [ematch [] [(49, 57)%N]; any_digit]])]) <> Ok u).
  { intros u. do 4 (destruct fuel as [|fuel]; [discriminate|]). discriminate. }
  exact (X t P).
Qed.
Print Assumptions C114_short_ones_first_refuted.

(** IPv4 addresses, and times of the day. *)
Definition ipv4 : rules := range_rules 46%N [255; 255; 255; 255].
Definition time_of_day : rules := range_rules 58%N [23; 59].
Definition accepted (o : outcome perror node) : bool := match o with Ok _ => true | _ => false end.
Definition rejected (o : outcome perror node) : bool := match o with Err _ => true | _ => false end.

Example C114_nonvacuous :
  ascii_char 46%N /\ ~ is_dec_digit 46%N /\ Forall2 le [192; 168; 0; 1] [255; 255; 255; 255] /\
  join 46%N (map dec [192; 168; 0; 1]) = s_ "192.168.0.1" /\
  accepted (parse 40 (s_ "192.168.0.1") ipv4) = true /\ accepted (parse 40 (s_ "255.255.255.255") ipv4) = true /\
  rejected (parse 40 (s_ "256.1.1.1") ipv4) = true /\ rejected (parse 40 (s_ "1.2.3") ipv4) = true /\ rejected (parse 40 (s_ "01.2.3.4") ipv4) = true /\
  accepted (parse 40 (s_ "23:59") time_of_day) = true /\ rejected (parse 40 (s_ "24:00") time_of_day) = true.
Proof.
  split; [reflexivity|]. split; [intros [H _]; apply N.leb_le in H; discriminate|].
  split; [repeat constructor|]. repeat split; reflexivity.
Qed.
