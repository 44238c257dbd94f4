(** Notions used to state what parsing copies. *)
From Verif Require Import Base ModelAst ModelParser SpecApi.

(** No line of [s] has more than [l] chars: every stretch of [s] without a line break is that short. *)
Definition lines_within (l : nat) (s : str) : Prop :=
  forall u v w, s = u ++ v ++ w -> ~ In ch_nl v -> length v <= l.

(** [main = ('b' / 'a')*], and the text [a...a] of [n] chars, all on one line. *)
Definition one_line_rules : rules := rules_macro [(main, rep0 (Or [lit (s_ "b"); lit (s_ "a")]) 0)].
Definition one_line_text (n : nat) : str := repeat 97%N n.

(** [main = x*] with [x = '\n'], and the text of [n] line breaks: all lines are empty. *)
Definition breaks_rules : rules := rules_macro [(main, rep0 (ref_rule (s_ "x")) 0); (s_ "x", lit [ch_nl])].
Definition breaks_text (n : nat) : str := repeat ch_nl n.

(** The chars in a tree: texts and names. *)
Fixpoint texts (nd : node) : nat :=
  match nd with
  | Val v => length v
  | Rule n ns => length n + fold_right (fun x k => texts x + k) 0 ns
  | EOF => 0
  end.

(** The chars in an error: the message, both parts of the line, and the trace. *)
Definition error_texts (er : perror) : nat :=
  length (e_descr er) + length (e_line_before er) + length (e_line_after er) + length (concat (e_parsing_rules er)).

(** [main = 'a'* 'a'* ..], [main = 'a'* !'a' !'a' ..] and [main = 'a'* ('a' / 'a' / .. / '')]. *)
Definition many : expr := rep0 (lit (s_ "a")) 0.
Definition manys (n : nat) : rules := [(main, And (many :: repeat many n))].
Definition nots (n : nat) : rules := [(main, And (many :: repeat (Not (lit (s_ "a"))) n))].
Definition ors (n : nat) : rules := [(main, And [many; Or (repeat (lit (s_ "a")) n ++ [lit []])])].
