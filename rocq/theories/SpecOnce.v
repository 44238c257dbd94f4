(** Options in any order, none of them twice: rules that look at the text that follows. *)
From Verif Require Import Base ModelAst ModelParser SpecApi.

(** An option is a word and the mark at its end. *)
Definition option_text (mark : char) (w : str) : str := w ++ [mark].
Definition options_text (mark : char) (l : list str) : str := flat_map (option_text mark) l.

(** Up to the next mark. *)
Definition skip_option (mark : char) : expr := And [rep0 (And [Not (lit [mark]); dot_]) 0; lit [mark]].
(** The option comes at some place in the rest of the text. *)
Definition comes (mark : char) (w : str) : expr :=
  And [rep0 (And [Not (lit (option_text mark w)); skip_option mark]) 0; lit (option_text mark w)].

(** [main = !!comes(r1) .. !!comes(rn) (w1 ; !comes(w1) / .. / wm ; !comes(wm))*]:
    the options [required] have to be there, and only the options [known] can be there. *)
Definition once_rules (mark : char) (required known : list str) : rules := rules_macro
  [(main, And (map (fun w => Not (Not (comes mark w))) required ++
               [rep0 (Or (map (fun w => And [lit (option_text mark w); Not (comes mark w)]) known)) 0]))].
