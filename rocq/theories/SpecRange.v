(** Numbers up to given bounds, as in addresses, dates and times: rules made from the digits of the bounds. *)
From Verif Require Import Base ModelAst ModelParser SpecApi SpecTable.

Definition any_digit : expr := ematch [] [(48, 57)%N].

(** As many digits as [ds], and not more than these: a smaller first digit and then any digits, or the same first digit and so on.
    The first digit is [lo] at least. *)
Fixpoint upto_same (lo : char) (ds : str) : expr :=
  match ds with
  | [] => And []
  | d :: r => Or [And (ematch [] [(lo, N.pred d)] :: repeat any_digit (length r)); And [lit [d]; upto_same 48%N r]]
  end.

(** Numbers with [k] digits, with one digit less, and so on. *)
Fixpoint upto_shorter (k : nat) : list expr :=
  match k with
  | 0 => []
  | S j => And (ematch [] [(49, 57)%N] :: repeat any_digit j) :: upto_shorter j
  end.

(** Decimal numbers up to [n], the long ones first.  ([dec n] is how [n] is printed.) *)
Definition upto (n : nat) : expr :=
  Or (upto_same 49%N (dec n) :: upto_shorter (length (dec n) - 1) ++ [lit (s_ "0")]).

(** Numbers with a separator between them, each with its bound. *)
Fixpoint fields (sep : char) (bounds : list nat) : list expr :=
  match bounds with
  | [] => []
  | [n] => [upto n]
  | n :: r => upto n :: lit [sep] :: fields sep r
  end.
Definition range_rules (sep : char) (bounds : list nat) : rules := rules_macro [(main, And (fields sep bounds))].

Definition is_dec_digit (c : char) : Prop := (48 <= c <= 57)%N.
