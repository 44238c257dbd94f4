(** Model of src/peg/peg2code.rs:118-127 and of src/main.rs:4-6, the program of the crate. *)
From Verif Require Import Base ModelAst ModelParser ModelPeg ModelGcode ModelPeg2code.

(** src/peg/peg2code.rs:118-127 [print_rules2parse_peg]: what is printed on standard output ([println!] adds a line
    break), or the panic after an error.  [order] is the order in which a hash map is iterated. *)
Definition print_rules2parse_peg (fuel : nat) (order : rules -> list (str * expr)) : outcome unit str :=
  match rules_from_peg fuel text_peg2code with
  | Ok rs => Ok (rust_from_rules (order rs) ++ [ch_nl])
  | Err _ => Panic
  | Panic => Panic
  | Fuel => Fuel
  end.
