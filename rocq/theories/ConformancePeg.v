(** The tests of src/peg/test.rs, as computations of the model (generated by tools/gen_conformance.py). *)
From Verif Require Import Base ModelAst ModelParser ModelPegRules ModelPeg.

Definition is_ok {E A} (r : outcome E A) : bool := match r with Ok _ => true | _ => false end.
Definition is_err {E A} (r : outcome E A) : bool := match r with Err _ => true | _ => false end.
(** [rules_from_peg(peg).unwrap()], then [f]. *)
Definition unwrap_then {E} (r : outcome E rules) (f : rules -> bool) : bool := match r with Ok rs => f rs | _ => false end.
Definition fuel : nat := 300.

(** src/peg/test.rs:9-24. *)
Definition validate_peg1_text : str := [ch_nl] ++ s_ "    " ++ [ch_nl] ++ s_ "    main    = ""aaa"" ""bb"" c*  / ((d f)+ / es)" ++ [ch_nl] ++ s_ "    c       = c'" ++ [ch_nl] ++ s_ "    c'      = c''" ++ [ch_nl] ++ s_ "    c''     = ""c""" ++ [ch_nl] ++ s_ "    d       = ""d""" ++ [ch_nl] ++ s_ "    f       = ""f""" ++ [ch_nl] ++ s_ "    es       = ""e""+" ++ [ch_nl] ++ [ch_nl] ++ s_ "    ".
Example t_validate_peg1 : is_ok (parse fuel validate_peg1_text parse_peg) = true.
Proof. vm_compute. reflexivity. Qed.

(** src/peg/test.rs:26-44. *)
Definition validate_peg2_text : str := [ch_nl] ++ s_ "    " ++ [ch_nl] ++ s_ "    main    =   ""aaa"" " ++ [ch_nl] ++ s_ "            /   ""bb"" c*  " ++ [ch_nl] ++ s_ "            / ((d f)+ / es)" ++ [ch_nl] ++ [ch_nl] ++ s_ "    c       = c'" ++ [ch_nl] ++ s_ "    c'      = c''" ++ [ch_nl] ++ s_ "    c''     = ""c""" ++ [ch_nl] ++ s_ "    d       = ""d""" ++ [ch_nl] ++ s_ "    f       = ""f""" ++ [ch_nl] ++ s_ "    es       = ""e""+" ++ [ch_nl] ++ [ch_nl] ++ s_ "    ".
Example t_validate_peg2 : is_ok (parse fuel validate_peg2_text parse_peg) = true.
Proof. vm_compute. reflexivity. Qed.

(** src/peg/test.rs:46-61. *)
Definition invalid_peg1_text : str := [ch_nl] ++ s_ "    " ++ [ch_nl] ++ s_ "    main    = ""aaa"" ""bb"" c *  / ((d f)+ / es)" ++ [ch_nl] ++ s_ "    c       = c'" ++ [ch_nl] ++ s_ "    c'      = c''" ++ [ch_nl] ++ s_ "    c''     = ""c""" ++ [ch_nl] ++ s_ "    d       = ""d""" ++ [ch_nl] ++ s_ "    f       = ""f""" ++ [ch_nl] ++ s_ "    es       = ""e""+" ++ [ch_nl] ++ [ch_nl] ++ s_ "    ".
Example t_invalid_peg1 : is_err (parse fuel invalid_peg1_text parse_peg) = true.
Proof. vm_compute. reflexivity. Qed.

(** src/peg/test.rs:63-81. *)
Definition invalid_peg2_text : str := [ch_nl] ++ s_ "    " ++ [ch_nl] ++ s_ "    main    =   ""aaa"" " ++ [ch_nl] ++ s_ "            /   ""bb"" c*  " ++ [ch_nl] ++ s_ "            / ((d f)+ / es" ++ [ch_nl] ++ s_ "            " ++ [ch_nl] ++ s_ "    c       = c'" ++ [ch_nl] ++ s_ "    c'      = c''" ++ [ch_nl] ++ s_ "    c''     = ""c""" ++ [ch_nl] ++ s_ "    d       = ""d""" ++ [ch_nl] ++ s_ "    f       = ""f""" ++ [ch_nl] ++ s_ "    es       = ""e""+" ++ [ch_nl] ++ [ch_nl] ++ s_ "    ".
Example t_invalid_peg2 : is_err (parse fuel invalid_peg2_text parse_peg) = true.
Proof. vm_compute. reflexivity. Qed.

(** src/peg/test.rs:83-98. *)
Definition validate_peg3_text : str := [ch_nl] ++ s_ "    " ++ [ch_nl] ++ s_ "    main    = ""aaa ""bb"" c*  / ((d f)+ / es)" ++ [ch_nl] ++ s_ "    c       = c'" ++ [ch_nl] ++ s_ "    c'      = c''" ++ [ch_nl] ++ s_ "    c''     = ""c""" ++ [ch_nl] ++ s_ "    d       = ""d""" ++ [ch_nl] ++ s_ "    f       = ""f""" ++ [ch_nl] ++ s_ "    es       = ""e""+" ++ [ch_nl] ++ [ch_nl] ++ s_ "    ".
Example t_validate_peg3 : is_err (parse fuel validate_peg3_text parse_peg) = true.
Proof. vm_compute. reflexivity. Qed.

(** src/peg/test.rs:100-115. *)
Definition validate_peg4_text : str := [ch_nl] ++ s_ "    " ++ [ch_nl] ++ s_ "    ma in    = ""aaa"" ""bb"" c*  / ((d f)+ / es)" ++ [ch_nl] ++ s_ "    c       = c'" ++ [ch_nl] ++ s_ "    c'      = c''" ++ [ch_nl] ++ s_ "    c''     = ""c""" ++ [ch_nl] ++ s_ "    d       = ""d""" ++ [ch_nl] ++ s_ "    f       = ""f""" ++ [ch_nl] ++ s_ "    es       = ""e""+" ++ [ch_nl] ++ [ch_nl] ++ s_ "    ".
Example t_validate_peg4 : is_err (parse fuel validate_peg4_text parse_peg) = true.
Proof. vm_compute. reflexivity. Qed.

(** src/peg/test.rs:117-132. *)
Definition validate_peg5_text : str := [ch_nl] ++ s_ "    " ++ [ch_nl] ++ s_ "    main    = ""aaa"" ""bb"" c*  / ((d f)+* / es)" ++ [ch_nl] ++ s_ "    c       = c'" ++ [ch_nl] ++ s_ "    c'      = c''" ++ [ch_nl] ++ s_ "    c''     = ""c""" ++ [ch_nl] ++ s_ "    d       = ""d""" ++ [ch_nl] ++ s_ "    f       = ""f""" ++ [ch_nl] ++ s_ "    es       = ""e""+" ++ [ch_nl] ++ [ch_nl] ++ s_ "    ".
Example t_validate_peg5 : is_err (parse fuel validate_peg5_text parse_peg) = true.
Proof. vm_compute. reflexivity. Qed.

(** src/peg/test.rs:134-145. *)
Definition parse_literal_text : str := [ch_nl] ++ [ch_nl] ++ s_ "    main    = ""hello""" ++ [ch_nl] ++ [ch_nl] ++ s_ "    ".
Example t_parse_literal : unwrap_then (rules_from_peg fuel parse_literal_text) (fun rs =>
  is_ok (parse fuel (s_ "hello") rs)) = true.
Proof. vm_compute. reflexivity. Qed.

(** src/peg/test.rs:147-158. *)
Definition parse_and_literal_text : str := [ch_nl] ++ [ch_nl] ++ s_ "    main    = ""hello""   "" ""   ""world""" ++ [ch_nl] ++ [ch_nl] ++ s_ "    ".
Example t_parse_and_literal : unwrap_then (rules_from_peg fuel parse_and_literal_text) (fun rs =>
  is_ok (parse fuel (s_ "hello world") rs)) = true.
Proof. vm_compute. reflexivity. Qed.

(** src/peg/test.rs:160-176. *)
Definition parse_or_literal_text : str := [ch_nl] ++ [ch_nl] ++ s_ "    main    =   ""hello"" "" ""  ""world""   " ++ [ch_nl] ++ s_ "            /   ""hola""  "" ""  ""mundo""" ++ [ch_nl] ++ s_ "            /   ""hola""" ++ [ch_nl] ++ [ch_nl] ++ s_ "    ".
Example t_parse_or_literal : unwrap_then (rules_from_peg fuel parse_or_literal_text) (fun rs =>
  is_ok (parse fuel (s_ "hello world") rs)
  && is_ok (parse fuel (s_ "hola") rs)
  && is_ok (parse fuel (s_ "hola mundo") rs)
  && is_err (parse fuel (s_ "bye") rs)) = true.
Proof. vm_compute. reflexivity. Qed.

(** src/peg/test.rs:178-192. *)
Definition parse_ref_rule_text : str := [ch_nl] ++ [ch_nl] ++ s_ "    main    = ""hello""  "" ""   world" ++ [ch_nl] ++ [ch_nl] ++ s_ "    world   = ""world""" ++ [ch_nl] ++ [ch_nl] ++ s_ "    ".
Example t_parse_ref_rule : unwrap_then (rules_from_peg fuel parse_ref_rule_text) (fun rs =>
  is_ok (parse fuel (s_ "hello world") rs)
  && is_err (parse fuel (s_ "bye") rs)) = true.
Proof. vm_compute. reflexivity. Qed.

(** src/peg/test.rs:194-210. *)
Definition parse_parenth_text : str := [ch_nl] ++ [ch_nl] ++ s_ "    main    =   ""hello""  "" "" (world / ""mars"")" ++ [ch_nl] ++ [ch_nl] ++ s_ "    world   =   ""world""" ++ [ch_nl] ++ [ch_nl] ++ s_ "    ".
Example t_parse_parenth : unwrap_then (rules_from_peg fuel parse_parenth_text) (fun rs =>
  is_ok (parse fuel (s_ "hello world") rs)
  && is_ok (parse fuel (s_ "hello mars") rs)
  && is_err (parse fuel (s_ "hello pluto") rs)
  && is_err (parse fuel (s_ "hello") rs)) = true.
Proof. vm_compute. reflexivity. Qed.

(** src/peg/test.rs:212-228. *)
Definition parse_klean_text : str := [ch_nl] ++ [ch_nl] ++ s_ "    main    =   ""a""*" ++ [ch_nl] ++ [ch_nl] ++ s_ "    ".
Example t_parse_klean : unwrap_then (rules_from_peg fuel parse_klean_text) (fun rs =>
  is_ok (parse fuel (s_ "aaaaaa") rs)
  && is_ok (parse fuel (s_ "a") rs)
  && is_ok (parse fuel ([]) rs)
  && is_err (parse fuel (s_ "bbb") rs)
  && is_err (parse fuel (s_ "b") rs)
  && is_err (parse fuel (s_ "aab") rs)) = true.
Proof. vm_compute. reflexivity. Qed.

(** src/peg/test.rs:230-246. *)
Definition parse_one_or_more_text : str := [ch_nl] ++ [ch_nl] ++ s_ "    main    =   ""a""+" ++ [ch_nl] ++ [ch_nl] ++ s_ "    ".
Example t_parse_one_or_more : unwrap_then (rules_from_peg fuel parse_one_or_more_text) (fun rs =>
  is_ok (parse fuel (s_ "aaaaaa") rs)
  && is_ok (parse fuel (s_ "a") rs)
  && is_err (parse fuel ([]) rs)
  && is_err (parse fuel (s_ "bbb") rs)
  && is_err (parse fuel (s_ "b") rs)
  && is_err (parse fuel (s_ "aab") rs)) = true.
Proof. vm_compute. reflexivity. Qed.

(** src/peg/test.rs:248-264. *)
Definition parse_one_or_zero_text : str := [ch_nl] ++ [ch_nl] ++ s_ "    main    =   ""a""?" ++ [ch_nl] ++ [ch_nl] ++ s_ "    ".
Example t_parse_one_or_zero : unwrap_then (rules_from_peg fuel parse_one_or_zero_text) (fun rs =>
  is_err (parse fuel (s_ "aaaaaa") rs)
  && is_ok (parse fuel (s_ "a") rs)
  && is_ok (parse fuel ([]) rs)
  && is_err (parse fuel (s_ "bbb") rs)
  && is_err (parse fuel (s_ "b") rs)
  && is_err (parse fuel (s_ "ab") rs)) = true.
Proof. vm_compute. reflexivity. Qed.

(** src/peg/test.rs:266-280. *)
Definition parse_negation_text : str := [ch_nl] ++ [ch_nl] ++ s_ "    main    =   !""bye""  ""hello""" ++ [ch_nl] ++ [ch_nl] ++ s_ "    ".
Example t_parse_negation : unwrap_then (rules_from_peg fuel parse_negation_text) (fun rs =>
  is_ok (parse fuel (s_ "hello") rs)
  && is_err (parse fuel (s_ "bye") rs)
  && is_err (parse fuel (s_ "hi") rs)
  && is_err (parse fuel (s_ "bye hello") rs)) = true.
Proof. vm_compute. reflexivity. Qed.

(** src/peg/test.rs:282-296. *)
Definition parse_dot_text : str := [ch_nl] ++ [ch_nl] ++ s_ "    main    =   . . . . ." ++ [ch_nl] ++ [ch_nl] ++ s_ "    ".
Example t_parse_dot : unwrap_then (rules_from_peg fuel parse_dot_text) (fun rs =>
  is_ok (parse fuel (s_ "hello") rs)
  && is_ok (parse fuel (s_ "hola.") rs)
  && is_err (parse fuel (s_ "hi") rs)
  && is_err (parse fuel (s_ "bye hello") rs)) = true.
Proof. vm_compute. reflexivity. Qed.

(** src/peg/test.rs:298-318. *)
Definition parse_dot_with_rep_text : str := [ch_nl] ++ [ch_nl] ++ s_ "    main    =   (!""h"" .)*  ""hello""" ++ [ch_nl] ++ [ch_nl] ++ s_ "    ".
Example t_parse_dot_with_rep : unwrap_then (rules_from_peg fuel parse_dot_with_rep_text) (fun rs =>
  is_ok (parse fuel (s_ "-----hello") rs)
  && is_ok (parse fuel (s_ "_hello") rs)
  && is_ok (parse fuel (s_ "hello") rs)
  && is_ok (parse fuel (s_ "Hola hello") rs)
  && is_err (parse fuel (s_ "hola hello") rs)
  && is_err (parse fuel (s_ "hola_hello") rs)
  && is_err (parse fuel (s_ "Hello") rs)
  && is_err (parse fuel (s_ "bye") rs)
  && is_err (parse fuel (s_ "hola") rs)
  && is_err (parse fuel (s_ "hello hola") rs)) = true.
Proof. vm_compute. reflexivity. Qed.

(** src/peg/test.rs:320-329. *)
Definition peg_incorrect_match_text : str := [ch_nl] ++ [ch_nl] ++ s_ "    main    =   [A-Zab]" ++ [ch_nl] ++ [ch_nl] ++ s_ "    ".
Example t_peg_incorrect_match : is_err (rules_from_peg fuel peg_incorrect_match_text) = true.
Proof. vm_compute. reflexivity. Qed.

(** src/peg/test.rs:331-349. *)
Definition test_match_text : str := [ch_nl] ++ [ch_nl] ++ s_ "    main    =   [123A-X]+" ++ [ch_nl] ++ [ch_nl] ++ s_ "    ".
Example t_test_match : unwrap_then (rules_from_peg fuel test_match_text) (fun rs =>
  is_ok (parse fuel (s_ "1111") rs)
  && is_ok (parse fuel (s_ "222311") rs)
  && is_ok (parse fuel (s_ "ABCDEF") rs)
  && is_err (parse fuel (s_ "ABCDEF4") rs)
  && is_err (parse fuel ([]) rs)
  && is_err (parse fuel (s_ "1234") rs)
  && is_err (parse fuel (s_ "Z") rs)
  && is_err (parse fuel (s_ "ABZ") rs)) = true.
Proof. vm_compute. reflexivity. Qed.
