(** The grammar texts of the documentation (README.md, src/lib.rs), and what they are documented to accept. *)
From Verif Require Import Base ModelAst ModelParser ModelPeg SpecPeg SpecApi SpecLang.

Definition nl : str := [ch_nl].

(** Reading the grammar text [g] and parsing [s] with its rules gives the tree [t]. *)
Definition accepts (g s : str) (t : node) : Prop :=
  exists f rs, rules_from_peg f g = Ok rs /\ parse f s rs = Ok t.

(** ... gives an error: of the grammar (an [error(..)]) with this message, at this number of chars. *)
Definition complains (g s msg : str) (n : nat) : Prop :=
  exists f rs er, rules_from_peg f g = Ok rs /\ parse f s rs = Err er /\ e_priority er = Critical /\ e_descr er = msg /\ pn (e_pos er) = n.

(** ... gives some error. *)
Definition rejects (g s : str) : Prop := exists f rs er, rules_from_peg f g = Ok rs /\ parse f s rs = Err er.

(* ------------------------------------------------------------------------------------------- *)
(** * Basic example: a letter, followed by letters and digits (lib.rs:12-32) *)

Definition basic_text : str := nl ++ nl ++ s_ "    main            =   letter letter_or_num+" ++ nl ++ nl ++ s_ "    letter          =   [a-zA-Z]" ++ nl ++ nl ++
  s_ "    letter_or_num   =   letter" ++ nl ++ s_ "                    /   number" ++ nl ++ nl ++ s_ "    number          =   [0-9]" ++ nl ++ nl ++ s_ "            ".

Definition is_letter (c : char) : bool := ((97 <=? c) && (c <=? 122) || (65 <=? c) && (c <=? 90))%N.
Definition is_digit (c : char) : bool := ((48 <=? c) && (c <=? 57))%N.

Definition basic_char (c : char) : node := Rule (s_ "letter_or_num") [Rule (if is_letter c then s_ "letter" else s_ "number") [Val [c]]].
Definition basic_tree (c : char) (w : str) : node := Rule main (Rule (s_ "letter") [Val [c]] :: map basic_char w).

(* ------------------------------------------------------------------------------------------- *)
(** * Example 2 (README) *)

Definition example2_text : str := nl ++ nl ++ s_ "    main    =   'a' ( 'bc'  'c'" ++ nl ++ s_ "                    /  'bcdd'" ++ nl ++ s_ "                    / b_and_c  d_or_z" ++ nl ++
  s_ "                    )" ++ nl ++ nl ++ s_ "    b_and_c =   'b'   'c'" ++ nl ++ s_ "    d_or_z  =   'd' / 'z'" ++ nl ++ nl ++ s_ "        ".

(* ------------------------------------------------------------------------------------------- *)
(** * Unbalanced parenthesis (lib.rs:86-105) *)

Definition unbalanced_text : str := nl ++ nl ++ s_ "     main    =   '('  main   ( ')'  /  error(""unbalanced parenthesis"") )" ++ nl ++ s_ "             /   'hello'" ++ nl ++ nl ++ s_ "         ".

Definition unbalanced_msg : str := s_ "unbalanced parenthesis".

(** The tree of 'hello' in [n] pairs of parentheses. *)
Fixpoint hello_tree (n : nat) : node :=
  match n with
  | 0 => Rule main [Val (s_ "hello")]
  | S k => Rule main [Val (s_ "("); hello_tree k; Val (s_ ")")]
  end.

(* ------------------------------------------------------------------------------------------- *)
(** * Calculator (lib.rs:37-81) *)

Definition calculator_text : str := nl ++ nl ++ s_ "     main            =   _  expr  _" ++ nl ++ nl ++
  s_ "     expr            =   add_t       (_  add_op  _   add_t)*" ++ nl ++ s_ "                     /   portion_expr" ++ nl ++ nl ++
  s_ "     add_t           =   fact_t      (_  fact_op _   fact_t)*" ++ nl ++ nl ++ s_ "     fact_t          =   portion_expr" ++ nl ++ nl ++
  s_ "     portion_expr    =   '(' expr ')'" ++ nl ++ s_ "                     /   item" ++ nl ++ nl ++ s_ "     item            =   num" ++ nl ++ nl ++
  s_ "     num             =   [0-9]+ ('.' [0-9]+)?" ++ nl ++ s_ "     add_op          =   '+'  /  '-'" ++ nl ++ s_ "     fact_op         =   '*'  /  '/'" ++ nl ++ nl ++
  s_ "     _               =   ' '*" ++ nl ++ nl ++ s_ "         ".

(** Numbers, products and sums as they are written: with the blanks before and after each operator. *)
Inductive prim : Type :=
| Num (whole : str) (fraction : option str)
| Par (e : total)
with product : Type :=
| One (p : prim)
| Mul (p : prim) (before : nat) (op : char) (after : nat) (q : product)
with total : Type :=
| Term (q : product)
| Add (q : product) (before : nat) (op : char) (after : nat) (e : total).

Definition digits (w : str) : Prop := w <> [] /\ Forall (fun c => is_digit c = true) w.
Definition is_mul (c : char) : Prop := c = 42%N \/ c = 47%N.   (* '*' '/' *)
Definition is_add (c : char) : Prop := c = 43%N \/ c = 45%N.   (* '+' '-' *)

Fixpoint ok_prim (p : prim) : Prop :=
  match p with Num w f => digits w /\ (match f with None => True | Some v => digits v end) | Par e => ok_sum e end
with ok_prod (q : product) : Prop :=
  match q with One p => ok_prim p | Mul p _ op _ q' => ok_prim p /\ is_mul op /\ ok_prod q' end
with ok_sum (e : total) : Prop :=
  match e with Term q => ok_prod q | Add q _ op _ e' => ok_prod q /\ is_add op /\ ok_sum e' end.

Definition blanks (n : nat) : str := repeat 32%N n.

(** The text. *)
Fixpoint show_prim (p : prim) : str :=
  match p with
  | Num w None => w
  | Num w (Some v) => w ++ s_ "." ++ v
  | Par e => s_ "(" ++ show_sum e ++ s_ ")"
  end
with show_prod (q : product) : str :=
  match q with One p => show_prim p | Mul p i op j q' => show_prim p ++ blanks i ++ [op] ++ blanks j ++ show_prod q' end
with show_sum (e : total) : str :=
  match e with Term q => show_prod q | Add q i op j e' => show_prod q ++ blanks i ++ [op] ++ blanks j ++ show_sum e' end.

(** The tree the parser builds. *)
Definition digits_tree (w : str) : list node := map (fun c => Val [c]) w.
Definition blanks_tree (n : nat) : node := Rule (s_ "_") (repeat (Val (s_ " ")) n).
Definition op_tree (rule : str) (i : nat) (op : char) (j : nat) : list node := [blanks_tree i; Rule rule [Val [op]]; blanks_tree j].

Fixpoint tree_prim (p : prim) : node :=
  Rule (s_ "fact_t") [Rule (s_ "portion_expr")
    match p with
    | Num w None => [Rule (s_ "item") [Rule (s_ "num") (digits_tree w)]]
    | Num w (Some v) => [Rule (s_ "item") [Rule (s_ "num") (digits_tree w ++ Val (s_ ".") :: digits_tree v)]]
    | Par e => [Val (s_ "("); Rule (s_ "expr") (tree_sum e); Val (s_ ")")]
    end]
with tree_prod (q : product) : list node :=
  match q with One p => [tree_prim p] | Mul p i op j q' => tree_prim p :: op_tree (s_ "fact_op") i op j ++ tree_prod q' end
with tree_sum (e : total) : list node :=
  match e with
  | Term q => [Rule (s_ "add_t") (tree_prod q)]
  | Add q i op j e' => Rule (s_ "add_t") (tree_prod q) :: op_tree (s_ "add_op") i op j ++ tree_sum e'
  end.

Definition calculator_tree (i : nat) (e : total) (j : nat) : node :=
  Rule main [blanks_tree i; Rule (s_ "expr") (tree_sum e); blanks_tree j].

(** ... and what the example makes of it: a sum is a list of terms and signs, a term a list of factors and signs. *)
Definition tidy (t : node) : node := pass_through_except [main; s_ "add_t"; s_ "fact_t"] (prune [s_ "_"] (compact t)).

Fixpoint tidy_prim (p : prim) : node :=
  Rule (s_ "fact_t")
    match p with Num w f => [Val (show_prim (Num w f))] | Par e => Val (s_ "(") :: tidy_sum e ++ [Val (s_ ")")] end
with tidy_prod (q : product) : list node :=
  match q with One p => [tidy_prim p] | Mul p _ op _ q' => tidy_prim p :: Val [op] :: tidy_prod q' end
with tidy_sum (e : total) : list node :=
  match e with
  | Term q => [Rule (s_ "add_t") (tidy_prod q)]
  | Add q _ op _ e' => Rule (s_ "add_t") (tidy_prod q) :: Val [op] :: tidy_sum e'
  end.

(* ------------------------------------------------------------------------------------------- *)
(** * Other examples *)

Definition hello_text : str := nl ++ s_ "main    =   'hello'   ' '   'world'  dot" ++ nl ++ s_ "dot     =   ""\0x2E""" ++ nl ++ s_ "        ".
Definition comments_text : str := nl ++ s_ "         //  classic hello world" ++ nl ++ s_ "         main    =   'hello'   ' '   'world'" ++ nl ++ nl ++
  s_ "         /*  with a multiline comment" ++ nl ++ s_ "         */" ++ nl ++ s_ "        ".
Definition shadow_text : str := s_ "    main    =   'hello'" ++ nl ++ s_ "            /   'hello world'" ++ nl ++ s_ "            /   'hola'" ++ nl.

(** The comments of README, "Consume till" (README.md:651-660), with a main rule, and [quoted] for what ends a line comment. *)
Definition comment_text (quoted : str) : str := s_ "main    = comment" ++ nl ++ s_ "//  This is a line comment" ++ nl ++ s_ "/*  This is a" ++ nl ++
  s_ "    multiline comment  */" ++ nl ++ s_ "comment = '//' (!" ++ quoted ++ s_ " .)*       //  line comment can be at the end of line" ++ nl ++
  s_ "        / '/*' (!'*/' .)* '*/'  /*  a multiline comment can start" ++ nl ++ s_ "                                    at any place" ++ nl ++
  s_ "                                */" ++ nl.

Definition char_trees (w : str) : list node := map (fun c => Val [c]) w.
(** A line comment goes on to the end of the text, without [stop]; the other kind to the first closing mark. *)
Definition is_comment (stop s : str) (t : node) : Prop :=
  (exists w, s = s_ "//" ++ w /\ (forall a b, w <> a ++ stop ++ b) /\ t = Rule main [Rule (s_ "comment") (Val (s_ "//") :: char_trees w)]) \/
  (exists w, s = s_ "/*" ++ w ++ s_ "*/" /\ first_at (s_ "*/") (w ++ s_ "*/") w [] /\
     t = Rule main [Rule (s_ "comment") (Val (s_ "/*") :: char_trees w ++ [Val (s_ "*/")])]).

(** The calculator without its rule's last alternative [/ portion_expr]. *)
Definition lean_text : str := nl ++ nl ++ s_ "     main            =   _  expr  _" ++ nl ++ nl ++
  s_ "     expr            =   add_t       (_  add_op  _   add_t)*" ++ nl ++ nl ++
  s_ "     add_t           =   fact_t      (_  fact_op _   fact_t)*" ++ nl ++ nl ++ s_ "     fact_t          =   portion_expr" ++ nl ++ nl ++
  s_ "     portion_expr    =   '(' expr ')'" ++ nl ++ s_ "                     /   item" ++ nl ++ nl ++ s_ "     item            =   num" ++ nl ++ nl ++
  s_ "     num             =   [0-9]+ ('.' [0-9]+)?" ++ nl ++ s_ "     add_op          =   '+'  /  '-'" ++ nl ++ s_ "     fact_op         =   '*'  /  '/'" ++ nl ++ nl ++
  s_ "     _               =   ' '*" ++ nl ++ nl ++ s_ "         ".
