(** Concrete grammars and texts used to show that the hypotheses of the theorems can be met. *)
From Verif Require Import Base ModelAst ModelParser SpecPeg SpecPos SpecApi.

(** main = 'a' digit{1,3} !'x' tail ; digit = [0-9] ; tail = ';'* / error("no tail") *)
Definition ex_rules : rules := rules_macro
  [ (s_ "main", And [lit (s_ "a"); Repeat (ref_rule (s_ "digit")) 1 (Some 3); Not (lit (s_ "x")); ref_rule (s_ "tail")]);
    (s_ "digit", ematch [] [(48%N, 57%N)]);
    (s_ "tail", Or [Repeat (lit (s_ ";")) 1 None; error_ (s_ "no tail")]) ].

Definition ex_text : str := s_ "a12;;".
Definition ex_text_bad : str := s_ "a" ++ [ch_nl] ++ s_ "x".
Definition ex_text_abort : str := s_ "a12y".

Lemma sane_rules_all : forall rs : rules, Forall (fun p => sane (snd p)) rs -> sane_rules rs.
Proof.
  intros rs H n e E. induction rs as [|[k x] rs IH]; cbn in E; [discriminate|].
  inversion H; subst. destruct (str_eqb k n); [injection E as <-; assumption|auto].
Qed.

Lemma ex_rules_sane : sane_rules ex_rules.
Proof. apply sane_rules_all. repeat constructor. Qed.

Lemma ascii_all : forall s, forallb (fun c => (c <? 128)%N) s = true -> ascii s.
Proof.
  induction s as [|c s IH]; intro H; constructor; cbn in H; apply andb_true_iff in H; destruct H as [H1 H2].
  - apply N.ltb_lt. exact H1.
  - apply IH. exact H2.
Qed.

Lemma ex_text_ascii : ascii ex_text /\ ascii ex_text_bad /\ ascii ex_text_abort.
Proof. repeat split; apply ascii_all; reflexivity. Qed.

(** The tree of [ex_text]. *)
Definition ex_tree : node :=
  Rule (s_ "main") [Val (s_ "a"); Rule (s_ "digit") [Val (s_ "1")]; Rule (s_ "digit") [Val (s_ "2")];
                    Rule (s_ "tail") [Val (s_ ";"); Val (s_ ";")]].

Lemma ex_parse : parse 20 ex_text ex_rules = Ok ex_tree.
Proof. vm_compute. reflexivity. Qed.

(** A boolean check for the absence of EOF atoms. *)
Fixpoint eof_atom_free (e : expr) : bool :=
  match e with
  | Simple AEOF => false
  | Simple _ | RuleName _ => true
  | And es | Or es => forallb eof_atom_free es
  | Not e1 | Repeat e1 _ _ => eof_atom_free e1
  end.

Lemma eof_atom_free_ok : forall e, has_atom AEOF e -> eof_atom_free e = false.
Proof.
  intros e H. induction H as [|e es Hin H IH|e es Hin H IH|e H IH|e mn mx H IH]; cbn; try assumption; try reflexivity.
  - destruct (forallb eof_atom_free es) eqn:F; [|reflexivity]. rewrite forallb_forall in F. rewrite (F e Hin) in IH. discriminate.
  - destruct (forallb eof_atom_free es) eqn:F; [|reflexivity]. rewrite forallb_forall in F. rewrite (F e Hin) in IH. discriminate.
Qed.

Lemma no_eof_all : forall rs : rules, forallb (fun p => eof_atom_free (snd p)) rs = true -> no_eof_atom rs.
Proof.
  intros rs H n e E X. apply eof_atom_free_ok in X. induction rs as [|[k x] rs IH]; cbn in E; [discriminate|].
  cbn in H. apply andb_true_iff in H. destruct H as [H1 H2].
  destruct (str_eqb k n); [injection E as <-; congruence|auto].
Qed.

Lemma ex_no_eof : no_eof_atom ex_rules.
Proof. apply no_eof_all. reflexivity. Qed.
