(** Proofs about the program that reads JSON. *)
From Verif Require Import Base ModelAst ModelParser ModelPeg SpecPeg SpecPos SpecApi SpecWf SpecLang SpecDocs SpecJson SpecDecode.
From Verif Require Import ProofParser ProofApi ProofAst ProofEngine ProofPegMono ProofDocs ProofJson.

Lemma sub_nodes : forall n kids rest, consume_node_get_subnodes_for_rule_name_is n (Rule n kids :: rest) = Ok (rest, kids).
Proof. intros. unfold consume_node_get_subnodes_for_rule_name_is. cbn [split_first_nodes bind]. rewrite str_eqb_refl. reflexivity. Qed.
Lemma this_val : forall v rest, consume_this_value v (Val v :: rest) = Ok rest.
Proof. intros. unfold consume_this_value. cbn [split_first_nodes bind get_node_val]. rewrite str_eqb_refl. reflexivity. Qed.
Lemma read_quoted : forall x, read_string [Val (quoted x)] = Ok x.
Proof.
  intro x. unfold read_string, quoted. cbn [get_nodes_unique_val hd_error length get_node_val bind].
  change (s_ """" ++ x ++ s_ """") with (34%N :: x ++ [34%N]). cbn [tl]. rewrite removelast_last. reflexivity.
Qed.

Lemma read_items_ok : forall X (tr : X -> node) item close n l, str_eqb close (s_ ",") = false -> l <> [] ->
  Forall (fun x => forall rest, item (tr x :: rest) = Ok (x, rest)) l -> length l <= n ->
  read_items n item close (commas (map tr l) ++ [Val close]) = Ok l.
Proof.
  intros X tr item close n l HC. revert n. induction l as [|x l IH]; intros n NE H L; [contradiction|]. destruct n as [|n]; [cbn in L; lia|].
  inversion H as [|? ? Hx Hl]; subst. cbn [length] in L. cbn [map commas app read_items]. rewrite Hx. cbn [bind].
  destruct l as [|y l].
  - cbn [map flat_map app consume_val split_first_nodes bind]. rewrite HC, str_eqb_refl. reflexivity.
  - cbn [map flat_map app consume_val split_first_nodes bind]. change (str_eqb (s_ ",") (s_ ",")) with true. cbn iota.
    specialize (IH n ltac:(discriminate) Hl ltac:(cbn [length] in *; lia)). cbn [map commas app] in IH. rewrite IH. reflexivity.
Qed.

Fixpoint jsize (v : json) : nat :=
  match v with
  | JArray l => S (list_sum (map (fun x => S (jsize x)) l))
  | JObject l => S (list_sum (map (fun kv => S (jsize (snd kv))) l))
  | _ => 1
  end.
Lemma list_sum_le : forall X (g : X -> nat) l, length l <= list_sum (map (fun x => S (g x)) l) /\ Forall (fun x => g x <= list_sum (map (fun x => S (g x)) l)) l.
Proof.
  intros X g l. induction l as [|x l [L F]]; [split; [apply Nat.le_refl|constructor]|]. change (list_sum (map (fun x => S (g x)) (x :: l))) with (S (g x) + list_sum (map (fun x => S (g x)) l)). split; [cbn [length]; lia|].
  constructor; [lia|]. eapply Forall_impl; [|exact F]. cbn beta. intros a Ha. lia.
Qed.

Opaque consume_node_get_subnodes_for_rule_name_is consume_this_value.

Lemma read_value_ok : forall v f rest, jsize v <= f -> read_value f (json_tree v :: rest) = Ok (v, rest).
Proof.
  induction v as [| | |n|x|l IH|l IH] using json_ind'; intros f rest L; (destruct f as [|f]; [cbn in L; lia|]).
  1-5: (cbn [json_tree read_value]; rewrite sub_nodes; cbn [bind peek_first_node]; unfold string_tree; cbn [get_node_val get_nodename_and_nodes bind]).
  - reflexivity.
  - reflexivity.
  - reflexivity.
  - reflexivity.
  - change (str_eqb (s_ "string") (s_ "number")) with false. change (str_eqb (s_ "string") (s_ "string")) with true. cbn iota. rewrite read_quoted. reflexivity.
  - cbn [jsize] in L. destruct (list_sum_le json jsize l) as [LL LF]. destruct l as [|y l].
    + cbn [json_tree read_value]. rewrite sub_nodes. reflexivity.
    + cbn [json_tree read_value]. rewrite sub_nodes. cbn [bind peek_first_node get_node_val get_nodename_and_nodes].
      change (str_eqb (s_ "array") (s_ "number")) with false. change (str_eqb (s_ "array") (s_ "string")) with false. change (str_eqb (s_ "array") (s_ "array")) with true. cbn iota.
      unfold read_list. cbn [app get_nodes_unique_val hd_error length map commas].
      rewrite this_val. cbn [bind]. fold (map json_tree (y :: l)).
      assert (H : read_items f (read_value f) (s_ "]") (commas (map json_tree (y :: l)) ++ [Val (s_ "]")]) = Ok (y :: l)).
      { apply read_items_ok; [reflexivity|discriminate| |lia]. rewrite Forall_forall in *. intros a Ia rest'. apply IH; [exact Ia|]. specialize (LF a Ia). lia. }
      cbn [map commas app] in H. rewrite H. reflexivity.
  - cbn [jsize] in L. destruct (list_sum_le (str * json) (fun kv => jsize (snd kv)) l) as [LL LF]. destruct l as [|y l].
    + cbn [json_tree read_value]. rewrite sub_nodes. reflexivity.
    + cbn [json_tree read_value]. rewrite sub_nodes. cbn [bind peek_first_node get_node_val get_nodename_and_nodes].
      change (str_eqb (s_ "object") (s_ "number")) with false. change (str_eqb (s_ "object") (s_ "string")) with false. change (str_eqb (s_ "object") (s_ "array")) with false.
      change (str_eqb (s_ "object") (s_ "object")) with true. cbn iota.
      unfold read_list. cbn [app get_nodes_unique_val hd_error length map commas].
      rewrite this_val. cbn [bind].
      assert (H : read_items f (read_member (read_value f)) (s_ "}")
        (commas (map (fun kv => Rule (s_ "member") [string_tree (fst kv); Val (s_ ":"); json_tree (snd kv)]) (y :: l)) ++ [Val (s_ "}")]) = Ok (y :: l)).
      { apply read_items_ok; [reflexivity|discriminate| |lia]. rewrite Forall_forall in *. intros a Ia rest'. unfold read_member. rewrite sub_nodes. cbn [bind]. unfold string_tree.
        rewrite sub_nodes. cbn [bind]. rewrite read_quoted. cbn [bind]. rewrite this_val. cbn [bind]. rewrite IH; [|exact Ia|specialize (LF a Ia); lia].
        cbn [bind check_empty_nodes]. destruct a as [k v]. reflexivity. }
      cbn [map commas app] in H. rewrite H. reflexivity.
Qed.

Lemma read_tree_ok : forall v f, jsize v <= f -> read_tree f (Rule main [json_tree v]) = Ok v.
Proof.
  intros v f L. unfold read_tree. change (s_ "main") with main. rewrite sub_nodes. cbn [bind]. rewrite read_value_ok by exact L. reflexivity.
Qed.

(** ** More fuel changes no answer *)
Notation le2 m m' := (m = Fuel \/ m = m').
Lemma items_mono : forall X f f' (it it' : list node -> outcome ast_error (X * list node)) c t, f <= f' -> (forall t, le2 (it t) (it' t)) ->
  le2 (read_items f it c t) (read_items f' it' c t).
Proof.
  induction f as [|f IH]; intros f' it it' c t L H; [left; reflexivity|]. destruct f' as [|f']; [lia|]. cbn [read_items].
  destruct (H t) as [E|E]; rewrite E; [left; reflexivity|]. destruct (it' t) as [[x r]|e| |]; cbn [bind]; try (right; reflexivity).
  destruct (consume_val r) as [[v r']|e| |]; cbn [bind]; try (right; reflexivity). destruct (str_eqb v (s_ ",")); [|right; reflexivity].
  destruct (IH f' it it' c r' ltac:(lia) H) as [E2|E2]; rewrite E2; [left; reflexivity|right; reflexivity].
Qed.
Lemma list_mono : forall X f f' (it it' : list node -> outcome ast_error (X * list node)) o c t, f <= f' -> (forall t, le2 (it t) (it' t)) ->
  le2 (read_list f it o c t) (read_list f' it' o c t).
Proof.
  intros X f f' it it' o c t L H. unfold read_list. destruct (get_nodes_unique_val t) as [v|e| |]; try (right; reflexivity);
    (destruct (consume_this_value o t) as [r|e'| |]; cbn [bind]; try (right; reflexivity); apply items_mono; assumption).
Qed.
Lemma member_mono : forall (v v' : list node -> outcome ast_error (json * list node)) t, (forall t, le2 (v t) (v' t)) -> le2 (read_member v t) (read_member v' t).
Proof.
  intros v v' t H. unfold read_member. destruct (consume_node_get_subnodes_for_rule_name_is (s_ "member") t) as [[r k]|e| |]; cbn [bind]; try (right; reflexivity).
  destruct (consume_node_get_subnodes_for_rule_name_is (s_ "string") k) as [[k1 p]|e| |]; cbn [bind]; try (right; reflexivity).
  destruct (read_string p) as [x|e| |]; cbn [bind]; try (right; reflexivity). destruct (consume_this_value (s_ ":") k1) as [k2|e| |]; cbn [bind]; try (right; reflexivity).
  destruct (H k2) as [E|E]; rewrite E; [left; reflexivity|right; reflexivity].
Qed.
Lemma value_mono : forall f f' t, f <= f' -> le2 (read_value f t) (read_value f' t).
Proof.
  induction f as [|f IH]; intros f' t L; [left; reflexivity|]. destruct f' as [|f']; [lia|]. cbn [read_value].
  destruct (consume_node_get_subnodes_for_rule_name_is (s_ "value") t) as [[r k]|e| |]; cbn [bind]; try (right; reflexivity).
  destruct (peek_first_node k) as [nd|e| |]; cbn [bind]; try (right; reflexivity).
  assert (V : forall t, le2 (read_value f t) (read_value f' t)) by (intro t0; apply IH; lia).
  destruct (get_node_val nd) as [w|e| |]; try (right; reflexivity);
    (destruct (get_nodename_and_nodes nd) as [[n p]|e'| |]; cbn [bind]; try (right; reflexivity);
     destruct (str_eqb n (s_ "number")); [right; reflexivity|]; destruct (str_eqb n (s_ "string")); [right; reflexivity|];
     destruct (str_eqb n (s_ "array"));
       [destruct (list_mono _ f f' _ _ (s_ "[") (s_ "]") p ltac:(lia) V) as [E|E]; rewrite E; [left; reflexivity|right; reflexivity]|];
     destruct (str_eqb n (s_ "object")); [|right; reflexivity];
     destruct (list_mono _ f f' (read_member (read_value f)) (read_member (read_value f')) (s_ "{") (s_ "}") p ltac:(lia) (fun t0 => member_mono _ _ t0 V)) as [E|E];
     rewrite E; [left; reflexivity|right; reflexivity]).
Qed.
Lemma tree_mono : forall f f' t, f <= f' -> le2 (read_tree f t) (read_tree f' t).
Proof.
  intros f f' t L. unfold read_tree. destruct (consume_node_get_subnodes_for_rule_name_is (s_ "main") [t]) as [[r k]|e| |]; cbn [bind]; try (right; reflexivity).
  destruct (value_mono f f' k L) as [E|E]; rewrite E; [left; reflexivity|right; reflexivity].
Qed.

(** ** All together *)
Lemma json_rules_at : forall f, rules_from_peg f json_grammar = Fuel \/ rules_from_peg f json_grammar = Ok jrules.
Proof.
  intro f. destruct (rules_from_peg_mono f (Nat.max f 600) json_grammar ltac:(lia)) as [M|M]; [left; exact M|right].
  destruct (rules_from_peg_mono 600 (Nat.max f 600) json_grammar ltac:(lia)) as [M'|M']; pose proof json_reads; congruence.
Qed.
Lemma json_rules_from : forall f, 600 <= f -> rules_from_peg f json_grammar = Ok jrules.
Proof. intros f L. pose proof json_reads. destruct (rules_from_peg_mono 600 f json_grammar L) as [M|M]; congruence. Qed.

Lemma parsed_value : forall f s t, parse f s jrules = Ok t -> exists v, json_text v s /\ compact (prune [s_ "ws"] t) = Rule main [json_tree v].
Proof.
  intros f s t P. assert (A : accepts json_grammar s t).
  { exists (Nat.max f 600), jrules. split; [apply json_rules_from; lia|]. rewrite (parse_mono f); [exact P|lia|congruence]. }
  assert (AS : ascii s). { destruct (Forall_dec ascii_char ascii_char_dec s) as [X|X]; [exact X|]. exfalso. exact (parse_non_ascii f s jrules false t X P). }
  destruct (proj1 (json_is_read s AS) (ex_intro _ t A)) as [v J]. exists v. split; [exact J|]. exact (tree_of_text s t v A J).
Qed.

Lemma read_json_inv : forall f s r, read_json f s = r -> r <> Fuel ->
  (exists er, parse f s jrules = Err er /\ r = Err (OfText er)) \/ (parse f s jrules = Panic /\ r = Panic) \/ (exists v, json_text v s /\ r = Ok v).
Proof.
  intros f s r H NF. unfold read_json in H. destruct (json_rules_at f) as [E|E]; rewrite E in H; cbn [map_err bind] in H; [congruence|].
  destruct (parse f s jrules) as [t|er| |] eqn:P; cbn [map_err bind] in H; [|left; exists er; split; congruence|right; left; split; congruence|congruence].
  right. right. destruct (parsed_value f s t P) as (v & J & T). exists v. split; [exact J|]. rewrite T in H.
  destruct (tree_mono f (f + jsize v) (Rule main [json_tree v]) ltac:(lia)) as [M|M]; rewrite M in H; cbn [map_err] in H; [congruence|].
  rewrite read_tree_ok in H by lia. cbn [map_err] in H. congruence.
Qed.

Lemma read_json_text : forall s v, ascii s -> json_text v s -> exists n, forall fuel, n <= fuel -> read_json fuel s = Ok v.
Proof.
  intros s v AS J. destruct (proj2 (json_is_read s AS) (ex_intro _ v J)) as [t A]. pose proof (tree_of_text s t v A J) as T. unfold tidied in T.
  destruct A as (f & rs & R & P). assert (rs = jrules) by (destruct (json_rules_at f); congruence). subst rs.
  exists (f + jsize v + 600). intros fuel L. unfold read_json. rewrite json_rules_from by lia. cbn [map_err bind].
  rewrite (parse_mono f) by (try lia; congruence). rewrite P. cbn [map_err bind]. rewrite T, read_tree_ok by lia. reflexivity.
Qed.

Lemma read_json_rejects : forall s, ascii s -> ((exists fuel er, read_json fuel s = Err (OfText er)) <-> forall v, ~ json_text v s).
Proof.
  intros s AS. rewrite <- (json_rejects s AS). split.
  - intros (f & er & H). destruct (read_json_inv f s _ H ltac:(discriminate)) as [(er' & P & _)|[[_ X]|(v & _ & X)]]; [|discriminate|discriminate].
    exists (Nat.max f 600), jrules, er'. split; [apply json_rules_from; lia|]. rewrite (parse_mono f); [exact P|lia|congruence].
  - intros (f & rs & er & R & P). exists f, er. unfold read_json. rewrite R. cbn [map_err bind]. rewrite P. reflexivity.
Qed.
