(** Chains of AST tools: C45. *)
From Verif Require Import Base ModelAst ModelParser SpecAst ProofParser ProofAst ProofPipeline.

(* ---- C45 --------------------------------------------------------------------------------- *)

(** A compact before prune or pass_through_except is absorbed by a compact after it. *)
Theorem C45_compact_absorbs_before_prune : forall a nd, compact (prune a (compact nd)) = compact (prune a nd).
Proof. exact compact_prune_compact. Qed.
Print Assumptions C45_compact_absorbs_before_prune.

Theorem C45_compact_absorbs_before_pass_through : forall k nd,
  compact (pass_through_except k (compact nd)) = compact (pass_through_except k nd).
Proof. exact compact_pass_compact. Qed.
Print Assumptions C45_compact_absorbs_before_pass_through.

(** Two pass_through_except keep the names both keep, in either order. *)
Theorem C45_pass_through_composes : forall k1 k2 k, (forall n, In n k <-> In n k1 /\ In n k2) ->
  forall nd, pass_through_except k2 (pass_through_except k1 nd) = pass_through_except k nd.
Proof. exact pass_pass. Qed.
Print Assumptions C45_pass_through_composes.

(** After pass_through_except, prune only sees the kept names. *)
Theorem C45_prune_after_pass_through : forall a k b, (forall n, In n b <-> In n a /\ In n k) ->
  forall nd, prune a (pass_through_except k nd) = pass_through_except k (prune b nd).
Proof. exact prune_pass. Qed.
Print Assumptions C45_prune_after_pass_through.

(** So the two commute exactly when every pruned name is kept, ... *)
Theorem C45_prune_and_pass_through_commute_exactly_when : forall a k,
  (forall nd, prune a (pass_through_except k nd) = pass_through_except k (prune a nd)) <-> (forall n, In n a -> In n k).
Proof. intros a k. split; [apply prune_pass_only|apply prune_pass_commute]. Qed.
Print Assumptions C45_prune_and_pass_through_commute_exactly_when.

(** ... and a prune of names already spliced away does nothing. *)
Theorem C45_prune_too_late : forall a k, (forall n, In n a -> ~ In n k) ->
  forall nd, prune a (pass_through_except k nd) = pass_through_except k nd.
Proof. exact prune_pass_disjoint. Qed.
Print Assumptions C45_prune_too_late.

(** The documented chain compact, prune, pass_through_except (with any compacts between) has one normal form. *)
Theorem C45_pipeline : forall a k nd, (forall n, In n a -> In n k) ->
  compact (pass_through_except k (compact (prune a (compact nd)))) = compact (prune a (pass_through_except k nd)).
Proof. exact pipeline. Qed.
Print Assumptions C45_pipeline.

(** Without the last compact the result is not compact: prune and pass_through_except make Vals adjacent. *)
Theorem C45_prune_after_compact_refuted : exists a nd, adjacent_vals (prune a (compact nd)).
Proof.
  exists [s_ "_"], (Rule (s_ "r") [Val (s_ "a"); Rule (s_ "_") []; Val (s_ "b")]). vm_compute.
  exact (av_here _ [] _ _ []).
Qed.
Print Assumptions C45_prune_after_compact_refuted.

Theorem C45_pass_through_after_compact_refuted : exists k nd, adjacent_vals (pass_through_except k (compact nd)).
Proof.
  exists [s_ "r"], (Rule (s_ "r") [Val (s_ "a"); Rule (s_ "x") [Val (s_ "b")]]). vm_compute. exact (av_here _ [] _ _ []).
Qed.
Print Assumptions C45_pass_through_after_compact_refuted.

Example C45_nonvacuous :
  let t := Rule (s_ "main") [Val (s_ "a"); Val (s_ "b"); Rule (s_ "_") [Val (s_ " ")]; Rule (s_ "x") [Val (s_ "c"); Rule (s_ "_") []; Val (s_ "d")]] in
  compact (prune [s_ "_"] (pass_through_except [s_ "_"] t)) = Rule (s_ "main") [Val (s_ "abcd")] /\
  pass_through_except [s_ "_"] (prune [s_ "_"] (compact t)) = Rule (s_ "main") [Val (s_ "ab"); Val (s_ "c"); Val (s_ "d")].
Proof. vm_compute. split; reflexivity. Qed.
