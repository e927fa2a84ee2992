(** Properties C133-C135: candidate graphs with weights. *)
From Coq Require Import ZArith List.
From mathcomp Require Import all_ssreflect all_algebra.
From Verif Require Import Base GraphModel GraphSpec NumModel ScoreModel MainModel MainSpec OptSpec WeightSpec WCandSpec ExactSpec WCandProofs WDupProofs NegProofs WNegProofs.
Local Open Scope ring_scope.

(** C133.  [weigh_class]: the same classes and targets, and the same model except that its adjacency carries the weights. *)
Theorem C133_common_weights : forall (F : realFieldType) (p e : nat) (w : world F p e) (a : args F) v candidates data prune seed,
  positive_weights v -> solver_sees_edges w -> Forall (graph p) candidates ->
  equivalence_class w a (List.map (weigh p v) candidates) data prune seed = weigh_class v (equivalence_class w a candidates data prune seed).
Proof. exact @class_weights. Qed.
Print Assumptions C133_common_weights.

(** C134 "the positive weights of the candidates do not matter" is false: if only one of two equal candidates is weighted they are
    different keys of the cache, so the second is fitted again instead of taken from it, which stores I - B^T anew (C126). *)
Theorem C134_weights_refuted : forall (F : realFieldType) (log : F -> F) (pi : F) (h : hord),
  exists (w : world F 2 2) (a : args F) data G G' v,
  [/\ w_log w = log /\ w_pi w = pi, [/\ w_h w = h, solver_sees_edges w & exact_solver w a data], positive_weights v /\ G <> G', [/\ graph 2 G, graph 2 G', acyclic G & acyclic G']
    & forall seed, exists r r', [/\ equivalence_class w a [:: G; G'; G'] data false seed = Ok r,
        equivalence_class w a [:: G; G'; weigh 2 v G'] data false seed = Ok r', mA (projT2 r.2) = G' & mA (projT2 r'.2) = G]].
Proof. exact @mixed_refuted. Qed.
Print Assumptions C134_weights_refuted.

(** C135 "with prune_graph the graphs below the candidates are searched, whatever their non-zero weights" is false: the loop stops
    when the weights sum to zero or less, so that candidates with negative weights are never pruned. *)
Theorem C135_never_pruned_refuted : forall (F : realFieldType) (p e : nat) (w : world F p e) (a : args F) v candidates data seed,
  negative_weights v -> solver_sees_edges w -> Forall (fun G => graph p G /\ acyclic G) candidates ->
  equivalence_class w a (List.map (weigh p v) candidates) data true seed = weigh_class v (equivalence_class w a candidates data false seed).
Proof. exact @class_negative. Qed.
Print Assumptions C135_never_pruned_refuted.

(** C135: and this can change the result.  Below pruning removes the edge, and with a negative weight it stays. *)
Theorem C135_result_refuted : forall (F : realFieldType) (log : F -> F) (pi : F) (h : hord), log_like log ->
  exists (w : world F 2 2) (a : args F) data G v,
  [/\ w_log w = log /\ w_pi w = pi, [/\ w_h w = h, solver_sees_edges w & exact_solver w a data], negative_weights v, graph 2 G /\ acyclic G
    & forall seed, exists r r', [/\ equivalence_class w a [:: G] data true seed = Ok r,
        equivalence_class w a [:: weigh 2 v G] data true seed = Ok r', forall i j, ~ edge (mA (projT2 r.2)) i j & mA (projT2 r'.2) = weigh 2 v G]].
Proof. exact @negative_refuted. Qed.
Print Assumptions C135_result_refuted.

(** C03: every graph passes for a DAG if its weights are negative. *)
Theorem C03_negative_refuted : forall (h : hord) p A, square p A -> (forall i j, Z.le (get A i j) Z0) -> is_dag h A = Ok true.
Proof. exact @nonpos_is_dag. Qed.
Print Assumptions C03_negative_refuted.
