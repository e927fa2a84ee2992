(** Property C99: the entry points terminate. *)
From Coq Require Import ZArith QArith_base List.
From mathcomp Require Import all_ssreflect all_algebra.
From Verif Require Import Base GraphModel GraphSpec MeekProofs EnumProofs ListModel NumModel NumSpec ScoreModel CacheSpec ScoreSpec OptSpec MainModel MainSpec TermSpec.
From Verif Require Import MainTerm2Proofs.
Set Implicit Arguments.
Unset Strict Implicit.
Unset Printing Implicit Defensive.
Import Order.Theory GRing.Theory Num.Theory.
Local Open Scope ring_scope.

(** C99: if the solver for B ends on every DAG, equivalence_class ends; the only exceptions are those of the convex solver.
    [some_weight] is needed for the pruning to end: C53_terminates_refuted. *)
Theorem C99_class_ends : forall (F : archiFieldType) (p e : nat) (w : world F p e) (a : args F) data candidates prune seed
  training test_graph test_I hs,
  split_data (w_shuffle w 42) [seq data k | k <- enum 'I_e] (a_folds a) = Ok [:: training; test_graph; test_I] ->
  numbers w a training = Ok hs -> hs <> [::] ->
  (forall h, List.In h hs -> (h <= p)%N /\
     (prune = true -> forall k, some_weight (train_conf (w_with_fuel w k) a training h))) ->
  candidates <> [::] -> Forall (graph p) candidates -> Forall acyclic candidates ->
  (0 < p)%N -> (0 < e)%N ->
  (forall k, posdef (covs w training k) /\ (1 < n_obs training k)%N) ->
  (forall k, log_tangent (w_log w) p (\det (covs w training k))^-1) -> 0 < a_threshold_score a ->
  (forall u, a_psi_max a = Some u -> 1 < u) -> (0 < a_max_iter a)%N -> (0 < a_max_fluctuations a)%N ->
  (a_solver a = Grad -> forall h n k, nontrivial (w_rnds w h n k).1) ->
  (forall h A, List.In h hs -> graph p A -> acyclic A -> B_ends (train_conf w a training h) A) ->
  exists r, settles (fun k => equivalence_class (w_with_fuel w k) a candidates data prune seed) r /\
    ((exists x, r = Ok x) \/ a_solver a = Cvx /\ (r = Err TypeError \/ r = Err AssertionError)).
Proof. exact class_ends. Qed.
Print Assumptions C99_class_ends.

(** With a convex solver that answers, equivalence_class returns ... *)
Theorem C99_class_returns : forall (F : archiFieldType) (p e : nat) (w : world F p e) (a : args F) data candidates prune seed
  training test_graph test_I hs,
  split_data (w_shuffle w 42) [seq data k | k <- enum 'I_e] (a_folds a) = Ok [:: training; test_graph; test_I] ->
  numbers w a training = Ok hs -> hs <> [::] -> (forall h, List.In h hs -> (h <= p)%N) ->
  candidates <> [::] -> Forall (graph p) candidates -> Forall acyclic candidates ->
  (0 < p)%N -> (0 < e)%N ->
  (forall k, posdef (covs w training k) /\ (1 < n_obs training k)%N) ->
  (forall k, log_tangent (w_log w) p (\det (covs w training k))^-1) -> 0 < a_threshold_score a ->
  (forall u, a_psi_max a = Some u -> 1 < u) -> (0 < a_max_iter a)%N -> (0 < a_max_fluctuations a)%N ->
  a_solver a = Cvx -> cvx_answers w ->
  exists x, settles (fun k => equivalence_class (w_with_fuel w k) a candidates data prune seed) (Ok x).
Proof. exact class_returns. Qed.
Print Assumptions C99_class_returns.

(** ... and equivalence_class_w_ges too, if the graph found by GES has a consistent extension. *)
Theorem C99_ges_returns : forall (F : archiFieldType) (p e : nat) (w : world F p e) (a : args F) data seed
  training test_graph test_I hs,
  split_data (w_shuffle w 42) [seq data k | k <- enum 'I_e] (a_folds a) = Ok [:: training; test_graph; test_I] ->
  numbers w a training = Ok hs -> hs <> [::] -> (forall h, List.In h hs -> (h <= p)%N) ->
  ges_pdag w -> (exists D, dag01 p D /\ consistent_ext D (w_ges w (flatten training) (w_log w (size (flatten training))%:R))) ->
  (0 < p)%N -> (0 < e)%N ->
  (forall k, posdef (covs w training k) /\ (1 < n_obs training k)%N) ->
  (forall k, log_tangent (w_log w) p (\det (covs w training k))^-1) -> 0 < a_threshold_score a ->
  (forall u, a_psi_max a = Some u -> 1 < u) -> (0 < a_max_iter a)%N -> (0 < a_max_fluctuations a)%N ->
  a_solver a = Cvx -> cvx_answers w ->
  exists x, settles (fun k => equivalence_class_w_ges (w_with_fuel w k) a data seed) (Ok x).
Proof. exact ges_returns. Qed.
Print Assumptions C99_ges_returns.

(** For all bounds on the iterations equivalence_class_w_ges is equivalence_class with pruning on a list of all the DAGs of
    the class found by GES. *)
Theorem C99_ges_class : forall (F : archiFieldType) (p e : nat) (w : world F p e) (a : args F) data seed training test_graph test_I,
  split_data (w_shuffle w 42) [seq data k | k <- enum 'I_e] (a_folds a) = Ok [:: training; test_graph; test_I] ->
  ges_pdag w -> exists gs,
  (forall D, List.In D gs <-> dag01 p D /\ consistent_ext D (w_ges w (flatten training) (w_log w (size (flatten training))%:R))) /\
  forall k, equivalence_class_w_ges (w_with_fuel w k) a data seed = equivalence_class (w_with_fuel w k) a gs data true seed.
Proof. exact ges_candidates. Qed.
Print Assumptions C99_ges_class.
