(** Properties C126 and C127: the order and the repetition of the candidate graphs. *)
From Coq Require Import ZArith List Permutation.
From mathcomp Require Import all_ssreflect all_algebra.
From Verif Require Import Base GraphSpec NumModel NumSpec ListModel ScoreModel CovModel MainModel MainSpec CandSpec ExactSpec CandProofs DupProofs.
Local Open Scope ring_scope.

(** C126.  The result of equivalence_class does not depend on the order of the candidates, if fitting makes no draws and the
    models of different graphs have different scores. *)
Theorem C126_order : forall (F : realFieldType) (p e : nat) (w : world F p e) (a : args F) candidates candidates' data prune seed
    training test_graph test_I hs r,
  Permutation candidates candidates' -> Forall (graph p) candidates ->
  split_data (w_shuffle w 42) [seq data k | k <- enum 'I_e] (a_folds a) = Ok [:: training; test_graph; test_I] ->
  numbers w a training = Ok hs ->
  (forall h, List.In h hs -> no_draws (train_conf w a training h) /\ different_scores w a training test_graph prune candidates h) ->
  equivalence_class w a candidates data prune seed = Ok r <-> equivalence_class w a candidates' data prune seed = Ok r.
Proof. exact @class_perm. Qed.
Print Assumptions C126_order.

(** The solver 'cvx' makes no draws. *)
Theorem C126_cvx : forall (F : realFieldType) (p l e : nat) (cf : conf F p l e), cf_solver cf = Cvx -> no_draws cf.
Proof. exact @cvx_no_draws. Qed.
Print Assumptions C126_cvx.

(** C127 "a candidate that is given a second time changes nothing" is false, even under the hypotheses of C126 and with an exact solver.  The model of the
    second G' comes from the cache of the Score object; it is a copy, whose I_B agrees with its B, and has another score than the
    model that was fitted for the first G'. *)
Theorem C127_duplicates_refuted : forall (F : realFieldType) (log : F -> F) (pi : F) (h : hord),
  exists (w : world F 2 2) (a : args F) data training test_graph test_I G G',
  [/\ w_log w = log /\ w_pi w = pi, [/\ w_h w = h, sorts (w_argsort w) & exact_solver w a data],
      split_data (w_shuffle w 42) [seq data k | k <- enum 'I_2] (a_folds a) = Ok [:: training; test_graph; test_I] /\
        (forall k, posdef (covs w training k)) /\ numbers w a training = Ok [:: 0%N],
      [/\ graph 2 G, graph 2 G', acyclic G & acyclic G'] /\
        no_draws (train_conf w a training 0) /\ different_scores w a training test_graph false [:: G; G'] 0 & G <> G' /\
      forall seed, exists r r', [/\ equivalence_class w a [:: G; G'] data false seed = Ok r,
        equivalence_class w a [:: G; G'; G'] data false seed = Ok r', mA (projT2 r.2) = G & mA (projT2 r'.2) = G']].
Proof. exact @duplicates. Qed.
Print Assumptions C127_duplicates_refuted.
