(** Vocabulary of PropSingle.v: runs with a single environment and the option psi_fixed. *)
From Coq Require Import ZArith List.
From mathcomp Require Import all_ssreflect all_algebra.
From Verif Require Import Base ListModel NumModel ScoreModel MainModel.
Set Implicit Arguments.
Unset Strict Implicit.
Unset Printing Implicit Defensive.

(** The same Score object with the option psi_fixed set to b. *)
Definition conf_psi_fixed (F : realFieldType) (p l e : nat) (cf : conf F p l e) (b : bool) : conf F p l e :=
  Conf (cf_log cf) (cf_h cf) (cf_sqrtm cf) (cf_cvx cf) (cf_svd cf) (cf_sqrt cf) (cf_finite cf) (cf_sigmas cf)
    (cf_n_obs cf) (cf_psi_max cf) b (cf_max_iter cf) (cf_threshold_dist_B cf)
    (cf_threshold_fluctuation cf) (cf_max_fluctuations cf) (cf_threshold_score cf) (cf_learning_rate cf) (cf_solver cf) (cf_fuel cf).

(** The same arguments of equivalence_class with psi_fixed = b. *)
Definition args_psi_fixed (F : realFieldType) (a : args F) (b : bool) : args F :=
  Args (a_nums_latent a) (a_folds a) (a_psi_max a) b (a_max_iter a) (a_threshold_dist_B a) (a_threshold_fluctuation a)
    (a_max_fluctuations a) (a_threshold_score a) (a_learning_rate a) (a_solver a).

(** All variables but at most one are in J. *)
Definition almost_all (p : nat) (J : list nat) : Prop :=
  forall i j, (i < p)%N -> (j < p)%N -> i <> j -> List.In i J \/ List.In j J.

(** The training sample is not empty. *)
Definition some_training (F : realFieldType) (p : nat) (w : world F p 1) (a : args F) (data : 'I_1 -> seq 'rV[F]_p) : Prop :=
  forall training test_graph test_I,
  split_data (w_shuffle w 42) [seq data k | k <- enum 'I_1] (a_folds a) = Ok [:: training; test_graph; test_I] ->
  forall k : 'I_1, (0 < n_obs training k)%N.
