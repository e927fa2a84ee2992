(** Vocabulary of PropStat.v: samples with the same covariances and numbers of observations. *)
From Coq Require Import ZArith List.
From mathcomp Require Import all_ssreflect all_algebra.
From Verif Require Import Base ListModel NumModel ScoreModel CovModel MainModel.
Set Implicit Arguments.
Unset Strict Implicit.
Unset Printing Implicit Defensive.
Import Order.Theory GRing.Theory Num.Theory.
Local Open Scope ring_scope.

(** cf' has the covariances and numbers of observations of cf, and the same settings; psi_fixed may differ if there is a single environment. *)
Record same_conf (F : realFieldType) (p l e : nat) (cf cf' : conf F p l e) : Prop := SameConf {
  sc_log : cf_log cf' = cf_log cf;
  sc_h : cf_h cf' = cf_h cf;
  sc_sqrtm : cf_sqrtm cf' = cf_sqrtm cf;
  sc_cvx : cf_cvx cf' = cf_cvx cf;
  sc_svd : cf_svd cf' = cf_svd cf;
  sc_sqrt : cf_sqrt cf' = cf_sqrt cf;
  sc_finite : cf_finite cf' = cf_finite cf;
  sc_sigmas : forall k, cf_sigmas cf' k = cf_sigmas cf k;
  sc_n_obs : forall k, cf_n_obs cf' k = cf_n_obs cf k;
  sc_psi_max : cf_psi_max cf' = cf_psi_max cf;
  sc_psi_fixed : e = 1%N \/ cf_psi_fixed cf' = cf_psi_fixed cf;
  sc_max_iter : cf_max_iter cf' = cf_max_iter cf;
  sc_dist : cf_threshold_dist_B cf' = cf_threshold_dist_B cf;
  sc_fluctuation : cf_threshold_fluctuation cf' = cf_threshold_fluctuation cf;
  sc_max_fluctuations : cf_max_fluctuations cf' = cf_max_fluctuations cf;
  sc_threshold_score : cf_threshold_score cf' = cf_threshold_score cf;
  sc_learning_rate : cf_learning_rate cf' = cf_learning_rate cf;
  sc_solver : cf_solver cf' = cf_solver cf;
  sc_fuel : cf_fuel cf' = cf_fuel cf }.

Section Stat.
Variables (F : realFieldType) (p e : nat) (w : world F p e).
Local Notation sample := (seq 'rV[F]_p).

(** Two samples have the same number of observations and the same covariance. *)
Definition same_statistics (X X' : sample) : Prop := size X' = size X /\ w_cov w X' = w_cov w X.

(** So have the samples of all environments in two folds. *)
Definition same_fold (fold fold' : seq sample) : Prop := List.Forall2 same_statistics fold fold'.

(** The vector c is added to every observation. *)
Definition translate (c : 'rV[F]_p) (X : sample) : sample := [seq x + c | x <- X].

(** The shuffles move the rows without looking at them. *)
Definition moves_rows : Prop := forall seed k (g : 'rV[F]_p -> 'rV[F]_p) X, w_shuffle w seed k (map g X) = map g (w_shuffle w seed k X).
End Stat.
