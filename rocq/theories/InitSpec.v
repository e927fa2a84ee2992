(** Vocabulary of PropInit.v. *)
From mathcomp Require Import all_ssreflect all_algebra.
From Verif Require Import Base NumModel ScoreModel.
Set Implicit Arguments.
Unset Strict Implicit.
Unset Printing Implicit Defensive.
Import Order.Theory GRing.Theory Num.Theory.
Local Open Scope ring_scope.

Section Spec.
Variable F : realFieldType.

(** Symmetric and positive semi-definite *)
Definition semidef n (M : 'M[F]_n) : Prop := M^T = M /\ forall x : 'cV[F]_n, 0 <= (x^T *m M *m x) 0 0.

(** The documented contract of np.linalg.svd: M = U diag(S) V^T with orthogonal U and V and decreasing non-negative S.
    The code does not use V. *)
Definition svd_of n (M : 'M[F]_n) (US : 'M[F]_n * 'rV[F]_n) : Prop :=
  exists V, [/\ US.1^T *m US.1 = 1%:M, V^T *m V = 1%:M, M = US.1 *m diag_mx US.2 *m V^T,
                forall k, 0 <= US.2 0 k & forall j k : 'I_n, (j <= k)%N -> US.2 0 k <= US.2 0 j].
(** The square roots of the entries of d are exact. *)
Definition exact_sqrt n (sqrt : F -> F) (d : 'rV[F]_n) : Prop := forall k, sqrt (d 0 k) ^+ 2 = d 0 k.

(** The covariance of X - B^T X when X has covariance S *)
Definition residual_cov p (B S : 'M[F]_p) : 'M[F]_p := (1%:M - B^T) *m S *m (1%:M - B^T)^T.

(** The variance of X_j - b^T X when X has covariance S *)
Definition residual_var p (S : 'M[F]_p) (j : 'I_p) (b : 'cV[F]_p) : F :=
  ((delta_mx j 0 - b)^T *m S *m (delta_mx j 0 - b)) 0 0.

(** The same Score object with other sample covariances *)
Definition with_sigmas (p l e : nat) (cf : conf F p l e) (sigmas : 'I_e -> 'M[F]_p) : conf F p l e :=
  Conf (cf_log cf) (cf_h cf) (cf_sqrtm cf) (cf_cvx cf) (cf_svd cf) (cf_sqrt cf) (cf_finite cf) sigmas
    (cf_n_obs cf) (cf_psi_max cf) (cf_psi_fixed cf) (cf_max_iter cf) (cf_threshold_dist_B cf)
    (cf_threshold_fluctuation cf) (cf_max_fluctuations cf) (cf_threshold_score cf) (cf_learning_rate cf) (cf_solver cf) (cf_fuel cf).

(** The mean over all observations *)
Definition weighted (e : nat) (n_obs : 'I_e -> nat) (f : 'I_e -> F) : F :=
  (\sum_k (n_obs k)%:R * f k) / (\sum_k n_obs k)%N%:R.
End Spec.
