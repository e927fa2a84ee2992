(** Derivatives and gradients, and the likelihood that the score stands for. *)
From mathcomp Require Import all_ssreflect all_algebra.
From Verif Require Import Base.
Set Implicit Arguments.
Unset Strict Implicit.
Unset Printing Implicit Defensive.
Import Order.Theory GRing.Theory Num.Theory.
Local Open Scope ring_scope.

Section GradSpec.
Variable F : realFieldType.

(** f has derivative d at 0. *)
Definition has_deriv (f : F -> F) (d : F) : Prop :=
  forall eps, 0 < eps -> exists2 del, 0 < del & forall t, `|t| < del -> `|f t - f 0 - t * d| <= eps * `|t|.

(** log is differentiable at x with derivative 1 / x. *)
Definition log_at (log : F -> F) (x : F) : Prop := has_deriv (fun t => log (x + t)) x^-1.

(** The inner product of matrices. *)
Definition inner a b (X Y : 'M[F]_(a, b)) : F := \sum_i \sum_j X i j * Y i j.

(** f is defined near 0 and has derivative d at 0. *)
Definition deriv_along (f : F -> res F) (d : F) : Prop :=
  exists f', (exists2 del, 0 < del & forall t, `|t| < del -> f t = Ok (f' t)) /\ has_deriv f' d.

(** The derivative of f at X in each direction H is the inner product of G and H. *)
Definition gradient_at a b (f : 'M[F]_(a, b) -> res F) (X G : 'M[F]_(a, b)) : Prop :=
  forall H, deriv_along (fun t => f (X + t *: H)) (inner G H).

(** The columns of X selected by c are constant. *)
Definition const_cols a b (c : 'I_b -> Prop) (X : 'M[F]_(a, b)) : Prop := forall j, c j -> forall i i', X i j = X i' j.

Section Likelihood.
Variables (log : F -> F) (p l e : nat).

(** The covariance of the observed variables X = B^T X + gamma^T H + eps, where the latent variables H and the noise eps
    are uncorrelated and have variances psi and omega: environment i. *)
Definition noise (gamma : 'M[F]_(l, p)) (omegas : 'M[F]_(e, p)) (psis : 'M[F]_(e, l)) (i : 'I_e) : 'M[F]_p :=
  \matrix_(u, v) (\sum_a gamma a u * psis i a * gamma a v + (if u == v then omegas i u else 0)).
Definition entailed (B : 'M[F]_p) (gamma : 'M[F]_(l, p)) (omegas : 'M[F]_(e, p)) (psis : 'M[F]_(e, l)) (i : 'I_e)
  : 'M[F]_p := invmx (1%:M - B^T) *m noise gamma omegas psis i *m (invmx (1%:M - B^T))^T.

(** Negative Gaussian log-likelihood, up to scale and an additive constant, of samples with covariances sigmas and sizes
    n_obs, when environment i has covariance S i: the mean over all observations. *)
Definition likelihood (S sigmas : 'I_e -> 'M[F]_p) (n_obs : 'I_e -> nat) : F :=
  (\sum_i (n_obs i)%:R * (log (\det (S i)) + \tr (invmx (S i) *m sigmas i))) / (\sum_i n_obs i)%N%:R.

(** The part of the likelihood that depends on B, when environment k has weight w k and the noise has precision M k. *)
Definition residuals (w : 'I_e -> F) (M sigmas : 'I_e -> 'M[F]_p) (B : 'M[F]_p) : F :=
  \sum_k w k * \tr (M k *m (1%:M - B^T) *m sigmas k *m (1%:M - B^T)^T).
End Likelihood.

(** S is a symmetric square root of X. *)
Definition sqrt_of p (S X : 'M[F]_p) : Prop := S^T = S /\ S *m S = X.

(** The matrix square root is exact on the sample covariances and on the precisions of the noise. *)
Definition exact_roots p l e (sqrtm : 'M[F]_p -> 'M[F]_p) (sigmas : 'I_e -> 'M[F]_p) (gamma : 'M[F]_(l, p))
  (omegas : 'M[F]_(e, p)) (psis : 'M[F]_(e, l)) : Prop :=
  forall k, sqrt_of (sqrtm (sigmas k)) (sigmas k) /\
            sqrt_of (sqrtm (invmx (noise gamma omegas psis k))) (invmx (noise gamma omegas psis k)).
End GradSpec.
