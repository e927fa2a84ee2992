(** The score of given parameters, and solvers that do not worsen it. *)
From mathcomp Require Import all_ssreflect all_algebra.
From Verif Require Import Base GraphModel NumModel NumSpec ScoreModel GradSpec.
Set Implicit Arguments.
Unset Strict Implicit.
Unset Printing Implicit Defensive.
Import Order.Theory GRing.Theory Num.Theory.
Local Open Scope ring_scope.

Section Descent.
Variables (F : realFieldType) (p l e : nat) (cf : conf F p l e).

(** Model(A, B, gamma, omegas, psis).score(sample_covariances, n_obs) returns x. *)
Definition scores A (B : 'M[F]_p) (gamma : 'M[F]_(l, p)) (omegas : 'M[F]_(e, p)) (psis : 'M[F]_(e, l)) (x : F) : Prop :=
  exists2 m, new_model (cf_h cf) A B gamma omegas psis = Ok m & score (cf_log cf) m (cf_sigmas cf) (cf_n_obs cf) = Ok x.

(** The parameters of m' score no worse than those of m. *)
Definition no_worse (m m' : model F p l e) : Prop :=
  exists x x', [/\ scores (mA m) (mB m) (mgamma m) (momegas m) (mpsis m) x,
                   scores (mA m') (mB m') (mgamma m') (momegas m') (mpsis m') x' & x' <= x].

(** The solver for B returns a matrix that scores no worse than the current one. *)
Definition solver_descends A : Prop := forall B gamma omegas psis m rnd rnd' B' x,
  new_model (cf_h cf) A B gamma omegas psis = Ok m -> positive omegas -> positive psis ->
  solve_B cf m rnd rnd' = Ok B' -> scores A B gamma omegas psis x -> exists2 x', scores A B' gamma omegas psis x' & x' <= x.

(** The convex solver returns a matrix with the least squared residuals, weighted by the sample sizes and the precisions of the
    noise: what its problem asks for (C95). *)
Definition exact_cvx A : Prop := forall B gamma omegas psis m B1,
  new_model (cf_h cf) A B gamma omegas psis = Ok m -> positive omegas -> positive psis -> cf_cvx cf m = Some B1 ->
  supported A B1 /\ forall B', supported A B' ->
    residuals (fun k => (cf_n_obs cf k)%:R) (fun k => invmx (noise gamma omegas psis k)) (cf_sigmas cf) B1 <=
    residuals (fun k => (cf_n_obs cf k)%:R) (fun k => invmx (noise gamma omegas psis k)) (cf_sigmas cf) B'.
End Descent.
