(** Model of np.cov. *)
From mathcomp Require Import all_ssreflect all_algebra.
Set Implicit Arguments.
Unset Strict Implicit.
Unset Printing Implicit Defensive.
Import Order.Theory GRing.Theory Num.Theory.
Local Open Scope ring_scope.

Section Cov.
Variables (F : realFieldType) (p : nat).

(** np.cov(X, rowvar=False) as called in score.py 246, main.py 441-446, 475 and model.py 538, for a sample with at least two
    rows and two columns: the columns are centred and X^T X is divided by n - 1. *)
Definition np_cov (X : seq 'rV[F]_p) : 'M[F]_p :=
  let mean := (size X)%:R^-1 *: \sum_(x <- X) x in
  (size X).-1%:R^-1 *: \sum_(x <- X) (x - mean)^T *m (x - mean).
End Cov.
