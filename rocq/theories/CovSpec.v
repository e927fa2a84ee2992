(** Samples in general position, and units of measurement. *)
From mathcomp Require Import all_ssreflect all_algebra.
Set Implicit Arguments.
Unset Strict Implicit.
Unset Printing Implicit Defensive.
Import Order.Theory GRing.Theory Num.Theory.
Local Open Scope ring_scope.

Section Cov.
Variables (F : realFieldType) (p : nat).

(** Value of the linear combination of the variables with coefficients v *)
Definition combination (v : 'cV[F]_p) (x : 'rV[F]_p) : F := \sum_j x 0 j * v j 0.

(** Every non-trivial linear combination of the variables takes two values in the sample. *)
Definition varied (X : seq 'rV[F]_p) : Prop :=
  forall v : 'cV[F]_p, v != 0 -> exists x y, [/\ x \in X, y \in X & combination v x <> combination v y].

(** Variable j is multiplied by c j and shifted by b j. *)
Definition convert (c b : 'I_p -> F) (x : 'rV[F]_p) : 'rV[F]_p := \row_j (c j * x 0 j + b j).
Definition convert_cov (c : 'I_p -> F) (S : 'M[F]_p) : 'M[F]_p := \matrix_(i, j) (c i * c j * S i j).

(** The same parameters in the new units *)
Definition weights_in (c : 'I_p -> F) (B : 'M[F]_p) : 'M[F]_p := \matrix_(i, j) (B i j * c j / c i).
Definition loadings_in (l : nat) (c : 'I_p -> F) (g : 'M[F]_(l, p)) : 'M[F]_(l, p) := \matrix_(a, j) (g a j * c j).
Definition variances_in (e : nat) (c : 'I_p -> F) (o : 'M[F]_(e, p)) : 'M[F]_(e, p) := \matrix_(k, j) (o k j * c j ^+ 2).
End Cov.
