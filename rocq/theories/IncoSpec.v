(** Vocabulary for C148. *)
From Coq Require Import ZArith List.
From mathcomp Require Import all_ssreflect all_algebra.
From Verif Require Import Base GraphModel GraphSpec NumModel NumSpec GenSpec.
Set Implicit Arguments.
Unset Strict Implicit.
Unset Printing Implicit Defensive.
Import GRing.Theory Num.Theory.
Local Open Scope nat_scope.
Local Open Scope ring_scope.

(** U is the first factor of a reduced singular value decomposition of X, that is X = U S V^T with S V^T = K *)
Definition left_factor (F : realFieldType) (p l q : nat) (X : 'M[F]_(p, l)) (U : 'M[F]_(p, q)) : Prop :=
  U^T *m U = 1%:M /\ exists K : 'M[F]_(q, l), X = U *m K /\ is_diag_mx (K *m K^T).

Section Spec.
Variables (F : realFieldType) (p l e : nat) (m : model F p l e).

(** The latent effects (I-B) Omega_i^{-1} Gamma of environment i, as in the paper (with one column per latent) *)
Definition effects (i : 'I_e) : 'M[F]_(p, l) :=
  \matrix_(j, k) (mgamma m k j / momegas m i j - \sum_j' mB m j j' * (mgamma m k j' / momegas m i j')).

(** The orthogonal projection on the space of the columns of X, if these are independent *)
Definition projection (X : 'M[F]_(p, l)) : 'M[F]_p := X *m invmx (X^T *m X) *m X^T.

(** x is the largest diagonal entry of the projections, which is the square of the incoherence *)
Definition squared_incoherence (x : F) : Prop :=
  (exists i j, x = projection (effects i) j j) /\ forall i j, projection (effects i) j j <= x.

(** d is the largest degree of the moral graph *)
Definition moral_max (d : nat) : Prop :=
  (exists v, (v < p)%N /\ moral_degree (mA m) v d) /\ forall v n, (v < p)%N -> moral_degree (mA m) v n -> (n <= d)%N.
End Spec.
