(** Samples as arrays. *)
From mathcomp Require Import all_ssreflect all_algebra.
From Verif Require Import NdModel.
Set Implicit Arguments.
Unset Strict Implicit.
Unset Printing Implicit Defensive.
Import GRing.Theory.
Local Open Scope ring_scope.

Section Shape.
Variables (F : realFieldType) (p : nat).

(** The array of the sample whose observations are the rows X *)
Definition sample_array (X : seq 'rV[F]_p) : nd F := MkNd [:: size X; p] (flatten [seq [seq x 0 j | j <- enum 'I_p] | x : 'rV[F]_p <- X]).

(** The array of the p x p matrices S, one per environment *)
Definition stacked (S : seq 'M[F]_p) : nd F :=
  MkNd [:: size S; p; p] (flatten [seq flatten [seq [seq M i j | j <- enum 'I_p] | i <- enum 'I_p] | M : 'M[F]_p <- S]).
End Shape.
