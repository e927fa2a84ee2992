(** Vocabulary for C149. *)
From Coq Require Import ZArith List.
From mathcomp Require Import all_ssreflect all_algebra.
From Verif Require Import Base GraphModel NumModel CovSpec.
Set Implicit Arguments.
Unset Strict Implicit.
Unset Printing Implicit Defensive.
Local Open Scope ring_scope.

(** m' is the model m with variable j multiplied by c j; by C108 it entails the covariances of the converted data *)
Definition in_units (F : realFieldType) (p l e : nat) (c : 'I_p -> F) (m m' : model F p l e) : Prop :=
  [/\ mA m' = mA m, mB m' = weights_in c (mB m), mgamma m' = loadings_in c (mgamma m),
      momegas m' = variances_in c (momegas m) & mpsis m' = mpsis m].
