(** Vocabulary for C150. *)
From Coq Require Import ZArith List.
From mathcomp Require Import all_ssreflect all_algebra all_fingroup.
From Verif Require Import Base GraphModel NumModel.
Set Implicit Arguments.
Unset Strict Implicit.
Unset Printing Implicit Defensive.
Local Open Scope ring_scope.

(** m' is m with the latents replaced by linear combinations of them, and environment i of m' is environment s i of m.  (The
    variances of the latents are not compared: the metric does not see them.) *)
Definition same_but_latents (F : realFieldType) (p l e : nat) (s : 'S_e) (R : 'M[F]_l) (m m' : model F p l e) : Prop :=
  [/\ mA m' = mA m, mB m' = mB m, mgamma m' = R *m mgamma m & forall i j, momegas m' i j = momegas m (s i) j].
