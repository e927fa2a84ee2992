(** Valid arguments of Model(..), sample(..) and Score(..). *)
From Coq Require Import ZArith.
From mathcomp Require Import all_ssreflect all_algebra.
From Verif Require Import Base GraphSpec NumModel NumSpec NdModel.
Set Implicit Arguments.
Unset Strict Implicit.
Unset Printing Implicit Defensive.
Import GRing.Theory.
Local Open Scope ring_scope.

(** v is the integer n, acceptable as number of observations (covs: covariances are requested). *)
Definition count (covs : bool) (v : pyval) (n : nat) : Prop :=
  v = PInt (Z.of_nat n) /\ (0 < n)%N /\ (n = 1%N -> covs = false).
(** v is not acceptable; the exception it deserves is x. *)
Definition bad (covs : bool) (v : pyval) (x : exn) : Prop :=
  (x = TypeError /\ forall z, v <> PInt z) \/
  (x = ValueError /\ exists z, v = PInt z /\ (Z.le z Z0 \/ z = Zpos xH /\ covs = true)).

Section ArraySpec.
Variable F : realFieldType.

(** The shapes are those of a model with r = c variables, l latents and e environments. *)
Definition fits (r c : nat) (B gamma omegas psis : nd F) (l e : nat) : Prop :=
  [/\ nshape B = [:: r; c], r = c, nshape gamma = [:: l; r], nshape omegas = [:: e; r] & nshape psis = [:: e; l]].

(** The entries of a 2-dimensional array as a matrix *)
Definition to_mx r c (a : nd F) : 'M[F]_(r, c) := \matrix_(i, j) entry 0 (nvals a) c i j.
End ArraySpec.
