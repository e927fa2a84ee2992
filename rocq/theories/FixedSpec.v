(** The documented meaning of psi_fixed (C141), stated without the model of Score. *)
From mathcomp Require Import all_ssreflect all_algebra.
Set Implicit Arguments.
Unset Strict Implicit.
Unset Printing Implicit Defensive.

(** "the hidden variables have all the same variance": score.py 75-77, 119-121, 802-804; main.py 92-94.  One row for
    each environment, one column for each hidden variable. *)
Definition equal_variances (F : Type) (e l : nat) (psis : 'M[F]_(e, l)) : Prop := forall i j a b, psis i a = psis j b.
