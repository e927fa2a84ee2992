(** What psi_max should and does limit (C143). *)
From Coq Require Import ZArith List.
From mathcomp Require Import all_ssreflect all_algebra.
From Verif Require Import Base NumModel NumSpec ScoreModel.
Set Implicit Arguments.
Unset Strict Implicit.
Unset Printing Implicit Defensive.
Import Order.Theory GRing.Theory Num.Theory.
Local Open Scope ring_scope.

Section Bound.
Variables (F : realFieldType) (p l e : nat).

(** No variance of a latent variable changes by u or more between environments (psi_max: main.py 89-91, 208-210). *)
Definition changes_below (u : F) (m : model F p l e) : Prop := forall (i i' : 'I_e) (j : 'I_l), `|mpsis m i j - mpsis m i' j| < u.

(** The relative changes of the variances of the latent variables are the same in both models. *)
Definition same_changes (m m' : model F p l e) : Prop :=
  forall (i i' : 'I_e) (j : 'I_l), mpsis m' i j / mpsis m' i' j = mpsis m i j / mpsis m i' j.
End Bound.
