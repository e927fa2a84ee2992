(** Running again on a result (C144). *)
From Coq Require Import ZArith List.
From mathcomp Require Import all_ssreflect all_algebra.
From Verif Require Import Base ScoreModel MainModel.
Set Implicit Arguments.
Unset Strict Implicit.
Unset Printing Implicit Defensive.

(** The same arguments with nums_latent = [h]. *)
Definition only_number (F : realFieldType) (a : args F) (h : nat) : args F :=
  Args (Some (h :: nil)) (a_folds a) (a_psi_max a) (a_psi_fixed a) (a_max_iter a) (a_threshold_dist_B a) (a_threshold_fluctuation a)
    (a_max_fluctuations a) (a_threshold_score a) (a_learning_rate a) (a_solver a).
