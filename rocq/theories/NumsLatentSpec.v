(** Vocabulary of PropNumsLatent.v: calls that differ in nums_latent. *)
From mathcomp Require Import all_ssreflect all_algebra.
From Verif Require Import ScoreModel MainModel.
Set Implicit Arguments.
Unset Strict Implicit.
Unset Printing Implicit Defensive.

(** The same arguments, with other numbers of latents *)
Definition with_latents (F : realFieldType) (a : args F) (hs : seq nat) : args F :=
  Args (Some hs) (a_folds a) (a_psi_max a) (a_psi_fixed a) (a_max_iter a) (a_threshold_dist_B a) (a_threshold_fluctuation a)
    (a_max_fluctuations a) (a_threshold_score a) (a_learning_rate a) (a_solver a).

(** The rounds of score_dag do not start from different random matrices for different numbers of latents: the solver of
    B draws none, or all Score objects draw the same *)
Definition same_draws (F : realFieldType) (p e : nat) (w : world F p e) (a : args F) : Prop :=
  a_solver a = Cvx \/ forall n n', w_rnds w n = w_rnds w n'.
