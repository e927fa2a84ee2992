(** More candidates, more numbers of latents, pruning (C145). *)
From Coq Require Import ZArith List.
From mathcomp Require Import all_ssreflect all_algebra.
From Verif Require Import Base NumModel ScoreModel MainModel MainSpec.
Set Implicit Arguments.
Unset Strict Implicit.
Unset Printing Implicit Defensive.

(** The same arguments with nums_latent = hs. *)
Definition with_numbers (F : realFieldType) (a : args F) (hs : list nat) : args F :=
  Args (Some hs) (a_folds a) (a_psi_max a) (a_psi_fixed a) (a_max_iter a) (a_threshold_dist_B a) (a_threshold_fluctuation a)
    (a_max_fluctuations a) (a_threshold_score a) (a_learning_rate a) (a_solver a).

(** v is the validation score of the selected model: the least score for the samples [test] of the models fitted to the samples
    [training] with the selected number of latents. *)
Definition validated (F : realFieldType) (p e : nat) (w : world F p e) (a : args F) training test prune graphs hs (am : any_model F p e) (v : F) : Prop :=
  exists2 k, last_at hs k (projT1 am) & validation w a training test prune graphs k (projT1 am) v (mA (projT2 am)).
