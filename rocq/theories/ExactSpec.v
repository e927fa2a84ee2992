(** A convex solver that solves its problem. *)
From Coq Require Import List.
From mathcomp Require Import all_ssreflect all_algebra.
From Verif Require Import Base GraphSpec ListModel ScoreModel DescentSpec MainModel.
Set Implicit Arguments.
Unset Strict Implicit.
Unset Printing Implicit Defensive.

(** In all fits of a call with these data the convex solver returns the minimum. *)
Definition exact_solver (F : realFieldType) (p e : nat) (w : world F p e) (a : args F) (data : 'I_e -> seq 'rV[F]_p) : Prop :=
  forall training test_graph test_I hs l A,
  split_data (w_shuffle w 42) [seq data k | k <- enum 'I_e] (a_folds a) = Ok [:: training; test_graph; test_I] ->
  numbers w a training = Ok hs -> List.In l hs -> acyclic A -> exact_cvx (train_conf w a training l) A.
