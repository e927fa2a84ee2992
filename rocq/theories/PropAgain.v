(** Property C144: a result can be reproduced from the returned DAG and number of latents. *)
From Coq Require Import ZArith QArith_base List.
From mathcomp Require Import all_ssreflect all_algebra.
From Verif Require Import Base GraphModel GraphSpec ListModel NumModel NumSpec ScoreModel ScoreSpec MainModel MainSpec CandSpec AgainSpec AgainProofs.
Import Order.Theory GRing.Theory Num.Theory.
Local Open Scope ring_scope.

(** C144.  If the fits do not depend on random draws, then equivalence_class with the returned DAG as only candidate, the returned
    number of latents and no pruning of edges returns the same class, targets and model, also from pruned candidates. *)
Theorem C144_class : forall (F : realFieldType) (p e : nat) (w : world F p e) (a : args F) candidates data prune seed icpdag J am
    training test_graph test_I,
  split_data (w_shuffle w 42) [seq data k | k <- enum 'I_e] (a_folds a) = Ok [:: training; test_graph; test_I] ->
  no_draws (train_conf w a training (projT1 am)) -> Forall (graph p) candidates ->
  equivalence_class w a candidates data prune seed = Ok (icpdag, J, am) ->
  forall seed', equivalence_class w (only_number a (projT1 am)) [:: mA (projT2 am)] data false seed' = Ok (icpdag, J, am).
Proof. exact @class_again. Qed.
Print Assumptions C144_class.

(** C144, for the results of equivalence_class_w_ges. *)
Theorem C144_ges : forall (F : realFieldType) (p e : nat) (w : world F p e) (a : args F) data seed icpdag J am
    training test_graph test_I,
  split_data (w_shuffle w 42) [seq data k | k <- enum 'I_e] (a_folds a) = Ok [:: training; test_graph; test_I] ->
  no_draws (train_conf w a training (projT1 am)) -> ges_pdag w ->
  equivalence_class_w_ges w a data seed = Ok (icpdag, J, am) ->
  forall seed', equivalence_class w (only_number a (projT1 am)) [:: mA (projT2 am)] data false seed' = Ok (icpdag, J, am).
Proof. exact @ges_again. Qed.
Print Assumptions C144_ges.
