(** Property C145: more candidates, more numbers of latents and pruning do not worsen the validation score. *)
From Coq Require Import ZArith QArith_base List Permutation.
From mathcomp Require Import all_ssreflect all_algebra.
From Verif Require Import Base GraphModel GraphSpec ListModel NumModel NumSpec ScoreModel ScoreSpec MainModel MainSpec CandSpec MoreSpec MoreProofs.
Import Order.Theory GRing.Theory Num.Theory.
Local Open Scope ring_scope.

(** C145.  Two calls on the same data, the second with the candidates and numbers of latents of the first and others, in any order,
    and with pruning if the first has it: if the fits do not depend on random draws, the validation score of the model selected
    by the second is at most that of the first. *)
Theorem C145_class : forall (F : realFieldType) (p e : nat) (w : world F p e) (a : args F) candidates candidates' extra data
    prune prune' seed seed' icpdag J am icpdag' J' am' training test_graph test_I hs hs',
  split_data (w_shuffle w 42) [seq data k | k <- enum 'I_e] (a_folds a) = Ok [:: training; test_graph; test_I] ->
  numbers w a training = Ok hs -> incl hs hs' -> (forall h, In h hs -> no_draws (train_conf w a training h)) ->
  Permutation candidates' (candidates ++ extra) -> Forall (graph p) candidates' -> (prune = true -> prune' = true) ->
  equivalence_class w a candidates data prune seed = Ok (icpdag, J, am) ->
  equivalence_class w (with_numbers a hs') candidates' data prune' seed' = Ok (icpdag', J', am') ->
  exists v v', [/\ validated w a training test_graph prune candidates hs am v,
    validated w (with_numbers a hs') training test_graph prune' candidates' hs' am' v' & v' <= v].
Proof. exact @class_more. Qed.
Print Assumptions C145_class.

(** C145, for one number of latents. *)
Theorem C145_validation : forall (F : realFieldType) (p e : nat) (w : world F p e) (a : args F) training test prune prune' graphs graphs' extra
    n n' h v v' G G',
  no_draws (train_conf w a training h) -> (prune = true -> prune' = true) -> Permutation graphs' (graphs ++ extra) -> Forall (graph p) graphs' ->
  validation w a training test prune graphs n h v G -> validation w a training test prune' graphs' n' h v' G' -> v' <= v.
Proof. exact @validation_more. Qed.
Print Assumptions C145_validation.
