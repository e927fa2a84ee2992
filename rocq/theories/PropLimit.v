(** Properties C118 and C119: the procedure on exact data with exact fits. *)
From Coq Require Import ZArith List.
From mathcomp Require Import all_ssreflect all_algebra.
From Verif Require Import Base GraphModel GraphSpec ListModel NumModel NumSpec ScoreModel ScoreSpec OptSpec MainModel MainSpec LimitSpec LimitProofs LimitRunProofs.
Import Order.Theory GRing.Theory Num.Theory.
Local Open Scope ring_scope.

(** C118.  When the folds have the same covariances and fitting finds parameters that entail them whenever there are any: the
    result of _fit entails them; its graph is the first candidate that can, with nothing pruned; its number of latents is the
    least with which a candidate can; its targets are all the variables. *)
Theorem C118_fit : forall (F : realFieldType) (p e : nat) (w : world F p e) (a : args F) data gs prune seed am J sc
  training test_graph test_I hs, Forall (graph p) gs ->
  fit_all w a data (Some gs) prune None None seed = Ok (am, J, sc) ->
  split_data (w_shuffle w seed) [seq data k | k <- enum 'I_e] (a_folds a) = Ok [:: training; test_graph; test_I] ->
  numbers w a training = Ok hs -> log_like (w_log w) ->
  exact_folds w training test_graph test_I -> exact_fits w a training prune gs hs ->
  (exists h G, [/\ List.In h hs, List.In G gs, acyclic G & explainable (train_conf w a training h) G (List.seq 0 p)]) ->
  [/\ explains (covs w training) (projT2 am), J = List.seq 0 p,
      explainable (train_conf w a training (projT1 am)) (mA (projT2 am)) (List.seq 0 p) /\
      (exists us vs, gs = us ++ mA (projT2 am) :: vs /\
        forall G, List.In G us -> ~ explainable (train_conf w a training (projT1 am)) G (List.seq 0 p)),
      List.In (projT1 am) hs
    & forall h G, List.In h hs -> List.In G gs -> explainable (train_conf w a training h) G (List.seq 0 p) -> (projT1 am <= h)%N].
Proof. exact @fit_all_limit. Qed.
Print Assumptions C118_fit.

(** C118.  The class returned by equivalence_class then has a single graph, whatever the targets were. *)
Theorem C118_class : forall (F : realFieldType) (p e : nat) (w : world F p e) (a : args F) data gs prune seed icpdag J am
  training test_graph test_I hs, Forall (dag01 p) gs ->
  equivalence_class w a gs data prune seed = Ok (icpdag, J, am) ->
  split_data (w_shuffle w 42) [seq data k | k <- enum 'I_e] (a_folds a) = Ok [:: training; test_graph; test_I] ->
  numbers w a training = Ok hs -> log_like (w_log w) ->
  exact_folds w training test_graph test_I -> exact_fits w a training prune gs hs ->
  (exists h G, [/\ List.In h hs, List.In G gs & explainable (train_conf w a training h) G (List.seq 0 p)]) ->
  [/\ J = List.seq 0 p, icpdag = mA (projT2 am)
    & forall D, square p D -> consistent_ext D icpdag -> forall i j, edge D i j <-> edge icpdag i j].
Proof. exact @class_limit. Qed.
Print Assumptions C118_class.

(** C119.  So a graph that generated the data without interventions, which is a candidate and is fitted exactly, can be missing
    from the returned class, and the returned targets are all variables.  Here a graph is said to generate the data if
    parameters over it with no targets entail the covariances. *)
Theorem C119_class_refuted : forall (F : realFieldType) (log : F -> F) (pi : F) (h : hord), log_like log ->
  forall prune seed, exists (w : world F 2 1) a data gs training hs icpdag J am G,
  [/\ [/\ Forall (dag01 2) gs,
          split_data (w_shuffle w 42) [seq data k | k <- enum 'I_1] (a_folds a) = Ok [:: training; training; training],
          numbers w a training = Ok hs & w_log w = log],
      exact_folds w training training training /\ exact_fits w a training prune gs hs,
      [/\ List.In 0%N hs, List.In G gs & explainable (train_conf w a training 0) G [::]],
      equivalence_class w a gs data prune seed = Ok (icpdag, J, am)
    & ~ consistent_ext G icpdag /\ J = [:: 0; 1]%N].
Proof. exact @lim_refuted. Qed.
Print Assumptions C119_class_refuted.
