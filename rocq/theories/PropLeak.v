(** Property C131: the parameters come from the training fold, the second fold selects the number of latents and the graph, the third
    the targets. *)
From Coq Require Import ZArith List.
From mathcomp Require Import all_ssreflect all_algebra.
From Verif Require Import Base GraphSpec NumModel ListModel ScoreModel CacheSpec MainModel MainSpec LeakSpec LeakProofs.
Import Order.Theory GRing.Theory Num.Theory.
Local Open Scope ring_scope.

(** C131.  Two runs that share the training fold and agree on the number of latents, the graph and the set of targets return the
    same model, whatever the other two folds are. *)
Theorem C131_parameters : forall (F : realFieldType) (p e : nat) (w : world F p e) (a : args F), sorts (w_argsort w) ->
  forall data data' ig prune seed seed' training test_graph test_I test_graph' test_I' am J sc am' J' sc',
  (forall gs, ig = Some gs -> Forall (graph p) gs) ->
  (forall training gs, ig = None -> fit_ges w training = Ok gs -> Forall (graph p) gs) ->
  split_data (w_shuffle w seed) [seq data k | k <- enum 'I_e] (a_folds a) = Ok [:: training; test_graph; test_I] ->
  split_data (w_shuffle w seed') [seq data' k | k <- enum 'I_e] (a_folds a) = Ok [:: training; test_graph'; test_I'] ->
  fit_all w a data ig prune None None seed = Ok (am, J, sc) -> fit_all w a data' ig prune None None seed' = Ok (am', J', sc') ->
  projT1 am' = projT1 am -> mA (projT2 am') = mA (projT2 am) -> same_set J J' -> am' = am /\ J' = J.
Proof. exact @parameters. Qed.
Print Assumptions C131_parameters.

(** C131.  The second fold matters only through the number of latents and the graph. *)
Theorem C131_second_fold : forall (F : realFieldType) (p e : nat) (w : world F p e) (a : args F),
  forall data data' ig prune seed seed' training test_graph test_I test_graph' am J sc am' J' sc',
  (forall gs, ig = Some gs -> Forall (graph p) gs) ->
  (forall training gs, ig = None -> fit_ges w training = Ok gs -> Forall (graph p) gs) ->
  split_data (w_shuffle w seed) [seq data k | k <- enum 'I_e] (a_folds a) = Ok [:: training; test_graph; test_I] ->
  split_data (w_shuffle w seed') [seq data' k | k <- enum 'I_e] (a_folds a) = Ok [:: training; test_graph'; test_I] ->
  fit_all w a data ig prune None None seed = Ok (am, J, sc) -> fit_all w a data' ig prune None None seed' = Ok (am', J', sc') ->
  projT1 am' = projT1 am -> mA (projT2 am') = mA (projT2 am) -> (am', J', sc') = (am, J, sc).
Proof. exact @second_fold. Qed.
Print Assumptions C131_second_fold.

(** C131.  The third fold decides neither the number of latents nor the graph.  It selects the first model of least score from a
    list that does not depend on it and has no set of targets twice. *)
Theorem C131_third_fold : forall (F : realFieldType) (p e : nat) (w : world F p e) (a : args F), sorts (w_argsort w) ->
  forall data data' ig prune seed seed' training test_graph test_I test_I' am J sc am' J' sc',
  (forall gs, ig = Some gs -> Forall (graph p) gs) ->
  (forall training gs, ig = None -> fit_ges w training = Ok gs -> Forall (graph p) gs) ->
  split_data (w_shuffle w seed) [seq data k | k <- enum 'I_e] (a_folds a) = Ok [:: training; test_graph; test_I] ->
  split_data (w_shuffle w seed') [seq data' k | k <- enum 'I_e] (a_folds a) = Ok [:: training; test_graph; test_I'] ->
  fit_all w a data ig prune None None seed = Ok (am, J, sc) -> fit_all w a data' ig prune None None seed' = Ok (am', J', sc') ->
  exists h (pool : seq (model F p h e * seq nat)) m m',
  [/\ am = existT (fun l => model F p l e) h m /\ am' = existT (fun l => model F p l e) h m', mA m' = mA m,
      selects w test_I pool (m, J) sc, selects w test_I' pool (m', J') sc' & distinct_targets pool].
Proof. exact @third_fold. Qed.
Print Assumptions C131_third_fold.

(** C131 for equivalence_class *)
Theorem C131_equivalence_class : forall (F : realFieldType) (p e : nat) (w : world F p e) (a : args F), sorts (w_argsort w) ->
  forall candidates data data' prune seed seed' training test_graph test_I test_graph' test_I' ic J am ic' J' am',
  Forall (graph p) candidates ->
  split_data (w_shuffle w 42) [seq data k | k <- enum 'I_e] (a_folds a) = Ok [:: training; test_graph; test_I] ->
  split_data (w_shuffle w 42) [seq data' k | k <- enum 'I_e] (a_folds a) = Ok [:: training; test_graph'; test_I'] ->
  equivalence_class w a candidates data prune seed = Ok (ic, J, am) ->
  equivalence_class w a candidates data' prune seed' = Ok (ic', J', am') ->
  projT1 am' = projT1 am -> mA (projT2 am') = mA (projT2 am) -> same_set J J' -> (ic', J', am') = (ic, J, am).
Proof. exact @class_parameters. Qed.
Print Assumptions C131_equivalence_class.

(** C131 for equivalence_class_w_ges *)
Theorem C131_w_ges : forall (F : realFieldType) (p e : nat) (w : world F p e) (a : args F), sorts (w_argsort w) ->
  forall data data' seed seed' training test_graph test_I test_graph' test_I' ic J am ic' J' am',
  (forall training gs, fit_ges w training = Ok gs -> Forall (graph p) gs) ->
  split_data (w_shuffle w 42) [seq data k | k <- enum 'I_e] (a_folds a) = Ok [:: training; test_graph; test_I] ->
  split_data (w_shuffle w 42) [seq data' k | k <- enum 'I_e] (a_folds a) = Ok [:: training; test_graph'; test_I'] ->
  equivalence_class_w_ges w a data seed = Ok (ic, J, am) -> equivalence_class_w_ges w a data' seed' = Ok (ic', J', am') ->
  projT1 am' = projT1 am -> mA (projT2 am') = mA (projT2 am) -> same_set J J' -> (ic', J', am') = (ic, J, am).
Proof. exact @ges_parameters. Qed.
Print Assumptions C131_w_ges.
