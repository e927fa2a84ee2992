(** Properties C128 and C129: what the result depends on besides the candidates are the covariances and sizes of the folds; the means of the environments. *)
From Coq Require Import ZArith List.
From mathcomp Require Import all_ssreflect all_algebra.
From Verif Require Import Base GraphSpec NumModel ListModel ScoreModel CovModel MainModel MainSpec StatSpec StatProofs GesMeanProofs.
Import Order.Theory GRing.Theory Num.Theory.
Local Open Scope ring_scope.

(** C128.  If the folds of two data sets have the same sizes and covariances, equivalence_class has the same result for both;
    this includes its exceptions. *)
Theorem C128_statistics : forall (F : realFieldType) (p e : nat) (w : world F p e) (a : args F) candidates data data' prune seed
    training test_graph test_I training' test_graph' test_I',
  split_data (w_shuffle w 42) [seq data k | k <- enum 'I_e] (a_folds a) = Ok [:: training; test_graph; test_I] ->
  split_data (w_shuffle w 42) [seq data' k | k <- enum 'I_e] (a_folds a) = Ok [:: training'; test_graph'; test_I'] ->
  same_fold w training training' -> same_fold w test_graph test_graph' -> same_fold w test_I test_I' ->
  equivalence_class w a candidates data' prune seed = equivalence_class w a candidates data prune seed.
Proof. exact @class_statistics. Qed.
Print Assumptions C128_statistics.

(** C128.  Adding to each environment a vector of its own does not change the result of equivalence_class. *)
Theorem C128_translate : forall (F : realFieldType) (p e : nat) (w : world F p e) (a : args F),
  (forall X, w_cov w X = np_cov X) -> moves_rows w ->
  forall (c : 'I_e -> 'rV[F]_p) candidates data data' prune seed, (forall k, data' k = translate (c k) (data k)) ->
  equivalence_class w a candidates data' prune seed = equivalence_class w a candidates data prune seed.
Proof. exact @class_translate. Qed.
Print Assumptions C128_translate.

(** C129 "adding to each environment a vector of its own does not change the result of equivalence_class_w_ges either" is false,
    even if ges only looks at the covariance of its sample: that sample is the union of the environments. *)
Theorem C129_means_refuted : forall (F : realFieldType) (log : F -> F) (pi : F) (h : hord),
  (forall x y : F, 0 < x -> x < y -> log x < log y) ->
  exists (w : world F 2 2) (a : args F) data c,
  [/\ w_log w = log /\ w_pi w = pi, [/\ w_h w = h, moves_rows w & forall X, w_cov w X = np_cov X],
      ges_pdag w /\ (forall X Y lambda, np_cov X = np_cov Y -> w_ges w X lambda = w_ges w Y lambda)
    & forall seed, exists r r',
      [/\ equivalence_class_w_ges w a data seed = Ok r, equivalence_class_w_ges w a (fun k => translate (c k) (data k)) seed = Ok r',
          exists i j, edge (mA (projT2 r.2)) i j & forall i j, ~ edge (mA (projT2 r'.2)) i j]].
Proof. exact @means_matter. Qed.
Print Assumptions C129_means_refuted.

(** C129, what holds: the result does not change if the same vector is added to all environments. *)
Theorem C129_common_partial : forall (F : realFieldType) (p e : nat) (w : world F p e) (a : args F),
  (forall X, w_cov w X = np_cov X) -> moves_rows w ->
  forall (c : 'rV[F]_p) data data' seed, (forall X lambda, w_ges w (translate c X) lambda = w_ges w X lambda) ->
  (forall k, data' k = translate c (data k)) ->
  equivalence_class_w_ges w a data' seed = equivalence_class_w_ges w a data seed.
Proof. exact @ges_translate. Qed.
Print Assumptions C129_common_partial.
