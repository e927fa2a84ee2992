(** Properties C106-C109, C69: samples, their covariances, and the units of the variables. *)
From Coq Require Import ZArith List Permutation.
From mathcomp Require Import all_ssreflect all_algebra.
From Verif Require Import Base GraphSpec NumSpec GradSpec CovSpec MainSpec ListModel CovModel NumModel ScoreModel MainModel UtilNumModel.
From Verif Require Import FoldProofs FoldRunProofs CovProofs UnitProofs Units2Proofs AnyEdgeProofs.
Set Implicit Arguments.
Unset Strict Implicit.
Unset Printing Implicit Defensive.
Import Order.Theory GRing.Theory Num.Theory.
Local Open Scope ring_scope.

(** C106: samples with one observation pass the check for samples with one observation: the training samples are empty. *)
Theorem C106_single_refuted : forall (F : realFieldType) (p e : nat) (w : world F p e) (a : args F),
  a_folds a = thirds -> (forall seed k xs, Permutation (w_shuffle w seed k xs) xs) ->
  forall data, (forall k, size (data k) = 1%N) ->
  (exists tr tg ti, [/\ split_data (w_shuffle w 42) [seq data k | k <- enum 'I_e] (a_folds a) = Ok [:: tr; tg; ti],
     forall k : 'I_e, nth [::] tr k = [::] & too_small tr = false]) /\
  forall h hs prune seed, (0 < e)%N -> a_nums_latent a = Some (h :: hs) ->
    equivalence_class w a [::] data prune seed = Err IndexError.
Proof. exact single_accepted. Qed.
Print Assumptions C106_single_refuted.

(** C106: a sample with two observations is rejected as having one. *)
Theorem C106_two_refuted : forall (F : realFieldType) (p e : nat) (w : world F p e) (a : args F),
  a_folds a = thirds -> (forall seed k xs, Permutation (w_shuffle w seed k xs) xs) ->
  forall h hs candidates data prune seed (k : 'I_e), a_nums_latent a = Some (h :: hs) -> size (data k) = 2%N ->
  equivalence_class w a candidates data prune seed = Err ValueError.
Proof. exact two_rejected. Qed.
Print Assumptions C106_two_refuted.

(** C107 *)
Theorem C107_positive_definite : forall (F : realFieldType) (p : nat) (X : seq 'rV[F]_p), (1 < size X)%N ->
  (np_cov X)^T = np_cov X /\ (forall v : 'cV[F]_p, 0 <= (v^T *m np_cov X *m v) 0 0) /\ (posdef (np_cov X) <-> varied X).
Proof. exact cov_positive. Qed.
Print Assumptions C107_positive_definite.

Theorem C107_too_few : forall (F : realFieldType) (p : nat) (X : seq 'rV[F]_p), (1 < size X)%N -> (size X <= p)%N ->
  ~ posdef (np_cov X).
Proof. exact cov_singular. Qed.
Print Assumptions C107_too_few.

Theorem C107_order : forall (F : realFieldType) (p : nat) (X Y : seq 'rV[F]_p), perm_eq X Y -> np_cov X = np_cov Y.
Proof. exact cov_perm. Qed.
Print Assumptions C107_order.

(** C108: covariances *)
Theorem C108_covariance : forall (F : realFieldType) (p : nat) (c b : 'I_p -> F) (X : seq 'rV[F]_p), (0 < size X)%N ->
  np_cov [seq convert c b x | x <- X] = convert_cov c (np_cov X).
Proof. exact cov_convert. Qed.
Print Assumptions C108_covariance.

(** C108: the constructor accepts the converted parameters, and they entail the converted covariances. *)
Theorem C108_entailed : forall (F : realFieldType) (h h' : hord) (p l e : nat) (c : 'I_p -> F), (forall j, c j != 0) ->
  forall A (B : 'M[F]_p) (gm : 'M[F]_(l, p)) (o : 'M[F]_(e, p)) (s : 'M[F]_(e, l)) m,
  square p A -> nonneg A -> new_model h A B gm o s = Ok m -> positive o -> (forall a b, 0 <= s a b) ->
  exists2 m', new_model h' A (weights_in c B) (loadings_in c gm) (variances_in c o) s = Ok m' &
    forall k, entailed (mB m') (mgamma m') (momegas m') (mpsis m') k = convert_cov c (entailed B gm o s k).
Proof. exact units_entailed. Qed.
Print Assumptions C108_entailed.

(** C108: the score on the converted data changes by a number that does not depend on the parameters. *)
Theorem C108_score : forall (F : realFieldType) (log : F -> F) (h h' : hord) (p l e : nat) (c : 'I_p -> F),
  (forall j, c j != 0) -> (forall x y, 0 < x -> 0 < y -> log (x * y) = log x + log y) ->
  forall A (B : 'M[F]_p) (gm : 'M[F]_(l, p)) (o : 'M[F]_(e, p)) (s : 'M[F]_(e, l)) m m' (b : 'I_p -> F) (X : 'I_e -> seq 'rV[F]_p) x,
  square p A -> nonneg A -> new_model h A B gm o s = Ok m -> positive o -> (forall a b, 0 <= s a b) ->
  new_model h' A (weights_in c B) (loadings_in c gm) (variances_in c o) s = Ok m' -> (forall k, (0 < size (X k))%N) ->
  score log m (fun k => np_cov (X k)) (fun k => size (X k)) = Ok x ->
  score log m' (fun k => np_cov [seq convert c b y | y <- X k]) (fun k => size (X k)) =
    Ok (x + \sum_k (size (X k))%:R / (\sum_i size (X i))%N%:R ^+ (e - k) * log ((\prod_j c j) ^+ 2)).
Proof. exact data_units. Qed.
Print Assumptions C108_score.

(** C109: whatever the weights of two edges or more, the edge pruned first depends on the units. *)
Theorem C109_edges_refuted : forall (F : realFieldType) (p : nat) (B : 'M[F]_p) (i j x y : 'I_p),
  (forall k, B k k = 0) -> (i, j) <> (x, y) -> B i j != 0 -> B x y != 0 ->
  exists c, (forall k, 0 < c k) /\ weakest_edge (weights_in c B) <> weakest_edge B.
Proof. exact edge_units. Qed.
Print Assumptions C109_edges_refuted.
(** C109: every edge of a weighted DAG is the one pruned first in some units. *)
Theorem C109_any_edge_refuted : forall (F : realFieldType) (p : nat) (A : mat) (B : 'M[F]_p) (i j : 'I_p),
  graph p A -> acyclic A -> NumSpec.supported A B -> B i j != 0 ->
  exists c, (forall k, 0 < c k) /\ weakest_edge (weights_in c B) = Ok (nat_of_ord i, nat_of_ord j).
Proof. exact any_edge_units. Qed.
Print Assumptions C109_any_edge_refuted.

(** C109: so does the order of the targets if the variances of two variables change between environments. *)
Theorem C109_targets_refuted : forall (F : realFieldType) (p e l : nat) argsort (m : model F p l e) (i j : 'I_p),
  sorts argsort -> i <> j -> (exists a b, momegas m a i <> momegas m b i) -> (exists a b, momegas m a j <> momegas m b j) ->
  exists c, (forall k, 0 < c k) /\
    forall m' : model F p l e, momegas m' = variances_in c (momegas m) -> argsort (variances m') <> argsort (variances m).
Proof. exact targets_units. Qed.
Print Assumptions C109_targets_refuted.
(** C109: if all variances change between environments, the targets are removed in any given order in some units. *)
Theorem C109_any_order_refuted : forall (F : realFieldType) (p e l : nat) argsort (m : model F p l e) (js : seq nat),
  sorts argsort -> Permutation js (List.seq 0 p) -> (forall j, exists a b, momegas m a j <> momegas m b j) ->
  exists c, (forall k, 0 < c k) /\
    forall m' : model F p l e, momegas m' = variances_in c (momegas m) -> argsort (variances m') = js.
Proof. exact any_order_units. Qed.
Print Assumptions C109_any_order_refuted.

(** C109: the orders do not change if all variables are converted alike, and the one of the targets would not if
    normalized_var were used in place of np.var. *)
Theorem C109_common_partial : forall (F : realFieldType) (p : nat) (t : F), t != 0 ->
  (forall B : 'M[F]_p, weakest_edge (weights_in (fun=> t) B) = weakest_edge B) /\
  forall e (o : 'M[F]_(e, p)) (i j : 'I_p),
    (col_var (variances_in (fun=> t) o) i <= col_var (variances_in (fun=> t) o) j) = (col_var o i <= col_var o j).
Proof. exact common_units. Qed.
Print Assumptions C109_common_partial.
Theorem C109_normalized_partial : forall (F : realFieldType) (p e : nat) (c : 'I_p -> F) (o : 'M[F]_(e, p)), (forall j, c j != 0) ->
  normalized_var (variances_in c o) (Some Z0) = normalized_var o (Some Z0).
Proof. exact normalised_units. Qed.
Print Assumptions C109_normalized_partial.

(** C69: the numbers of latents tried by default *)
Theorem C69_numbers : forall (F : realFieldType) (p e : nat) (w : world F p e) (a : args F) X training,
  increasing_log (w_log w) -> a_nums_latent a = None -> (2 < p)%N ->
  let svds := [seq (w_svd w (w_cov w X)).2 0 j | j <- enum 'I_p] in
  (forall h, (0 < h < p)%N -> 0 < pooled svds h) ->
  exists k hs, [/\ numbers w a (X :: training) = Ok hs, (0 < k < p)%N, (forall h, h \in hs <-> (0 < h <= k)%N), sorted ltn hs &
    (forall h, (0 < h < p)%N -> pooled svds k <= pooled svds h) /\ (forall h, (0 < h < k)%N -> pooled svds k < pooled svds h)].
Proof. exact numbers_scree. Qed.
Print Assumptions C69_numbers.
