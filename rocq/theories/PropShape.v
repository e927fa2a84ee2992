(** Property C122: the array of sample covariances. *)
From Coq Require Import ZArith List.
From mathcomp Require Import all_ssreflect all_algebra.
From Verif Require Import Base GraphModel GraphSpec NdModel CovModel ShapeModel ShapeSpec ShapeProofs.
Local Open Scope ring_scope.

(** C122.  For any number of variables other than one, the array that Score.__init__ computes from samples, and the one that
    Model.sample returns, is the e x p x p array of the sample covariances. *)
Theorem C122_shape : forall (F : realFieldType) (p : nat) (Xs : seq (seq 'rV[F]_p)), p <> 1%N -> Xs <> [::] ->
  (forall X, X \in Xs -> (2 <= size X)%N) ->
  init_covariances [seq Some (sample_array X) | X <- Xs] true = Ok (stacked [seq np_cov X | X <- Xs]) /\
  sample_covs [seq sample_array X | X <- Xs] = Ok (stacked [seq np_cov X | X <- Xs]).
Proof. exact shape_ok. Qed.
Print Assumptions C122_shape.

(** score_dag reads e and p off such an array, for every DAG. *)
Theorem C122_start : forall (F : realFieldType) (p : nat) (S : seq 'M[F]_p) (h : hord) A, square p A -> nonneg A -> acyclic A ->
  score_dag_start h (stacked S) A = Ok (size S, p, p).
Proof. exact start_ok. Qed.
Print Assumptions C122_start.

(** A cyclic graph raises ValueError before the shape is looked at. *)
Theorem C122_cyclic : forall (F : realFieldType) (covs : nd F) (h : hord) p A, square p A -> nonneg A -> ~ acyclic A ->
  score_dag_start h covs A = Err ValueError.
Proof. exact start_cyclic. Qed.
Print Assumptions C122_cyclic.

(** With one variable, Score.__init__ accepts the samples, but the array has one dimension instead of three, and score_dag
    raises ValueError whatever the graph. *)
Theorem C122_one_variable_refuted : forall (F : realFieldType) (Xs : seq (seq 'rV[F]_1)),
  (forall X, X \in Xs -> (2 <= size X)%N) ->
  exists covs, [/\ init_covariances [seq Some (sample_array X) | X <- Xs] true = Ok covs,
    sample_covs [seq sample_array X | X <- Xs] = Ok covs, nshape covs = [:: size Xs] &
    forall h q A, square q A -> nonneg A -> score_dag_start h covs A = Err ValueError].
Proof. exact one_variable. Qed.
Print Assumptions C122_one_variable_refuted.
