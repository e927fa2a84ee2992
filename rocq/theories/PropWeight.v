(** Property C123: weighted adjacencies. *)
From Coq Require Import List Arith ZArith.
Import ListNotations.
From Verif Require Import Base GraphModel GraphSpec WeightSpec WeightProofs.

(** C123.  The functions that read an adjacency only see which entries are zero: on two arrays of non-negative weights with the
    same edges they agree. *)
Theorem C123_sets : forall p P Q, same_edges p P Q -> forall (h : hord) i j L,
  neighbors i P = neighbors i Q /\ adj i P = adj i Q /\ pa i P = pa i Q /\ ch i P = ch i Q /\ na i j P = na i j Q /\
  undirected_edges P = undirected_edges Q /\ directed_edges P = directed_edges Q /\
  skeleton P = skeleton Q /\ degrees P = degrees Q /\ is_complete P = is_complete Q /\ is_clique h L P = is_clique h L Q /\
  vstructures h P = vstructures h Q /\ moral_graph h P = moral_graph h Q /\ chain_component h i P = chain_component h i Q.
Proof. exact weights_sets. Qed.
Print Assumptions C123_sets.

Theorem C123_orders : forall p P Q, same_edges p P Q -> forall (h : hord) fuel i j L A B,
  topological_ordering h P = topological_ordering h Q /\ is_dag h P = is_dag h Q /\
  semi_directed_paths h fuel i j P = semi_directed_paths h fuel i j Q /\
  separates h fuel L A B P = separates h fuel L A B Q /\
  to_factorization h P = to_factorization h Q /\ order_edges h P = order_edges h Q.
Proof. exact weights_orders. Qed.
Print Assumptions C123_orders.

Theorem C123_classes : forall p P Q, same_edges p P Q -> forall (h : hord) I,
  dag_to_cpdag h P = dag_to_cpdag h Q /\ pdag_to_cpdag h P = pdag_to_cpdag h Q /\
  dag_to_icpdag h P I = dag_to_icpdag h Q I /\ pdag_to_icpdag h P I = pdag_to_icpdag h Q I /\
  mec h P false = mec h Q false /\ imec h P I false = imec h Q I false /\
  same_edges_res p (pdag_to_dag h P) (pdag_to_dag h Q) /\ same_edges_res p (maximally_orient h P) (maximally_orient h Q).
Proof. exact weights_classes. Qed.
Print Assumptions C123_classes.

Theorem C123_extension : forall p G G' P Q, same_edges p G G' -> same_edges p P Q -> forall h : hord,
  is_consistent_extension h G P = is_consistent_extension h G' Q.
Proof. exact weights_extension. Qed.
Print Assumptions C123_extension.

(** In particular every array of weights can be replaced by a 0/1 array. *)
Theorem C123_binary : forall p P, square p P -> nonneg P -> exists Q, binary Q /\ same_edges p P Q.
Proof. exact weights_binary. Qed.
Print Assumptions C123_binary.

(** Two functions are exceptions.  all_dags fails whenever an undirected edge has a weight other than 1. *)
Theorem C123_all_dags_refuted : forall (h : hord) p P i j, square p P -> nonneg P -> loopless P -> und P i j -> get P i j <> 1%Z ->
  all_dags h P = Err AssertionError.
Proof. exact all_dags_weights. Qed.
Print Assumptions C123_all_dags_refuted.

(** is_supergraph is false, even of the graph itself, when some weight is not 1. *)
Theorem C123_is_supergraph_refuted : forall p sup A i j, square p A -> edge A i j -> get A i j <> 1%Z -> is_supergraph sup A = false.
Proof. exact supergraph_weights. Qed.
Print Assumptions C123_is_supergraph_refuted.
