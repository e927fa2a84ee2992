(** C130: the graph functions of utils.py that change arrays in place never change an array of the caller, and return new arrays
    with the contents that GraphModel.v gives. *)
From Coq Require Import List Arith ZArith.
Import ListNotations.
From Verif Require Import Base GraphModel MemModel MemSpec MemProofs.

Theorem C130_orders : forall (h : hord) (H : heap) (a b : nat), a < length H -> b < length H ->
  returns_value (m_topological_ordering h a) H (topological_ordering h (cell H a)) /\
  returns_value (m_is_dag h a) H (is_dag h (cell H a)) /\
  returns_value (m_is_consistent_extension h a b) H (is_consistent_extension h (cell H a) (cell H b)).
Proof. exact mem_orders. Qed.
Print Assumptions C130_orders.

Theorem C130_edges : forall (h : hord) (H : heap) (a : nat), a < length H ->
  returns_array (m_moral_graph h a) H (Ok (moral_graph h (cell H a))) /\
  (forall choice n, returns_array (m_remove_edges choice a n) H (remove_edges choice (cell H a) n)) /\
  (forall shuffle n, returns_array (m_add_edges h shuffle a n) H (add_edges h shuffle (cell H a) n)).
Proof. exact mem_edges. Qed.
Print Assumptions C130_edges.

Theorem C130_cpdags : forall (h : hord) (H : heap) (a : nat), a < length H ->
  (forall ab, returns_array (m_pdag_to_dag_gen h ab a) H (pdag_to_dag_gen h ab (cell H a))) /\
  returns_array (m_pdag_to_dag h a) H (pdag_to_dag h (cell H a)) /\
  returns_array (m_order_edges h a) H (order_edges h (cell H a)) /\
  returns_array (m_label_edges h a) H (label_edges h (cell H a)) /\
  returns_array (m_dag_to_cpdag h a) H (dag_to_cpdag h (cell H a)) /\
  returns_array (m_pdag_to_cpdag h a) H (pdag_to_cpdag h (cell H a)).
Proof. exact mem_cpdags. Qed.
Print Assumptions C130_cpdags.

Theorem C130_icpdags : forall (h : hord) (H : heap) (a : nat) (I : list nat), a < length H ->
  returns_array (m_maximally_orient h a) H (maximally_orient h (cell H a)) /\
  returns_array (m_dag_to_icpdag h a I) H (dag_to_icpdag h (cell H a) I) /\
  returns_array (m_pdag_to_icpdag h a I) H (pdag_to_icpdag h (cell H a) I).
Proof. exact mem_icpdags. Qed.
Print Assumptions C130_icpdags.

Theorem C130_classes : forall (h : hord) (H : heap) (a : nat) (I : list nat) (check_chain : bool), a < length H ->
  returns_arrays (m_all_dags h a) H (all_dags h (cell H a)) /\
  (forall p, returns_arrays (m_chain_graph_MEC p) H (Ok (chain_graph_MEC p))) /\
  returns_arrays (m_chain_graph_IMEC a I) H (chain_graph_IMEC (cell H a) I) /\
  returns_arrays (m_mec h a check_chain) H (mec h (cell H a) check_chain) /\
  returns_arrays (m_imec h a I check_chain) H (imec h (cell H a) I check_chain).
Proof. exact mem_classes. Qed.
Print Assumptions C130_classes.
