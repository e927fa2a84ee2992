(** Property C117: targets refine the I-CPDAG. *)
From Coq Require Import List Arith ZArith.
Import ListNotations.
From Verif Require Import Base GraphModel GraphSpec RefineSpec RefineProofs.

(** More targets: the same adjacencies, at least the same orientations *)
Theorem C117_refines : forall (h h' : hord) p G I J, square p G -> nonneg G -> acyclic G -> incl I J ->
  exists M N, dag_to_icpdag h G I = Ok M /\ dag_to_icpdag h' G J = Ok N /\ refines N M.
Proof. exact icpdag_refines. Qed.
Print Assumptions C117_refines.

(** No targets: the CPDAG *)
Theorem C117_no_targets : forall (h h' : hord) p G, square p G -> nonneg G -> acyclic G ->
  dag_to_icpdag h G [] = dag_to_cpdag h' G.
Proof. exact icpdag_no_targets. Qed.
Print Assumptions C117_no_targets.

(** The targets identify G iff every covered edge has an endpoint among them. *)
Theorem C117_identified : forall (h : hord) p G I, dag01 p G ->
  (dag_to_icpdag h G I = Ok G <-> forall x y, covered_edge G x y -> In x I \/ In y I).
Proof. exact icpdag_identified. Qed.
Print Assumptions C117_identified.

(** A covered edge is directed in the I-CPDAG only by being touched. *)
Theorem C117_covered : forall (h : hord) p G I M x y, dag01 p G -> dag_to_icpdag h G I = Ok M -> covered_edge G x y ->
  (und M x y <-> ~ In x I /\ ~ In y I).
Proof. exact covered_und. Qed.
Print Assumptions C117_covered.
