(** Properties C01-C08, C12-C16, C31, C39. *)
From Coq Require Import List Arith ZArith Permutation Sorted.
Import ListNotations.
From Verif Require Import Base GraphModel GraphSpec TopoProofs BasicProofs Basic2Proofs DTProofs OrderProofs
  WitnessProofs.

(** C01 *)
Theorem C01_is_dag_decides_acyclicity : forall (h : hord) p A, square p A -> nonneg A ->
  exists b, is_dag h A = Ok b /\ (b = true <-> acyclic A).
Proof. exact is_dag_spec. Qed.
Print Assumptions C01_is_dag_decides_acyclicity.

(** C02 *)
Theorem C02_topological_ordering_ok : forall (h : hord) p A, square p A -> nonneg A -> acyclic A ->
  exists l, topological_ordering h A = Ok l /\ topo_order p A l.
Proof. exact topological_ordering_ok. Qed.
Print Assumptions C02_topological_ordering_ok.

Theorem C02_topological_ordering_cyclic : forall (h : hord) p A, square p A -> nonneg A ->
  ~ acyclic A -> topological_ordering h A = Err ValueError.
Proof. exact topological_ordering_err. Qed.
Print Assumptions C02_topological_ordering_cyclic.

Theorem C02_topological_ordering_terminates : forall (h : hord) p A, square p A ->
  (exists l, topological_ordering h A = Ok l) \/ topological_ordering h A = Err ValueError.
Proof. exact topological_ordering_res. Qed.
Print Assumptions C02_topological_ordering_terminates.

(** C03: false of the code.  The positive part for non-negative weights is C01. *)
Theorem C03_is_dag_signed_refuted : exists p A, square p A /\ ~ acyclic A /\
  forall h : hord, is_dag h A = Ok true.
Proof. exact is_dag_signed_refuted. Qed.
Print Assumptions C03_is_dag_signed_refuted.

Theorem C03_topological_ordering_signed_refuted : exists p A, square p A /\ acyclic A /\
  exists l, topological_ordering ho_id A = Ok l /\ ~ NoDup l.
Proof. exact topological_ordering_signed_refuted. Qed.
Print Assumptions C03_topological_ordering_signed_refuted.

(** C04 *)
Theorem C04_node_sets : forall p A i j, square p A ->
  (In j (neighbors i A) <-> und A i j) /\ (In j (pa i A) <-> dir A j i) /\
  (In j (ch i A) <-> dir A i j) /\ (In j (adj i A) <-> adjacent A i j) /\
  (In j (adj i A) <-> In j (neighbors i A) \/ In j (pa i A) \/ In j (ch i A)) /\
  ~ (In j (neighbors i A) /\ In j (pa i A)) /\ ~ (In j (neighbors i A) /\ In j (ch i A)) /\
  ~ (In j (pa i A) /\ In j (ch i A)) /\
  (In j (pa i A) <-> In i (ch j A)) /\ (In j (neighbors i A) <-> In i (neighbors j A)) /\
  (In j (adj i A) <-> In i (adj j A)) /\
  (forall x, In x (na j i A) <-> In x (neighbors j A) /\ In x (adj i A)) /\
  NoDup (neighbors i A) /\ NoDup (pa i A) /\ NoDup (ch i A) /\ NoDup (adj i A) /\ NoDup (na j i A).
Proof. exact node_sets. Qed.
Print Assumptions C04_node_sets.

(** C05 *)
Theorem C05_decomposition : forall p P, square p P ->
  square p (only_directed P) /\ square p (only_undirected P) /\
  (forall i j, (get (only_directed P) i j + get (only_undirected P) i j)%Z = get P i j) /\
  (forall i j, get (only_directed P) i j = 0%Z \/ get (only_undirected P) i j = 0%Z) /\
  (forall i j, edge (only_directed P) i j <-> dir P i j) /\
  (forall i j, edge (only_undirected P) i j <-> und P i j) /\
  (NoDup (undirected_edges P) /\
   forall i j, In (i, j) (undirected_edges P) <-> und P i j /\ j < i) /\
  (NoDup (directed_edges P) /\ forall i j, In (i, j) (directed_edges P) <-> dir P i j) /\
  (NoDup (map fst (edge_weights P)) /\
   forall i j w, In ((i, j), w) (edge_weights P) <-> w = get P i j /\ w <> 0%Z).
Proof. exact decomposition. Qed.
Print Assumptions C05_decomposition.

Theorem C05_skeleton : forall p P, square p P -> nocancel P ->
  square p (skeleton P) /\ binary (skeleton P) /\
  (forall i j, get (skeleton P) i j = get (skeleton P) j i) /\
  (forall i j, get (skeleton P) i j = 1%Z <-> adjacent P i j).
Proof. exact skeleton_spec. Qed.
Print Assumptions C05_skeleton.

(** C06 *)
Theorem C06_vstructures : forall (h : hord) p A i c j, square p A ->
  (In (i, c, j) (vstructures h A) <-> i < j /\ vstruct A i c j).
Proof. exact vstructures_In. Qed.
Print Assumptions C06_vstructures.

Theorem C06_vstructures_order_independent : forall (h h' : hord) p A, square p A ->
  forall t, In t (vstructures h A) <-> In t (vstructures h' A).
Proof. exact vstructures_indep. Qed.
Print Assumptions C06_vstructures_order_independent.

(** C07 *)
Theorem C07_moral_graph : forall (h : hord) p A, square p A -> nocancel A ->
  square p (moral_graph h A) /\ binary (moral_graph h A) /\
  (forall i j, get (moral_graph h A) i j = get (moral_graph h A) j i) /\
  forall i j, edge (moral_graph h A) i j <-> adjacent A i j \/ exists c, vstruct A i c j.
Proof. exact moral_graph_spec. Qed.
Print Assumptions C07_moral_graph.

Theorem C07_degrees : forall p A, square p A -> nocancel A ->
  length (degrees A) = p /\
  forall j, j < p -> exists l, NoDup l /\ (forall i, In i l <-> adjacent A i j) /\
    nth j (degrees A) 0%Z = Z.of_nat (length l).
Proof. exact degrees_spec. Qed.
Print Assumptions C07_degrees.

(** C08 *)
Theorem C08_is_clique : forall (h : hord) p S A, square p A -> nocancel A -> loopless A -> NoDup S ->
  (forall x, In x S -> x < p) ->
  (is_clique h S A = true <-> forall i j, In i S -> In j S -> i <> j -> adjacent A i j).
Proof. exact is_clique_spec. Qed.
Print Assumptions C08_is_clique.

Theorem C08_is_complete : forall p P, square p P -> nocancel P -> loopless P ->
  (is_complete P = true <-> forall i j, i < p -> j < p -> i <> j -> adjacent P i j).
Proof. exact is_complete_spec. Qed.
Print Assumptions C08_is_complete.

(** C12 *)
Theorem C12_induced_subgraph : forall p S G, square p G ->
  square p (induced_subgraph S G) /\
  (forall i j, In i S -> In j S -> get (induced_subgraph S G) i j = get G i j) /\
  (forall i j, ~ In i S \/ ~ In j S -> get (induced_subgraph S G) i j = 0%Z) /\
  (acyclic G -> acyclic (induced_subgraph S G)).
Proof. exact induced_subgraph_spec. Qed.
Print Assumptions C12_induced_subgraph.

(** C13 *)
Theorem C13_is_consistent_extension : forall (h : hord) p G P,
  square p G -> nonneg G -> square p P -> nocancel P ->
  (~ acyclic G /\ is_consistent_extension h G P = Err ValueError) \/
  (acyclic G /\ exists b, is_consistent_extension h G P = Ok b /\ (b = true <-> consistent_ext G P)).
Proof. exact is_consistent_extension_spec. Qed.
Print Assumptions C13_is_consistent_extension.

(** C14 *)
Theorem C14_pdag_to_dag_sound : forall (h : hord) p P G, square p P -> binary P -> loopless P ->
  pdag_to_dag h P = Ok G -> dag01 p G /\ consistent_ext G P.
Proof. exact pdag_to_dag_sound01. Qed.
Print Assumptions C14_pdag_to_dag_sound.

(** The result is only right because CPython lists [set(range(n)) - {i}] in ascending order. *)
Theorem C14_pdag_to_dag_needs_ascending_order : exists p P (ab : nat -> nat -> list nat) G,
  square p P /\ binary P /\ loopless P /\
  (forall n i, Permutation (ab n i) (all_but_asc n i)) /\
  pdag_to_dag_gen ho_id ab P = Ok G /\ ~ consistent_ext G P.
Proof. exact pdag_to_dag_order. Qed.
Print Assumptions C14_pdag_to_dag_needs_ascending_order.

(** C15 *)
Theorem C15_pdag_to_dag_complete : forall (h : hord) p P D, square p P -> loopless P ->
  square p D -> consistent_ext D P -> exists G, pdag_to_dag h P = Ok G.
Proof. exact pdag_to_dag_complete. Qed.
Print Assumptions C15_pdag_to_dag_complete.

Theorem C15_pdag_to_dag_fails : forall (h : hord) p P, square p P -> loopless P ->
  (forall D, square p D -> ~ consistent_ext D P) -> pdag_to_dag h P = Err ValueError.
Proof. exact pdag_to_dag_fails. Qed.
Print Assumptions C15_pdag_to_dag_fails.

(** C16 *)
Theorem C16_order_edges : forall (h : hord) p G, square p G -> nonneg G -> acyclic G ->
  exists order O edges, topo_order p G order /\ order_edges h G = Ok O /\ square p O /\
    NoDup edges /\ (forall a b, In (a, b) edges <-> edge G a b) /\
    (forall a b, ~ edge G a b -> get O a b = 0%Z) /\
    Permutation (map (fun e => get O (fst e) (snd e)) edges) (map Z.of_nat (seq 1 (length edges))) /\
    (forall a b c d, edge G a b -> edge G c d ->
       ((get O a b < get O c d)%Z <-> precedes order d b \/ (b = d /\ precedes order a c))).
Proof. exact order_edges_full. Qed.
Print Assumptions C16_order_edges.

Theorem C16_order_edges_cyclic : forall (h : hord) p G, square p G -> nonneg G -> ~ acyclic G ->
  order_edges h G = Err ValueError.
Proof. exact order_edges_err. Qed.
Print Assumptions C16_order_edges_cyclic.

(** C31 *)
Theorem C31_is_supergraph : forall p sup A, square p sup -> square p A -> binary A ->
  (is_supergraph sup A = true <-> forall i j, edge A i j -> edge sup i j).
Proof. exact is_supergraph_spec. Qed.
Print Assumptions C31_is_supergraph.

Theorem C31_partial_order : forall p A B C, square p A -> square p B -> square p C ->
  binary A -> binary B -> binary C ->
  is_supergraph A A = true /\
  (is_supergraph A B = true -> is_supergraph B A = true -> A = B) /\
  (is_supergraph A B = true -> is_supergraph B C = true -> is_supergraph A C = true).
Proof. exact supergraph_order. Qed.
Print Assumptions C31_partial_order.

Theorem C31_has_sub_super : forall p L1 L2,
  (forall A, In A (L1 ++ L2) -> square p A /\ binary A) ->
  (has_subgraph L1 L2 = true <-> forall A, In A L1 -> exists B, In B L2 /\ subgraph B A) /\
  (has_supergraph L1 L2 = true <-> forall A, In A L1 -> exists B, In B L2 /\ subgraph A B).
Proof. exact has_sub_super. Qed.
Print Assumptions C31_has_sub_super.

(** C39 *)
Theorem C39_to_factorization : forall (h : hord) p G, square p G -> nonneg G ->
  (~ acyclic G /\ to_factorization h G = Err ValueError) \/
  (acyclic G /\ exists f, to_factorization h G = Ok f /\ length f = p /\
     forall j, j < p -> NoDup (nth j f []) /\
       StronglySorted lt (nth j f []) /\ forall i, In i (nth j f []) <-> edge G i j).
Proof. exact to_factorization_spec. Qed.
Print Assumptions C39_to_factorization.

Theorem C39_to_factorization_injective : forall (h : hord) p G G', dag01 p G -> dag01 p G' ->
  to_factorization h G = to_factorization h G' -> G = G'.
Proof. exact to_factorization_inj. Qed.
Print Assumptions C39_to_factorization_injective.
