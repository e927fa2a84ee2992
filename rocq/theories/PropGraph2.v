(** Properties C17-C26 and C28-C30 (C27 is in PropMax.v). *)
From Coq Require Import List Arith ZArith Permutation.
Import ListNotations.
From Verif Require Import Base GraphModel GraphSpec CompelledProofs CpdagProofs EnumProofs MeekProofs.

(** C17 *)
Theorem C17_label_edges_compelled : forall (h : hord) p G, square p G -> nonneg G -> acyclic G ->
  exists O L, order_edges h G = Ok O /\ label_edges h O = Ok L /\ square p L /\
    forall a b,
      (get L a b = 1%Z <->
         edge G a b /\ forall D, acyclic D -> markov_equiv G D -> edge D a b) /\
      (get L a b = (-1)%Z <->
         edge G a b /\ exists D, dag01 p D /\ markov_equiv G D /\ edge D b a) /\
      (get L a b = 0%Z <-> ~ edge G a b).
Proof. exact label_edges_compelled. Qed.
Print Assumptions C17_label_edges_compelled.

(** C18 *)
Theorem C18_dag_to_cpdag : forall (h : hord) p G, square p G -> nonneg G -> acyclic G ->
  exists C, dag_to_cpdag h G = Ok C /\ square p C /\ binary C /\
    forall i j, edge C i j <-> exists D, dag01 p D /\ markov_equiv G D /\ edge D i j.
Proof. exact dag_to_cpdag_spec. Qed.
Print Assumptions C18_dag_to_cpdag.

Theorem C18_dag_to_cpdag_cyclic : forall (h : hord) p G, square p G -> nonneg G -> ~ acyclic G ->
  dag_to_cpdag h G = Err ValueError.
Proof. exact dag_to_cpdag_err. Qed.
Print Assumptions C18_dag_to_cpdag_cyclic.

(** C19 *)
Theorem C19_cpdag_canonical : forall (h h' : hord) p G G',
  square p G -> nonneg G -> acyclic G -> square p G' -> nonneg G' -> acyclic G' ->
  (dag_to_cpdag h G = dag_to_cpdag h' G' <-> markov_equiv G G').
Proof. exact dag_to_cpdag_canonical. Qed.
Print Assumptions C19_cpdag_canonical.

(** C20 *)
Theorem C20_pdag_to_cpdag : forall (h : hord) p P, square p P -> binary P -> loopless P ->
  (pdag_to_cpdag h P = Err ValueError /\ forall D, square p D -> ~ consistent_ext D P) \/
  (exists C, pdag_to_cpdag h P = Ok C /\ square p C /\ binary C /\
     (exists D, dag01 p D /\ consistent_ext D P) /\
     forall G, square p G -> consistent_ext G P ->
       forall i j, edge C i j <-> exists D, dag01 p D /\ markov_equiv G D /\ edge D i j).
Proof. exact pdag_to_cpdag_spec. Qed.
Print Assumptions C20_pdag_to_cpdag.

(** C21 *)
Theorem C21_all_dags_exact : forall p P, square p P -> binary P -> loopless P -> forall h : hord,
  (exists i j, und P i j) \/ acyclic P ->
  exists l, all_dags h P = Ok l /\ NoDup l /\ forall D, In D l <-> dag01 p D /\ consistent_ext D P.
Proof. exact all_dags_exact. Qed.
Print Assumptions C21_all_dags_exact.

(** C22: false of the code (a directed cycle without undirected edges is returned as it is).  The restricted
    claim is C21. *)
Theorem C22_all_dags_refuted : exists p P, square p P /\ binary P /\ loopless P /\
  exists D, (forall h : hord, all_dags h P = Ok [D]) /\ ~ acyclic D.
Proof. exact all_dags_cycle_refuted. Qed.
Print Assumptions C22_all_dags_refuted.

(** C23 *)
Theorem C23_mec : forall (h : hord) p A check, square p A -> nonneg A -> 0 < p ->
  (~ acyclic A /\ mec h A check = Err ValueError) \/
  (acyclic A /\ exists l, mec h A check = Ok l /\ NoDup l /\
     forall D, In D l <-> dag01 p D /\ markov_equiv A D).
Proof. exact mec_spec. Qed.
Print Assumptions C23_mec.

(** With no variables the shortcut and the generic path disagree. *)
Theorem C23_mec_empty_refuted : exists p A, dag01 p A /\
  forall h : hord, mec h A true = Ok [] /\ mec h A false = Ok [A].
Proof. exact mec_empty_refuted. Qed.
Print Assumptions C23_mec_empty_refuted.

(** C24 *)
Theorem C24_chain_graph_MEC : forall p, 0 < p ->
  length (chain_graph_MEC p) = p /\ NoDup (chain_graph_MEC p) /\
  forall D, In D (chain_graph_MEC p) <-> dag01 p D /\ markov_equiv (chain_graph p) D.
Proof. exact chain_graph_MEC_spec. Qed.
Print Assumptions C24_chain_graph_MEC.

Theorem C24_chain_graph : forall p i j, edge (chain_graph p) i j <-> j = S i /\ j < p.
Proof. exact chain_graph_edge. Qed.
Print Assumptions C24_chain_graph.

Theorem C24_is_chain_graph : forall p A, square p A -> (is_chain_graph A = true <-> A = chain_graph p).
Proof. exact is_chain_graph_spec. Qed.
Print Assumptions C24_is_chain_graph.

(** C25 *)
Theorem C25_meek_rules_sound : forall p P D i j, square p P -> und P i j -> consistent_ext D P ->
  rule_1 i j P = true \/ rule_2 i j P = true \/ rule_3 i j P = true \/ rule_4 i j P = true ->
  edge D i j.
Proof. exact rules_sound. Qed.
Print Assumptions C25_meek_rules_sound.

(** Each rule function decides the graphical pattern of that rule. *)
Theorem C25_meek_rules_patterns : forall p P i j, square p P ->
  (rule_1 i j P = true <-> meek1 P i j) /\ (rule_2 i j P = true <-> meek2 P i j) /\
  (rule_3 i j P = true <-> meek3 P i j) /\ (rule_4 i j P = true <-> meek4 P i j).
Proof. exact rules_patterns. Qed.
Print Assumptions C25_meek_rules_patterns.

(** C26 *)
Theorem C26_maximally_orient : forall (h : hord) p P, square p P -> binary P -> loopless P ->
  (maximally_orient h P = Err ValueError /\ forall D, square p D -> ~ consistent_ext D P) \/
  (exists M, maximally_orient h P = Ok M /\ (exists D, square p D /\ consistent_ext D P) /\
     square p M /\ binary M /\ same_skeleton P M /\ same_vstructs P M /\
     (forall a b, edge M a b -> edge P a b) /\ (forall a b, dir P a b -> dir M a b) /\
     (forall D, consistent_ext D M <-> consistent_ext D P) /\
     (forall i j, und M i j -> ~ meek M i j)).
Proof. exact maximally_orient_full. Qed.
Print Assumptions C26_maximally_orient.

(** C28 *)
Theorem C28_dag_to_icpdag : forall (h : hord) p G I, square p G -> nonneg G -> acyclic G ->
  exists M, dag_to_icpdag h G I = Ok M /\ square p M /\ binary M /\ loopless M /\ consistent_ext G M /\
    forall D, square p D -> (consistent_ext D M <-> acyclic D /\ imarkov_equiv I G D).
Proof. exact dag_to_icpdag_spec. Qed.
Print Assumptions C28_dag_to_icpdag.

Theorem C28_dag_to_icpdag_cyclic : forall (h : hord) p G I, square p G -> nonneg G -> ~ acyclic G ->
  dag_to_icpdag h G I = Err ValueError.
Proof. exact dag_to_icpdag_err. Qed.
Print Assumptions C28_dag_to_icpdag_cyclic.

(** C29 *)
Theorem C29_imec : forall (h : hord) p A I check, square p A -> nonneg A -> 0 < p ->
  ((~ acyclic A \/ ~ incl I (seq 0 p)) /\ imec h A I check = Err ValueError) \/
  (acyclic A /\ incl I (seq 0 p) /\ exists l, imec h A I check = Ok l /\ NoDup l /\
     forall D, In D l <-> dag01 p D /\ imarkov_equiv I A D).
Proof. exact imec_spec. Qed.
Print Assumptions C29_imec.

Theorem C29_imec_no_targets : forall (h : hord) p A check, square p A -> nonneg A ->
  imec h A [] check = mec h A check.
Proof. exact imec_no_targets. Qed.
Print Assumptions C29_imec_no_targets.

Theorem C29_imec_all_targets : forall (h : hord) p A check, dag01 p A -> 0 < p ->
  imec h A (seq 0 p) check = Ok [A].
Proof. exact imec_all_targets. Qed.
Print Assumptions C29_imec_all_targets.

(** C30 *)
Theorem C30_pdag_to_icpdag : forall (h : hord) p P I, square p P -> binary P -> loopless P ->
  (((exists v j, In v I /\ und P v j) \/ (forall D, square p D -> ~ consistent_ext D P)) /\
   pdag_to_icpdag h P I = Err ValueError) \/
  ((forall v j, In v I -> ~ und P v j) /\
   exists G M, dag01 p G /\ consistent_ext G P /\ pdag_to_icpdag h P I = Ok M /\
     square p M /\ binary M /\ loopless M /\
     (forall D, square p D -> (consistent_ext D M <-> acyclic D /\ imarkov_equiv I G D)) /\
     (forall D, square p D -> consistent_ext D P -> consistent_ext D M)).
Proof. exact pdag_to_icpdag_spec. Qed.
Print Assumptions C30_pdag_to_icpdag.
