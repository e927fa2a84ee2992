(** Properties C27 and C86-C88: Meek's rules are complete. *)
From Coq Require Import List Arith ZArith.
Import ListNotations.
From Verif Require Import Base GraphModel GraphSpec Max3Proofs.

(** C27: an edge is left undirected iff both its directions occur among the extensions of P, and is directed iff all
    extensions agree on it. *)
Theorem C27_maximally_orient_maximal : forall (h : hord) p P M i j, square p P -> binary P -> loopless P ->
  maximally_orient h P = Ok M ->
  (und M i j <-> (exists D, dag01 p D /\ consistent_ext D P /\ edge D i j) /\
                 (exists D, dag01 p D /\ consistent_ext D P /\ edge D j i)) /\
  (dir M i j <-> (exists D, dag01 p D /\ consistent_ext D P) /\
                 forall D, dag01 p D -> consistent_ext D P -> edge D i j).
Proof. exact maximally_orient_maximal. Qed.
Print Assumptions C27_maximally_orient_maximal.

(** The result is the union of the extensions. *)
Theorem C27_maximally_orient_union : forall (h : hord) p P M, square p P -> binary P -> loopless P ->
  maximally_orient h P = Ok M ->
  square p M /\ binary M /\ forall i j, edge M i j <-> exists D, dag01 p D /\ consistent_ext D P /\ edge D i j.
Proof. exact maximally_orient_union. Qed.
Print Assumptions C27_maximally_orient_union.

(** C86 *)
Theorem C86_dag_to_icpdag_union : forall (h : hord) p G I, square p G -> nonneg G -> acyclic G ->
  exists M, dag_to_icpdag h G I = Ok M /\ square p M /\ binary M /\
    forall i j, edge M i j <-> exists D, dag01 p D /\ imarkov_equiv I G D /\ edge D i j.
Proof. exact dag_to_icpdag_union. Qed.
Print Assumptions C86_dag_to_icpdag_union.

(** C87 *)
Theorem C87_icpdag_canonical : forall (h h' : hord) p G G' I I', square p G -> nonneg G -> acyclic G ->
  square p G' -> nonneg G' -> acyclic G' -> (forall v, In v I <-> In v I') ->
  (dag_to_icpdag h G I = dag_to_icpdag h' G' I' <-> imarkov_equiv I G G').
Proof. exact dag_to_icpdag_canonical. Qed.
Print Assumptions C87_icpdag_canonical.

(** C88 *)
Theorem C88_maximally_orient_canonical : forall (h h' : hord) p P P', square p P -> binary P -> loopless P ->
  square p P' -> binary P' -> loopless P' ->
  (forall D, dag01 p D -> (consistent_ext D P <-> consistent_ext D P')) ->
  maximally_orient h P = maximally_orient h' P'.
Proof. exact maximally_orient_canonical. Qed.
Print Assumptions C88_maximally_orient_canonical.

Theorem C88_maximally_orient_idempotent : forall (h h' : hord) p P M, square p P -> binary P -> loopless P ->
  maximally_orient h P = Ok M -> maximally_orient h' M = Ok M.
Proof. exact maximally_orient_idempotent. Qed.
Print Assumptions C88_maximally_orient_idempotent.

Theorem C88_icpdag_fixpoint : forall (h h' : hord) p G I, square p G -> nonneg G -> acyclic G ->
  exists M, dag_to_icpdag h G I = Ok M /\ maximally_orient h' M = Ok M.
Proof. exact dag_to_icpdag_fixpoint. Qed.
Print Assumptions C88_icpdag_fixpoint.
