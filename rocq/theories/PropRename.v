(** Property C101: the graph functions do not depend on the names of the variables. *)
From Coq Require Import List Arith ZArith Permutation.
Import ListNotations.
From Verif Require Import Base GraphModel GraphSpec RenameSpec RenameProofs.

(** C101: the orders h, h' in which sets are iterated may differ too. *)
Theorem C101_is_dag : forall p f g, renaming p f g -> forall (h h' : hord) A, square p A -> nonneg A ->
  is_dag h' (rename p g A) = is_dag h A.
Proof. exact is_dag_rename. Qed.
Print Assumptions C101_is_dag.

Theorem C101_dag_to_cpdag : forall p f g, renaming p f g -> forall (h h' : hord) A, square p A -> nonneg A ->
  renamed p g (dag_to_cpdag h A) (dag_to_cpdag h' (rename p g A)).
Proof. exact cpdag_rename. Qed.
Print Assumptions C101_dag_to_cpdag.

Theorem C101_dag_to_icpdag : forall p f g, renaming p f g -> forall (h h' : hord) A I, square p A -> nonneg A ->
  renamed p g (dag_to_icpdag h A I) (dag_to_icpdag h' (rename p g A) (map f I)).
Proof. exact icpdag_rename. Qed.
Print Assumptions C101_dag_to_icpdag.

Theorem C101_maximally_orient : forall p f g, renaming p f g -> forall (h h' : hord) P, square p P -> binary P -> loopless P ->
  renamed p g (maximally_orient h P) (maximally_orient h' (rename p g P)).
Proof. exact orient_rename. Qed.
Print Assumptions C101_maximally_orient.

Theorem C101_pdag_to_cpdag : forall p f g, renaming p f g -> forall (h h' : hord) P, square p P -> binary P -> loopless P ->
  renamed p g (pdag_to_cpdag h P) (pdag_to_cpdag h' (rename p g P)).
Proof. exact pdag_cpdag_rename. Qed.
Print Assumptions C101_pdag_to_cpdag.

Theorem C101_all_dags : forall p f g, renaming p f g -> forall (h h' : hord) P, square p P -> binary P -> loopless P ->
  (exists i j, und P i j) \/ acyclic P -> renamed_all p g (all_dags h P) (all_dags h' (rename p g P)).
Proof. exact all_dags_rename. Qed.
Print Assumptions C101_all_dags.

(** Also if the shortcut for chain graphs is taken for one of the two only. *)
Theorem C101_mec : forall p f g, renaming p f g -> forall (h h' : hord) A check check', square p A -> nonneg A -> 0 < p ->
  renamed_all p g (mec h A check) (mec h' (rename p g A) check').
Proof. exact mec_rename. Qed.
Print Assumptions C101_mec.

Theorem C101_imec : forall p f g, renaming p f g -> forall (h h' : hord) A I check check', square p A -> nonneg A -> 0 < p ->
  renamed_all p g (imec h A I check) (imec h' (rename p g A) (map f I) check').
Proof. exact imec_rename. Qed.
Print Assumptions C101_imec.
