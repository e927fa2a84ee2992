(** C14, C20, C26, C27, C30, C88 and C101 for arrays of weights, and C101 for pdag_to_icpdag. *)
From Coq Require Import List Arith ZArith.
Import ListNotations.
From Verif Require Import Base GraphModel GraphSpec WeightSpec RenameSpec Weight2Proofs.

(** C14 for arrays of arbitrary weights: pdag_to_dag keeps the weights of the directed edges of P, and the edges that it
    orients have weight 1. *)
Theorem C14_weights : forall (h : hord) p P G, square p P -> loopless P -> pdag_to_dag h P = Ok G ->
  square p G /\ consistent_ext G P /\ (forall i j, dir P i j -> get G i j = get P i j) /\
  (forall i j, und P i j -> edge G i j -> get G i j = 1%Z).
Proof. exact pdag_to_dag_weights. Qed.
Print Assumptions C14_weights.

(** C20 for non-negative weights *)
Theorem C20_weights : forall (h : hord) p P, square p P -> nonneg P -> loopless P ->
  (pdag_to_cpdag h P = Err ValueError /\ forall D, square p D -> ~ consistent_ext D P) \/
  (exists C, pdag_to_cpdag h P = Ok C /\ square p C /\ binary C /\
     (exists D, dag01 p D /\ consistent_ext D P) /\
     forall G, square p G -> consistent_ext G P ->
       forall i j, edge C i j <-> exists D, dag01 p D /\ markov_equiv G D /\ edge D i j).
Proof. exact pdag_to_cpdag_weights. Qed.
Print Assumptions C20_weights.

(** C26 for arbitrary weights: the edges that remain keep their weights. *)
Theorem C26_weights : forall (h : hord) p P, square p P -> loopless P ->
  (maximally_orient h P = Err ValueError /\ forall D, square p D -> ~ consistent_ext D P) \/
  (exists M, maximally_orient h P = Ok M /\ (exists D, square p D /\ consistent_ext D P) /\
     square p M /\ (forall i j, edge M i j -> get M i j = get P i j) /\ same_skeleton P M /\ same_vstructs P M /\
     (forall a b, edge M a b -> edge P a b) /\ (forall a b, dir P a b -> dir M a b) /\
     (forall D, consistent_ext D M <-> consistent_ext D P) /\
     (forall i j, und M i j -> ~ meek M i j)).
Proof. exact maximally_orient_weights. Qed.
Print Assumptions C26_weights.

(** C27 for arbitrary weights *)
Theorem C27_weights : forall (h : hord) p P M i j, square p P -> loopless P -> maximally_orient h P = Ok M ->
  (und M i j <-> (exists D, dag01 p D /\ consistent_ext D P /\ edge D i j) /\
                 (exists D, dag01 p D /\ consistent_ext D P /\ edge D j i)) /\
  (dir M i j <-> (exists D, dag01 p D /\ consistent_ext D P) /\
                 forall D, dag01 p D -> consistent_ext D P -> edge D i j).
Proof. exact maximally_orient_maximal_weights. Qed.
Print Assumptions C27_weights.

(** C30 for non-negative weights *)
Theorem C30_weights : forall (h : hord) p P I, square p P -> nonneg P -> loopless P ->
  (((exists v j, In v I /\ und P v j) \/ (forall D, square p D -> ~ consistent_ext D P)) /\
   pdag_to_icpdag h P I = Err ValueError) \/
  ((forall v j, In v I -> ~ und P v j) /\
   exists G M, dag01 p G /\ consistent_ext G P /\ pdag_to_icpdag h P I = Ok M /\
     square p M /\ binary M /\ loopless M /\
     (forall D, square p D -> (consistent_ext D M <-> acyclic D /\ imarkov_equiv I G D)) /\
     (forall D, square p D -> consistent_ext D P -> consistent_ext D M)).
Proof. exact pdag_to_icpdag_weights. Qed.
Print Assumptions C30_weights.

(** C88 for arbitrary weights *)
Theorem C88_weights_canonical : forall (h h' : hord) p P P', square p P -> loopless P -> square p P' -> loopless P' ->
  (forall D, dag01 p D -> (consistent_ext D P <-> consistent_ext D P')) ->
  match maximally_orient h P, maximally_orient h' P' with
  | Ok M, Ok M' => forall i j, edge M i j <-> edge M' i j
  | Err e, Err e' => e = ValueError /\ e' = ValueError
  | _, _ => False
  end.
Proof. exact maximally_orient_canonical_weights. Qed.
Print Assumptions C88_weights_canonical.

Theorem C88_weights_idempotent : forall (h h' : hord) p P M, square p P -> loopless P ->
  maximally_orient h P = Ok M -> maximally_orient h' M = Ok M.
Proof. exact maximally_orient_idempotent_weights. Qed.
Print Assumptions C88_weights_idempotent.

(** C101 for weights *)
Theorem C101_weights_maximally_orient : forall p f g, renaming p f g -> forall (h h' : hord) P, square p P -> loopless P ->
  renamed p g (maximally_orient h P) (maximally_orient h' (rename p g P)).
Proof. exact orient_rename_weights. Qed.
Print Assumptions C101_weights_maximally_orient.

Theorem C101_weights_pdag_to_cpdag : forall p f g, renaming p f g -> forall (h h' : hord) P, square p P -> nonneg P -> loopless P ->
  renamed p g (pdag_to_cpdag h P) (pdag_to_cpdag h' (rename p g P)).
Proof. exact pdag_cpdag_rename_weights. Qed.
Print Assumptions C101_weights_pdag_to_cpdag.

(** C101 for pdag_to_icpdag: the extension that it computes depends on the names, but its I-Markov equivalence class does not. *)
Theorem C101_pdag_to_icpdag : forall p f g, renaming p f g -> forall (h h' : hord) P I, square p P -> nonneg P -> loopless P ->
  renamed p g (pdag_to_icpdag h P I) (pdag_to_icpdag h' (rename p g P) (map f I)).
Proof. exact pdag_icpdag_rename. Qed.
Print Assumptions C101_pdag_to_icpdag.
