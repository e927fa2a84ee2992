(** Graph notions the properties are stated in.  Nothing here refers to the model of the code: a graph is
    read off an adjacency matrix by "there is an edge i -> j iff A[i,j] != 0". *)
From Coq Require Import List Arith ZArith Relations.
Import ListNotations.
From Verif Require Import Base.

Definition edge (A : mat) (i j : nat) : Prop := get A i j <> 0%Z.
(** i -> j *)
Definition dir (A : mat) (i j : nat) : Prop := edge A i j /\ ~ edge A j i.
(** i - j *)
Definition und (A : mat) (i j : nat) : Prop := edge A i j /\ edge A j i.
Definition adjacent (A : mat) (i j : nat) : Prop := edge A i j \/ edge A j i.

Definition loopless (A : mat) : Prop := forall i, ~ edge A i i.

(** No directed cycle.  Self-loops and undirected edges are cycles. *)
Definition acyclic (A : mat) : Prop := forall i, ~ clos_trans nat (edge A) i i.

(** l is an ordering of the nodes 0..p-1, and edges go forward in it. *)
Definition precedes (l : list nat) (i j : nat) : Prop :=
  exists a b c, l = a ++ i :: b ++ j :: c.
Definition topo_order (p : nat) (A : mat) (l : list nat) : Prop :=
  Permutation.Permutation l (seq 0 p) /\ forall i j, edge A i j -> precedes l i j.

(** v-structure i -> c <- j *)
Definition vstruct (A : mat) (i c j : nat) : Prop :=
  dir A i c /\ dir A j c /\ i <> j /\ ~ adjacent A i j.

Definition same_skeleton (A B : mat) : Prop := forall i j, adjacent A i j <-> adjacent B i j.
Definition same_vstructs (A B : mat) : Prop := forall i c j, vstruct A i c j <-> vstruct B i c j.

(** Markov equivalence of DAGs (Verma & Pearl). *)
Definition markov_equiv (A B : mat) : Prop := same_skeleton A B /\ same_vstructs A B.

(** G is a DAG with the skeleton and v-structures of the PDAG P and every directed edge of P. *)
Definition consistent_ext (G P : mat) : Prop :=
  acyclic G /\ same_skeleton P G /\ same_vstructs P G /\ (forall i j, dir P i j -> edge G i j).

(** Node v has the same parents. *)
Definition same_parents (A B : mat) (v : nat) : Prop := forall i, edge A i v <-> edge B i v.

(** A and B are I-Markov equivalent: Markov equivalent, same parents for each target. *)
Definition imarkov_equiv (I : list nat) (A B : mat) : Prop :=
  markov_equiv A B /\ forall v, In v I -> same_parents A B v.

(** l is a path: non-repeating, consecutive nodes joined by -> or -. *)
Fixpoint chain_of (R : nat -> nat -> Prop) (l : list nat) : Prop :=
  match l with
  | [] => True
  | x :: l' => match l' with [] => True | y :: _ => R x y /\ chain_of R l' end
  end.
Definition semi_path (A : mat) (fro to : nat) (l : list nat) : Prop :=
  NoDup l /\ chain_of (edge A) l /\ hd_error l = Some fro /\ hd_error (rev l) = Some to.

(** p x p adjacency of a DAG with 0/1 entries. *)
Definition dag01 (p : nat) (A : mat) : Prop := square p A /\ binary A /\ acyclic A.

(** Meek's orientation rules for an edge i - j: each is a reason to orient it i -> j. *)
Definition meek1 (P : mat) (i j : nat) : Prop := exists k, dir P k i /\ ~ adjacent P k j.
Definition meek2 (P : mat) (i j : nat) : Prop := exists k, dir P i k /\ dir P k j.
Definition meek3 (P : mat) (i j : nat) : Prop :=
  exists k l, k <> l /\ und P i k /\ und P i l /\ dir P k j /\ dir P l j /\ ~ adjacent P k l.
Definition meek4 (P : mat) (i j : nat) : Prop :=
  exists k h, und P i k /\ und P i h /\ dir P k j /\ dir P h k /\ ~ adjacent P h j.
Definition meek (P : mat) (i j : nat) : Prop :=
  meek1 P i j \/ meek2 P i j \/ meek3 P i j \/ meek4 P i j.

(** Number of (directed) edges. *)
Definition edge_count (A : mat) (n : nat) : Prop :=
  exists l, NoDup l /\ (forall i j, In (i, j) l <-> edge A i j) /\ length l = n.
Definition dir_count (A : mat) (n : nat) : Prop :=
  exists l, NoDup l /\ (forall i j, In (i, j) l <-> dir A i j) /\ length l = n.
