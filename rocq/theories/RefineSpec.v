(** Vocabulary for C117.  Independent of the model. *)
From Verif Require Import Base GraphSpec.

(** The edge x -> y is covered in G: the parents of y are x and the parents of x. *)
Definition covered_edge (G : mat) (x y : nat) : Prop := edge G x y /\ forall z, edge G z y <-> edge G z x \/ z = x.

(** N has the adjacencies of M, no edge that M does not have, and every orientation of M. *)
Definition refines (N M : mat) : Prop :=
  same_skeleton M N /\ (forall i j, edge N i j -> edge M i j) /\ (forall i j, dir M i j -> dir N i j).
