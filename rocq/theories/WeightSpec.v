(** Adjacencies with weights. *)
From Coq Require Import ZArith List.
From Verif Require Import Base GraphSpec.

(** P and Q are arrays of non-negative weights, non-zero at the same entries. *)
Definition same_edges (p : nat) (P Q : mat) : Prop :=
  square p P /\ square p Q /\ nonneg P /\ nonneg Q /\ forall i j, edge P i j <-> edge Q i j.

(** The same error, or arrays with the same edges *)
Definition same_edges_res (p : nat) (r s : res mat) : Prop :=
  match r, s with
  | Ok P, Ok Q => same_edges p P Q
  | Err e, Err e' => e = e'
  | _, _ => False
  end.
