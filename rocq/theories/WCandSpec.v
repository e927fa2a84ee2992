(** Candidates with weights (C133-C135). *)
From Coq Require Import ZArith.
From mathcomp Require Import all_ssreflect all_algebra.
From Verif Require Import Base GraphSpec NumModel MainModel.
Set Implicit Arguments.
Unset Strict Implicit.
Unset Printing Implicit Defensive.

(** The p x p array A with its edges weighted by v *)
Definition weigh (p : nat) (v : nat -> nat -> Z) (A : mat) : mat := mk p (fun i j => Z.mul (v i j) (get A i j)).
(** A and A' are non-zero at the same entries. *)
Definition same_mask (p : nat) (A A' : mat) : Prop := square p A /\ square p A' /\ forall i j, edge A i j <-> edge A' i j.
Definition positive_weights (v : nat -> nat -> Z) : Prop := forall i j, Z.lt Z0 (v i j).
Definition negative_weights (v : nat -> nat -> Z) : Prop := forall i j, Z.lt (v i j) Z0.

Section WCand.
Variables (F : realFieldType) (p e : nat).
(** m with its adjacency weighted *)
Definition weigh_model l (v : nat -> nat -> Z) (m : model F p l e) : model F p l e :=
  MkModel (weigh p v (mA m)) (mB m) (mgamma m) (momegas m) (mpsis m) (mI_B m).
(** The convex solver is given the mask of the edges, not the adjacency. *)
Definition solver_sees_edges (w : world F p e) : Prop := forall l (m m' : model F p l e),
  same_mask p (mA m) (mA m') -> mB m = mB m' -> mgamma m = mgamma m' -> momegas m = momegas m' -> mpsis m = mpsis m' ->
  mI_B m = mI_B m' -> w_cvx w m = w_cvx w m'.
(** The outcome of a call for weighted candidates *)
Definition weigh_class (v : nat -> nat -> Z) (r : res (mat * seq nat * any_model F p e)) : res (mat * seq nat * any_model F p e) :=
  match r with
  | Ok (icpdag, J, m) => Ok (icpdag, J, existT (fun l => model F p l e) (projT1 m) (weigh_model v (projT2 m)))
  | Err x => Err x
  end.
End WCand.
