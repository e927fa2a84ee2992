(** Notions the properties of the numerical part are stated in, independent of the model of the code. *)
From Coq Require Import ZArith.
From mathcomp Require Import all_ssreflect all_algebra.
From Verif Require Import Base GraphSpec.
Set Implicit Arguments.
Unset Strict Implicit.
Unset Printing Implicit Defensive.
Import Order.Theory GRing.Theory Num.Theory.
Local Open Scope ring_scope.

Section NumSpec.
Variable F : realFieldType.

(** Symmetric and positive definite. *)
Definition posdef n (M : 'M[F]_n) : Prop :=
  M^T = M /\ forall x : 'cV[F]_n, x != 0 -> 0 < (x^T *m M *m x) 0 0.

(** The non-zero entries of B are on the edges of the graph A. *)
Definition supported p (A : mat) (B : 'M[F]_p) : Prop := forall i j : 'I_p, B i j != 0 -> edge A i j.

(** All entries of column j are equal. *)
Definition const_col a b (X : 'M[F]_(a, b)) (j : 'I_b) : Prop := forall i i', X i j = X i' j.

Definition positive a b (X : 'M[F]_(a, b)) : Prop := forall i j, 0 < X i j.
End NumSpec.

(** M has r rows of length c. *)
Definition rows V (r c : nat) (M : list (list V)) : Prop := length M = r /\ forall x, List.In x M -> length x = c.
(** Entry (i, j) of a table stored row after row with c columns. *)
Definition entry V (d : V) (vals : list V) (c i j : nat) : V := List.nth (i * c + j)%N vals d.
(** All elements are equal. *)
Definition all_equal V (xs : list V) : Prop := forall x y, List.In x xs -> List.In y xs -> x = y.
