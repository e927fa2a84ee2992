(** The scree plot and the units of measurement (C136, C137). *)
From mathcomp Require Import all_ssreflect all_algebra.
From Verif Require Import MainModel.
Set Implicit Arguments.
Unset Strict Implicit.
Unset Printing Implicit Defensive.
Import Order.Theory GRing.Theory Num.Theory.
Local Open Scope ring_scope.

Section ScreeUnit.
Variables (F : realFieldType) (p e : nat) (w : world F p e).
Definition singular_values (S : 'M[F]_p) : seq F := [seq (w_svd w S).2 0 j | j <- enum 'I_p].
(** Multiplying a matrix multiplies its singular values. *)
Definition svd_homogeneous : Prop := forall (t : F) S, 0 < t -> singular_values (t *: S) = [seq t * x | x <- singular_values S].
(** The singular values of a diagonal matrix are its entries, in decreasing order. *)
Definition svd_diagonal : Prop := forall d : 'rV[F]_p, (forall j, 0 <= d 0 j) ->
  sorted (fun x y => y <= x) (singular_values (diag_mx d)) /\ perm_eq (singular_values (diag_mx d)) [seq d 0 j | j <- enum 'I_p].
End ScreeUnit.
