(** Property C103: utils.normalized_var. *)
From Coq Require Import ZArith.
From mathcomp Require Import all_ssreflect all_algebra.
From Verif Require Import Base UtilNumModel UtilNumSpec UtilNumProofs.
Set Implicit Arguments.
Unset Strict Implicit.
Unset Printing Implicit Defensive.
Import Order.Theory GRing.Theory Num.Theory.
Local Open Scope ring_scope.

(** C103: over all entries, along the columns, along the rows. *)
Theorem C103_value : forall (F : realFieldType) (a b : nat) (X : 'M[F]_(a, b)),
  [/\ exists2 r, normalized_var X None = Ok [:: r] & normalised [seq X i j | i <- enum 'I_a, j <- enum 'I_b] r,
      forall k, k = Z0 \/ k = Zneg (xO xH) -> exists2 r, normalized_var X (Some k) = Ok [seq r j | j <- enum 'I_b] &
        forall j, normalised [seq X i j | i <- enum 'I_a] (r j) &
      forall k, k = Zpos xH \/ k = Zneg xH -> exists2 r, normalized_var X (Some k) = Ok [seq r i | i <- enum 'I_a] &
        forall i, normalised [seq X i j | j <- enum 'I_b] (r i)].
Proof. exact normalized_var_spec. Qed.
Print Assumptions C103_value.

Theorem C103_scale : forall (F : realFieldType) (a b : nat) (c : F) (X : 'M[F]_(a, b)) axis, c != 0 ->
  normalized_var (c *: X) axis = normalized_var X axis.
Proof. exact normalized_var_scale. Qed.
Print Assumptions C103_scale.
