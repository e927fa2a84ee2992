(** Instances of C103. *)
From Coq Require Import ZArith.
From mathcomp Require Import all_ssreflect all_algebra.
From Verif Require Import Base UtilNumModel UtilNumSpec UtilNumProofs PropUtilNum.
Set Implicit Arguments.
Unset Strict Implicit.
Unset Printing Implicit Defensive.
Import Order.Theory GRing.Theory Num.Theory.
Local Open Scope ring_scope.

(** Constant, centred, neither, and zero data *)
Notation nvarQ x := (@nvar [realFieldType of rat] x).
Example C103_ex : [/\ nvarQ [:: 2%:R; 2%:R] = Some 0, nvarQ [:: 1; -1] = Some 1, nvarQ [:: 0; 1] = Some (2%:R^-1) & nvarQ [:: 0; 0] = None].
Proof. by split; apply/eqP; rewrite /nvar /np_var /np_mean /= !big_cons !big_nil. Qed.
Example C103_normalised_ex : @normalised [realFieldType of rat] [:: 0; 1] (Some (2%:R^-1)).
Proof. case: C103_ex => _ _ <- _; exact: nvar_normalised. Qed.
Example C103_scale_ex : @normalized_var [realFieldType of rat] 2 2 (3%:R *: 1%:M) (Some Z0) = @normalized_var [realFieldType of rat] 2 2 1%:M (Some Z0).
Proof. exact: C103_scale. Qed.
