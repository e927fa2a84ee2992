(** Property C142: the members of the returned class explain the data equally well. *)
From Coq Require Import ZArith List.
From mathcomp Require Import all_ssreflect all_algebra.
From Verif Require Import Base GraphModel GraphSpec NumModel NumSpec ScoreModel ScoreSpec MainModel MainSpec NestSpec MemberSpec MemberProofs.
Import Order.Theory GRing.Theory Num.Theory.
Local Open Scope ring_scope.

(** C142.  Every DAG of the class that equivalence_class returns has parameters, within the constraints for the returned
    targets, with the covariances and the scores of the returned model. *)
Theorem C142_class : forall (F : realFieldType) (p e : nat) (w : world F p e) (a : args F) candidates data prune seed icpdag J am,
  Forall (graph p) candidates -> equivalence_class w a candidates data prune seed = Ok (icpdag, J, am) ->
  explained_alike (w_h w) (a_psi_max a) (a_psi_fixed a) icpdag J (projT2 am).
Proof. exact @class_members. Qed.
Print Assumptions C142_class.

(** C142, for equivalence_class_w_ges. *)
Theorem C142_ges : forall (F : realFieldType) (p e : nat) (w : world F p e) (a : args F) data seed icpdag J am,
  ges_pdag w -> equivalence_class_w_ges w a data seed = Ok (icpdag, J, am) ->
  explained_alike (w_h w) (a_psi_max a) (a_psi_fixed a) icpdag J (projT2 am).
Proof. exact @ges_members. Qed.
Print Assumptions C142_ges.

(** C142, for all models and the result of dag_to_icpdag. *)
Theorem C142_icpdag : forall (F : realFieldType) (h : hord) (p l e : nat) psi_max psi_fixed (h' : hord) P J (m : model F p l e),
  square p (mA m) -> nonneg (mA m) -> acyclic (mA m) -> supported (mA m) (mB m) ->
  in_range psi_max m -> invariant_outside psi_fixed J m -> dag_to_icpdag h' (mA m) J = Ok P ->
  explained_alike h psi_max psi_fixed P J m.
Proof. exact @members_icpdag. Qed.
Print Assumptions C142_icpdag.
