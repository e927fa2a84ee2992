(** Instances of the theorems of PropAgain.v. *)
From Coq Require Import ZArith QArith_base List.
From mathcomp Require Import all_ssreflect all_algebra.
From Verif Require Import Base GraphModel GraphSpec ListModel NumModel NumSpec ScoreModel ScoreSpec OptSpec MainModel MainSpec TermSpec CandSpec AgainSpec.
From Verif Require Import CandProofs SeedProofs Run2Proofs MainRunProofs ExMainDefs ExMain ExTerm PropCand PropAgain.
Import Order.Theory GRing.Theory Num.Theory.
Local Open Scope ring_scope.

Section Runs.
Variables (F : archiFieldType) (pi : F) (h : hord).
(** Runs with one and two latents, with or without pruning *)
Example C144_class_ex prune seed : exists k ic J am,
  equivalence_class (w_with_fuel (exw pi h) k) (exa F) [:: A2] (seed_data F) prune seed = Ok (ic, J, am) /\
  forall seed', equivalence_class (w_with_fuel (exw pi h) k) (only_number (exa F) (projT1 am)) [:: mA (projT2 am)] (seed_data F) false seed' = Ok (ic, J, am).
Proof.
have [[[ic J] am] [k H]] := C99_class_ex pi h prune seed; have E := H k (leqnn k); exists k, ic, J, am; split=> //.
apply: (C144_class F 2 1 (w_with_fuel (exw pi h) k) (exa F) [:: A2] (seed_data F) prune seed ic J am _ _ _ (exw_split pi h) _ _ E); first exact: C126_cvx.
by constructor; [exact: A2_graph | constructor].
Qed.
Example C144_ges_ex seed : exists k ic J am,
  equivalence_class_w_ges (w_with_fuel (exw pi h) k) (exa F) (seed_data F) seed = Ok (ic, J, am) /\
  forall seed', equivalence_class (w_with_fuel (exw pi h) k) (only_number (exa F) (projT1 am)) [:: mA (projT2 am)] (seed_data F) false seed' = Ok (ic, J, am).
Proof.
have [[[ic J] am] [k H]] := C99_ges_ex pi h seed; have E := H k (leqnn k); exists k, ic, J, am; split=> //.
apply: (C144_ges F 2 1 (w_with_fuel (exw pi h) k) (exa F) (seed_data F) seed ic J am _ _ _ (exw_split pi h) _ _ E); first exact: C126_cvx.
exact: ex_ges.
Qed.
End Runs.
