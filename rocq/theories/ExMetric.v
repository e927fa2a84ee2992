(** Examples for C149, with the models of ExNum.v and Inco2Proofs.v. *)
From Coq Require Import ZArith List.
From mathcomp Require Import all_ssreflect all_algebra.
From Verif Require Import Base GraphModel GraphSpec NumModel NumSpec GenModel CovSpec IncoSpec Inco2Proofs MetricSpec MetricProofs ExNum PropMetric.
Import GRing.Theory Num.Theory.
Local Open Scope nat_scope.
Local Open Scope ring_scope.

(** Every model can be written in every unit *)
Example C149_units_ex : forall (F : realFieldType) p l e (c : 'I_p -> F) (m : model F p l e), exists m', in_units c m m'.
Proof.
move=> F p l e c m.
by exists (MkModel (mA m) (weights_in c (mB m)) (loadings_in c (mgamma m)) (variances_in c (momegas m)) (mpsis m) (mI_B m)).
Qed.

(** Both variables have strength 1/8; either is the stronger one in some units *)
Example C149_strength_ex : exists c : 'I_2 -> [realFieldType of rat], (forall k, 0 < c k) /\
  forall m', in_units c m2 m' -> intervention_strength m' 1 < intervention_strength m' 0.
Proof.
apply: C149_strength_refuted => //; have [-> _] := C68_ex.
by apply: divr_gt0; rewrite ?invr_gt0 ltr0n.
Qed.

(** With all variables multiplied by 3 the strength is 9/8 *)
Example C149_strength_value : forall m', in_units (fun=> 3%:R) m2 m' -> intervention_strength m' 0 = 9%:R / 8%:R.
Proof.
move=> m' H; rewrite (C149_strength_partial _ _ _ _ _ _ _ 0 (isT : (3%:R : [realFieldType of rat]) != 0) H).
have [-> _] := C68_ex; apply/eqP; vm_compute; reflexivity.
Qed.

Example C149_effects_ex : forall j, effects unit_model 0 j 0 = root_v j / ex_units j.
Proof.
move=> j; rewrite (C149_effects_partial _ _ _ _ ex_units root_model unit_model 0 (fun j => lt0r_neq0 (ex_units_gt0 j)) unit_in).
by rewrite mxE root_effects.
Qed.
