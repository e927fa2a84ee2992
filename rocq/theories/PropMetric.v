(** Property C149: the deviation metrics and the units of the variables. *)
From Coq Require Import ZArith List.
From mathcomp Require Import all_ssreflect all_algebra.
From Verif Require Import Base GraphModel GraphSpec NumModel NumSpec GenModel GenSpec CovSpec IncoSpec MetricSpec MetricProofs.
Import GRing.Theory Num.Theory.
Local Open Scope nat_scope.
Local Open Scope ring_scope.

(** C149 is false for intervention_strength: any variable with interventions (that is, a strength above 0, see C68) is stronger
    than any other variable in some units. *)
Theorem C149_strength_refuted : forall (F : realFieldType) (p l e : nat) (m : model F p l e) (i j : 'I_p),
  i != j -> 0 < intervention_strength m i ->
  exists c : 'I_p -> F, (forall k, 0 < c k) /\
    forall m', in_units c m m' -> intervention_strength m' j < intervention_strength m' i.
Proof. exact strength_order. Qed.
Print Assumptions C149_strength_refuted.

(** The strength has the unit of a variance, as the variance of the variances is divided by a variance once. *)
Theorem C149_strength_partial : forall (F : realFieldType) (p l e : nat) (c : 'I_p -> F) (m m' : model F p l e) j,
  c j != 0 -> in_units c m m' -> intervention_strength m' j = c j ^+ 2 * intervention_strength m j.
Proof. exact strength_units. Qed.
Print Assumptions C149_strength_partial.

(** C149 is false for scaled_latent_incoherence. *)
Theorem C149_incoherence_refuted : forall h, exists (c : 'I_2 -> rat_realFieldType) (m m' : model rat_realFieldType 2 1 1) svd y y',
  [/\ forall j, 0 < c j, in_units c m m', square 2 (mA m) /\ nonneg (mA m),
    forall i, left_factor (effects m i) (svd (effects m i)) /\ left_factor (effects m' i) (svd (effects m' i)) &
    [/\ scaled_latent_incoherence h svd m = Ok y, scaled_latent_incoherence h svd m' = Ok y' & y <> y']].
Proof. exact incoherence_units. Qed.
Print Assumptions C149_incoherence_refuted.

(** The latent effects are divided by the units. *)
Theorem C149_effects_partial : forall (F : realFieldType) (p l e : nat) (c : 'I_p -> F) (m m' : model F p l e) i,
  (forall j, c j != 0) -> in_units c m m' -> effects m' i = \matrix_(j, k) (effects m i j k / c j).
Proof. exact effects_units. Qed.
Print Assumptions C149_effects_partial.
