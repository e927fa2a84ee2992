(** Property C148: the value of scaled_latent_incoherence. *)
From Coq Require Import ZArith List.
From mathcomp Require Import all_ssreflect all_algebra.
From Verif Require Import Base GraphModel GraphSpec NumModel NumSpec GenModel GenSpec IncoSpec Inco2Proofs.
Import GRing.Theory Num.Theory.
Local Open Scope nat_scope.
Local Open Scope ring_scope.

(** C148 is false: the value is not the incoherence c times the largest degree d of the moral graph, it is smaller. *)
Theorem C148_scaled_refuted : forall h, exists (m : model rat_realFieldType 2 1 1) svd c (d : nat) y,
  [/\ square 2 (mA m) /\ nonneg (mA m), forall i, left_factor (effects m i) (svd (effects m i)) /\ \rank (effects m i) = 1%N,
    0 <= c /\ squared_incoherence m (c ^+ 2), moral_max m d &
    scaled_latent_incoherence h svd m = Ok y /\ y < c * d%:R].
Proof. exact incoherence_wrong. Qed.
Print Assumptions C148_scaled_refuted.

(** What is returned is c^2 d: the square root is missing, so that only models with d = 0, c = 0 or c = 1 get the documented
    value, and all others a smaller one. *)
Theorem C148_root_partial : forall (F : realFieldType) h (p l e : nat) svd (m : model F p l e) c,
  (0 < p)%N -> (0 < e)%N -> (l <= p)%N -> square p (mA m) -> nonneg (mA m) ->
  (forall i, left_factor (effects m i) (svd (effects m i)) /\ \rank (effects m i) = l) ->
  0 <= c -> squared_incoherence m (c ^+ 2) ->
  exists (d : nat) y, [/\ scaled_latent_incoherence h svd m = Ok y, moral_max m d, y = c * (c * d%:R), y <= c * d%:R &
    y = c * d%:R <-> [\/ d = 0%N, c = 0 | c = 1]].
Proof. exact incoherence_root. Qed.
Print Assumptions C148_root_partial.

(** The same without c, which need not be in the field: if the effects of the latents are independent, then the value is the
    largest diagonal entry of the projections on them, times d, whatever decomposition numpy computes. *)
Theorem C148_value_partial : forall (F : realFieldType) h (p l e : nat) svd (m : model F p l e),
  (0 < p)%N -> (0 < e)%N -> (l <= p)%N -> square p (mA m) -> nonneg (mA m) ->
  (forall i, left_factor (effects m i) (svd (effects m i)) /\ \rank (effects m i) = l) ->
  exists (d : nat) x, [/\ scaled_latent_incoherence h svd m = Ok (x * d%:R), moral_max m d & squared_incoherence m x].
Proof. exact incoherence_value. Qed.
Print Assumptions C148_value_partial.

(** If they are dependent, then the value depends on the decomposition: there are a model and two singular value decompositions
    for which the values differ. *)
Theorem C148_rank_refuted : forall h, exists (m : model rat_realFieldType 3 2 1) svd svd' x x',
  [/\ square 3 (mA m) /\ nonneg (mA m), forall i, left_factor (effects m i) (svd (effects m i)), forall i, left_factor (effects m i) (svd' (effects m i)),
    scaled_latent_incoherence h svd m = Ok x /\ scaled_latent_incoherence h svd' m = Ok x' & x < x'].
Proof. exact incoherence_rank. Qed.
Print Assumptions C148_rank_refuted.
