(** Property C150: scaled_latent_incoherence does not depend on the choice of the latents nor on the order of the environments. *)
From Coq Require Import ZArith List.
From mathcomp Require Import all_ssreflect all_algebra all_fingroup.
From Verif Require Import Base GraphModel GraphSpec NumModel NumSpec GenModel GenSpec IncoSpec BasisSpec BasisProofs.
Import GRing.Theory Num.Theory.
Local Open Scope nat_scope.
Local Open Scope ring_scope.

(** If the effects of the latents are independent, then other latents that span the same space (in another order, with other
    signs, scales, or rotated) have the same incoherence, whatever decompositions numpy computes for either. *)
Theorem C150_latents : forall (F : realFieldType) (p l e : nat) h h' svd svd' (s : 'S_e) (R : 'M[F]_l) (m m' : model F p l e),
  (0 < p)%N -> (0 < e)%N -> (l <= p)%N -> square p (mA m) -> nonneg (mA m) -> R \in unitmx -> same_but_latents s R m m' ->
  (forall i, left_factor (effects m i) (svd (effects m i)) /\ \rank (effects m i) = l) ->
  (forall i, left_factor (effects m' i) (svd' (effects m' i))) ->
  exists x, scaled_latent_incoherence h svd m = Ok x /\ scaled_latent_incoherence h' svd' m' = Ok x.
Proof. exact incoherence_basis. Qed.
Print Assumptions C150_latents.
