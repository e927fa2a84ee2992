(** Property C110: nums_latent is a set. *)
From Coq Require Import List.
From mathcomp Require Import all_ssreflect all_algebra.
From Verif Require Import Base MainModel NumsLatentSpec NumsLatentProofs.

(** C110.  The order of nums_latent and repetitions in it do not change the result. *)
Theorem C110_class : forall (F : realFieldType) (p e : nat) (w : world F p e) (a : args F),
  same_draws w a -> forall hs hs', (forall h, List.In h hs <-> List.In h hs') ->
  forall candidates data prune seed r,
  equivalence_class w (with_latents a hs) candidates data prune seed = Ok r ->
  equivalence_class w (with_latents a hs') candidates data prune seed = Ok r.
Proof. exact @class_latents. Qed.
Print Assumptions C110_class.

Theorem C110_ges : forall (F : realFieldType) (p e : nat) (w : world F p e) (a : args F),
  same_draws w a -> forall hs hs', (forall h, List.In h hs <-> List.In h hs') ->
  forall data seed r,
  equivalence_class_w_ges w (with_latents a hs) data seed = Ok r ->
  equivalence_class_w_ges w (with_latents a hs') data seed = Ok r.
Proof. exact @ges_latents. Qed.
Print Assumptions C110_ges.
