(** Property C143: the documented meaning of psi_max. *)
From Coq Require Import ZArith List.
From mathcomp Require Import all_ssreflect all_algebra.
From Verif Require Import Base GraphModel GraphSpec NumModel NumSpec ScoreModel ScoreSpec MainModel MainSpec NestSpec BoundSpec BoundProofs.
Import Order.Theory GRing.Theory Num.Theory.
Local Open Scope ring_scope.

(** C143.  "The maximum allowed change in variance between environments for the hidden variables" is wrong.  First, no model is
    excluded: for every bound u > 0 and every model without a bound there is one within the bound with the same weights,
    noise variances, covariances, scores and relative changes of the variances of the hidden variables. *)
Theorem C143_limit_refuted : forall (F : realFieldType) (p l e : nat) (u : F) psi_fixed A I (m : model F p l e),
  0 < u -> allowed None psi_fixed A I m ->
  exists m' : model F p l e, [/\ allowed (Some u) psi_fixed A I m', mB m' = mB m /\ momegas m' = momegas m, forall i, mnoise m' i = mnoise m i,
    same_changes m m' & forall (log : F -> F) sigmas n_obs, score log m' sigmas n_obs = score log m sigmas n_obs].
Proof. exact @scaled. Qed.
Print Assumptions C143_limit_refuted.

(** So the best score with a bound is the best score without. *)
Theorem C143_optimum_refuted : forall (F : realFieldType) (p l e : nat) (u : F) psi_fixed A I (log : F -> F) sigmas n_obs (m : model F p l e),
  0 < u ->
  (optimal log None psi_fixed sigmas n_obs A I m -> exists2 m' : model F p l e,
     optimal log (Some u) psi_fixed sigmas n_obs A I m' & score log m' sigmas n_obs = score log m sigmas n_obs) /\
  (optimal log (Some u) psi_fixed sigmas n_obs A I m -> optimal log None psi_fixed sigmas n_obs A I m).
Proof. exact @scaled_optimal. Qed.
Print Assumptions C143_optimum_refuted.

(** Second, with a bound of 1 or less neither entry point returns, if no number of hidden variables is 0. *)
Theorem C143_class_refuted : forall (F : realFieldType) (p e : nat) (w : world F p e) (a : args F) candidates data prune seed r u,
  (0 < e)%N -> a_psi_max a = Some u -> u <= 1 -> (forall hs, a_nums_latent a = Some hs -> ~ In 0%N hs) -> Forall (graph p) candidates ->
  equivalence_class w a candidates data prune seed <> Ok r.
Proof. exact @class_small. Qed.
Print Assumptions C143_class_refuted.

Theorem C143_ges_refuted : forall (F : realFieldType) (p e : nat) (w : world F p e) (a : args F) data seed r u,
  (0 < e)%N -> a_psi_max a = Some u -> u <= 1 -> (forall hs, a_nums_latent a = Some hs -> ~ In 0%N hs) -> ges_pdag w ->
  equivalence_class_w_ges w a data seed <> Ok r.
Proof. exact @ges_small. Qed.
Print Assumptions C143_ges_refuted.

(** What holds: no variance of a hidden variable of a returned model changes by psi_max or more.  (Missing: the scale of these
    variances is free, so that this limits nothing.) *)
Theorem C143_class_partial : forall (F : realFieldType) (p e : nat) (w : world F p e) (a : args F) candidates data prune seed icpdag J am u,
  a_psi_max a = Some u -> Forall (graph p) candidates ->
  equivalence_class w a candidates data prune seed = Ok (icpdag, J, am) -> changes_below u (projT2 am).
Proof. exact @class_changes. Qed.
Print Assumptions C143_class_partial.

Theorem C143_ges_partial : forall (F : realFieldType) (p e : nat) (w : world F p e) (a : args F) data seed icpdag J am u,
  a_psi_max a = Some u -> ges_pdag w ->
  equivalence_class_w_ges w a data seed = Ok (icpdag, J, am) -> changes_below u (projT2 am).
Proof. exact @ges_changes. Qed.
Print Assumptions C143_ges_partial.
