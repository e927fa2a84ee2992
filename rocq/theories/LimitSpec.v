(** Notions for C118: exact data and exact fits. *)
From Coq Require Import ZArith List.
From mathcomp Require Import all_ssreflect all_algebra.
From Verif Require Import Base GraphSpec NumSpec GradSpec OptSpec NumModel ScoreModel CacheSpec ScoreSpec MainModel MainSpec.
Set Implicit Arguments.
Unset Strict Implicit.
Unset Printing Implicit Defensive.
Import Order.Theory GRing.Theory Num.Theory.
Local Open Scope ring_scope.

Section Limit.
Variables (F : realFieldType) (p l e : nat).

(** The parameters of the model entail these covariances. *)
Definition explains (sigmas : 'I_e -> 'M[F]_p) (m : model F p l e) : Prop :=
  forall k, entailed (mB m) (mgamma m) (momegas m) (mpsis m) k = sigmas k.

Variable cf : conf F p l e.

(** Some parameters over the graph A within the bounds and with the targets I entail the covariances of the data. *)
Definition explainable (A : mat) (I : list nat) : Prop := exists m : model F p l e,
  [/\ supported A (mB m), in_range (cf_psi_max cf) m, invariant_outside (cf_psi_fixed cf) I m & explains (cf_sigmas cf) m].

(** The fitting procedure finds such parameters if there are any, and ends with a round that does not change B
    ([mI_B] is computed from the B before the round). *)
Definition finds (A : mat) (I : list nat) : Prop := explainable A I ->
  forall rnd m s, fit cf A I None rnd = Ok (m, s) -> explains (cf_sigmas cf) m /\ mI_B m = 1%:M - (mB m)^T.
End Limit.

Section Ideal.
Variables (F : realFieldType) (p e : nat) (w : world F p e) (a : args F).
Local Notation sample := (seq 'rV[F]_p).

(** The three folds have the same covariances and are not empty. *)
Definition exact_folds (training test_graph test_I : seq sample) : Prop :=
  forall k : 'I_e, [/\ covs w test_graph k = covs w training k, covs w test_I k = covs w training k,
                       (0 < n_obs test_graph k)%N & (0 < n_obs test_I k)%N].

(** Every candidate and every subgraph of a candidate is fitted exactly. *)
Definition exact_fits (training : seq sample) (prune : bool) (graphs : seq mat) (hs : seq nat) : Prop :=
  forall h G A I, List.In h hs -> List.In G graphs -> graph p A -> (if prune then subgraph A G else A = G) ->
    same_set (List.seq 0 p) I -> finds (train_conf w a training h) A I.
End Ideal.
