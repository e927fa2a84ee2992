(** What the members of a class of DAGs have in common with a model (C142). *)
From Coq Require Import ZArith List.
From mathcomp Require Import all_ssreflect all_algebra.
From Verif Require Import Base GraphSpec NumModel NumSpec ScoreModel ScoreSpec GradSpec NestSpec.
Set Implicit Arguments.
Unset Strict Implicit.
Unset Printing Implicit Defensive.
Import Order.Theory GRing.Theory Num.Theory.
Local Open Scope ring_scope.

Section Member.
Variables (F : realFieldType) (h : hord) (p l e : nat) (psi_max : option F) (psi_fixed : bool).

(** Every DAG that extends the graph P has parameters within the same constraints for the targets J, with the same latent
    variances, the same noise variances of the targets and the same covariances and scores on all data as those of m.  (The
    model m0 is the one that the constructor builds from the parameters of m.)  If no parameters of the DAG of m have a
    better score on some data, then none of such a DAG has. *)
Definition explained_alike (P : mat) (J : list nat) (m : model F p l e) : Prop :=
  exists m0, copy_model h m = Ok m0 /\ forall D, square p D -> nonneg D -> consistent_ext D P ->
  (exists m' : model F p l e, [/\ allowed psi_max psi_fixed D J m', mpsis m' = mpsis m,
     forall (i : 'I_e) (j : 'I_p), List.In (nat_of_ord j) J -> momegas m' i j = momegas m i j,
     forall i, entailed (mB m') (mgamma m') (momegas m') (mpsis m') i = entailed (mB m) (mgamma m) (momegas m) (mpsis m) i
     & forall (log : F -> F) sigmas n_obs, score log m' sigmas n_obs = score log m0 sigmas n_obs]) /\
  forall (log : F -> F) sigmas n_obs, optimal log psi_max psi_fixed sigmas n_obs (mA m) J m0 ->
    exists2 m' : model F p l e, optimal log psi_max psi_fixed sigmas n_obs D J m' & score log m' sigmas n_obs = score log m0 sigmas n_obs.
End Member.
