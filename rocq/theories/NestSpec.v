(** Larger graphs, targets and numbers of latents: notions for C138. *)
From Coq Require Import ZArith List.
From mathcomp Require Import all_ssreflect all_algebra.
From Verif Require Import Base GraphSpec NumSpec NumModel ScoreModel ScoreSpec MainSpec.
Set Implicit Arguments.
Unset Strict Implicit.
Unset Printing Implicit Defensive.
Import Order.Theory GRing.Theory Num.Theory.
Local Open Scope ring_scope.

Section Nest.
Variables (F : realFieldType) (log : F -> F) (p e : nat) (psi_max : option F) (psi_fixed : bool).

(** m is one of the models with l latents that score_dag may return for the DAG A and the targets I: built by the constructor
    from A and parameters within the constraints. *)
Definition allowed (l : nat) (A : mat) (I : list nat) (m : model F p l e) : Prop :=
  [/\ mA m = A, supported A (mB m), mI_B m = 1%:M - (mB m)^T, in_range psi_max m & invariant_outside psi_fixed I m].

(** No such model has a lower score. *)
Definition optimal (sigmas : 'I_e -> 'M[F]_p) (n_obs : 'I_e -> nat) (l : nat) (A : mat) (I : list nat) (m : model F p l e) : Prop :=
  allowed A I m /\
  forall (m' : model F p l e) x x', allowed A I m' -> score log m sigmas n_obs = Ok x -> score log m' sigmas n_obs = Ok x' -> x <= x'.
End Nest.

Section Train.
Variables (F : realFieldType) (p l e : nat) (cf : conf F p l e).

(** x is the score on the training data of the model with the parameters of m. *)
Definition training_score (m : model F p l e) (x : F) : Prop :=
  exists2 m1, copy_model (cf_h cf) m = Ok m1 & score (cf_log cf) m1 (cf_sigmas cf) (cf_n_obs cf) = Ok x.

(** The fitting procedure returns the parameters with the best score on the training data. *)
Definition optimal_fits : Prop := forall A I rnd m s, fit cf A I None rnd = Ok (m, s) -> graph p A -> acyclic A ->
  exists2 m1, copy_model (cf_h cf) m = Ok m1 &
    optimal (cf_log cf) (cf_psi_max cf) (cf_psi_fixed cf) (cf_sigmas cf) (cf_n_obs cf) A I m1.

(** The training scores do not decrease along the list. *)
Definition rising (ms : list (model F p l e)) : Prop := forall us m m' vs x x', ms = us ++ m :: m' :: vs ->
  training_score m x -> training_score m' x' -> x <= x'.
End Train.
