(** Vocabulary of PropNames.v: a Score object for renamed variables. *)
From Coq Require Import ZArith List.
From mathcomp Require Import all_ssreflect all_algebra all_fingroup.
From Verif Require Import Base GraphModel RenameSpec NumModel ScoreModel.
Set Implicit Arguments.
Unset Strict Implicit.
Unset Printing Implicit Defensive.
Import Order.Theory GRing.Theory Num.Theory.
Local Open Scope ring_scope.

Definition res_map (A B : Type) (f : A -> B) (r : res A) : res B := match r with Ok x => Ok (f x) | Err x => Err x end.

Section Names.
Variables (F : realFieldType) (p l e : nat).
Local Notation model := (model F p l e).
(** Variable i is the old variable g i; f is the inverse of g and t is g on the variables. *)
Variables (f g : nat -> nat) (t : 'S_p).
Definition names : Prop := renaming p f g /\ forall i : 'I_p, g (nat_of_ord i) = t i.

Definition rename_mx (X : 'M[F]_p) : 'M[F]_p := \matrix_(i, j) X (t i) (t j).
Definition rename_model (m : model) : model :=
  MkModel (rename p g (mA m)) (rename_mx (mB m)) (col_perm t (mgamma m)) (col_perm t (momegas m)) (mpsis m) (rename_mx (mI_B m)).
Definition rename_draws (rnd : nat -> 'M[F]_p * 'M[F]_p) (k : nat) : 'M[F]_p * 'M[F]_p :=
  (rename_mx (rnd k).1, rename_mx (rnd k).2).

(** cf' is cf with renamed data; sqrtm, isfinite, the singular value decomposition and the convex solver do not look at names
    (U has the left singular vectors as columns). *)
Record renamed_conf (cf cf' : conf F p l e) : Prop := RenamedConf {
  rc_log : cf_log cf' = cf_log cf;
  rc_sqrtm : forall X, cf_sqrtm cf' (rename_mx X) = rename_mx (cf_sqrtm cf X);
  rc_cvx : forall m, square p (mA m) -> cf_cvx cf' (rename_model m) = omap rename_mx (cf_cvx cf m);
  rc_svd : forall X, cf_svd cf' (rename_mx X) = (row_perm t (cf_svd cf X).1, (cf_svd cf X).2);
  rc_sqrt : cf_sqrt cf' = cf_sqrt cf;
  rc_finite : forall X, cf_finite cf' (rename_mx X) = cf_finite cf X;
  rc_sigmas : forall k, cf_sigmas cf' k = rename_mx (cf_sigmas cf k);
  rc_n_obs : forall k, cf_n_obs cf' k = cf_n_obs cf k;
  rc_psi_max : cf_psi_max cf' = cf_psi_max cf;
  rc_psi_fixed : cf_psi_fixed cf' = cf_psi_fixed cf;
  rc_max_iter : cf_max_iter cf' = cf_max_iter cf;
  rc_dist : cf_threshold_dist_B cf' = cf_threshold_dist_B cf;
  rc_fluct : cf_threshold_fluctuation cf' = cf_threshold_fluctuation cf;
  rc_max_fluct : cf_max_fluctuations cf' = cf_max_fluctuations cf;
  rc_score : cf_threshold_score cf' = cf_threshold_score cf;
  rc_rate : cf_learning_rate cf' = cf_learning_rate cf;
  rc_solver : cf_solver cf' = cf_solver cf;
  rc_fuel : cf_fuel cf' = cf_fuel cf }.

Definition rename_result (r : res (model * F)) : res (model * F) := res_map (fun x => (rename_model x.1, x.2)) r.
Definition rename_call (c : call F p l e) : call F p l e :=
  Call (rename p g (cl_A c)) (List.map f (cl_I c)) (omap rename_model (cl_init c)) (rename_draws (cl_rnd c)).
End Names.
