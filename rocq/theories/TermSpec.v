(** A bound on the numbers of iterations for the termination of _fit. *)
From mathcomp Require Import all_ssreflect all_algebra.
From Verif Require Import Base GraphSpec NumModel NumSpec ScoreModel MainModel MainSpec.
Set Implicit Arguments.
Unset Strict Implicit.
Unset Printing Implicit Defensive.
Import GRing.Theory.
Local Open Scope ring_scope.

(** w, with k as the bound on the iterations of every loop. *)
Definition w_with_fuel (F : realFieldType) (p e : nat) (w : world F p e) (k : nat) : world F p e :=
  World (w_log w) (w_pi w) (w_h w) (w_sqrtm w) (@w_cvx _ _ _ w) (w_svd w) (w_sqrt w) (w_finite w) (w_argsort w) (w_cov w)
    (w_ges w) (w_shuffle w) (w_rnds w) k.

(** The convex solver answers on every model over a p x p DAG, with a matrix supported on the DAG that is not zero if the DAG
    has an edge. *)
Definition cvx_answers (F : realFieldType) (p e : nat) (w : world F p e) : Prop :=
  forall l (m : model F p l e), graph p (mA m) -> acyclic (mA m) -> exists B,
    [/\ w_cvx w m = Some B, supported (mA m) B & (exists i j, edge (mA m) i j) -> B <> 0].
