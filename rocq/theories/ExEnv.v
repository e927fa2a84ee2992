(** Concrete inputs for the theorem of PropEnv.v. *)
From Coq Require Import ZArith List Reals.
From mathcomp Require Import all_ssreflect all_algebra.
From Verif Require Import Base GraphModel GraphSpec ListModel NumModel NumSpec ScoreModel OptSpec CovModel MainModel MainSpec Run2Proofs SeedProofs DupProofs.
From Verif Require Import RealProofs EnvProofs PropEnv.
Import Order.Theory GRing.Theory Num.Theory.
Local Open Scope ring_scope.

(** C132: the reals with their logarithm; two variables and two environments of twelve observations, of which the four in the second
    fold are all on the diagonal in one environment and on the axes in the other; candidates: the empty graph and 0 -> 1 *)
Example C132_order_ex (h : hord) seed : let w := env_world (ln : R_realFieldType -> R_realFieldType) 0 h in
  exists r r', [/\ equivalence_class w (dup_args _) [:: no_edge2; A2] (@env_data _) false seed = Ok r,
    equivalence_class w (dup_args _) [:: no_edge2; A2] (fun k => env_data _ (rev_ord k)) false seed = Ok r',
    mA (projT2 r.2) = no_edge2 & mA (projT2 r'.2) = A2].
Proof. exact: (env_order 0 h ln_log_like seed). Qed.
Example C132_theorem_ex (h : hord) := C132_order_refuted R_realFieldType ln 0 h ln_log_like.
