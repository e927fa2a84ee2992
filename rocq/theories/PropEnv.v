(** Property C132: the order of the environments. *)
From Coq Require Import ZArith List.
From mathcomp Require Import all_ssreflect all_algebra.
From Verif Require Import Base GraphSpec NumModel ListModel ScoreModel CovModel MainModel MainSpec OptSpec ExactSpec EnvProofs.
Local Open Scope ring_scope.

(** C132 "equivalence_class does not depend on the order of the environments" is false, even with an exact solver, if the shuffles
    leave the observations alone, and if all environments have as many.  The score of a model divides the sum by the number of observations once more for each
    environment that follows (C62), so that the last environment decides: below a graph without edges is selected in one order and
    a graph with an edge in the other. *)
Theorem C132_order_refuted : forall (F : realFieldType) (log : F -> F) (pi : F) (h : hord), log_like log ->
  exists (w : world F 2 2) (a : args F) candidates data,
  [/\ w_log w = log /\ w_pi w = pi, [/\ w_h w = h, forall seed k X, w_shuffle w seed k X = X & forall X, w_cov w X = np_cov X],
      [/\ Forall (fun G => graph 2 G /\ acyclic G) candidates, exact_solver w a data & exact_solver w a (fun k => data (rev_ord k))], forall k, size (data k) = 12%N
    & forall seed, exists r r', [/\ equivalence_class w a candidates data false seed = Ok r,
        equivalence_class w a candidates (fun k => data (rev_ord k)) false seed = Ok r',
        forall i j, ~ edge (mA (projT2 r.2)) i j & exists i j, edge (mA (projT2 r'.2)) i j]].
Proof. exact @order_matters. Qed.
Print Assumptions C132_order_refuted.
