(** Concrete inputs that meet the hypotheses of the theorems of PropLimit.v. *)
From Coq Require Import ZArith List Reals.
From mathcomp Require Import all_ssreflect all_algebra.
From Verif Require Import Base GraphModel GraphSpec ListModel NumModel NumSpec ScoreModel GradSpec ScoreSpec OptSpec MainModel MainSpec SeedProofs FitProofs.
From Verif Require Import LimitSpec LimitProofs LimitRunProofs RealProofs PropLimit.
Import Order.Theory GRing.Theory Num.Theory.
Local Open Scope ring_scope.

(** C118: the reals with their logarithm; two variables, X1 = X0 + noise, one environment; the candidates 0 -> 1 and 1 -> 0 *)
Definition lim_w (h : hord) := lim_world (ln : R_realFieldType -> R_realFieldType) 0 h.
Example C118_class_ex (h : hord) prune seed :
  exists am, equivalence_class (lim_w h) (lim_args _) [:: A01; A10] (linked3 _) prune seed = Ok (A01, [:: 0; 1]%N, am) /\
    forall k, entailed (mB (projT2 am)) (mgamma (projT2 am)) (momegas (projT2 am)) (mpsis (projT2 am)) k = sg _.
Proof.
have [am [E X]] := lim_result 0 h ln_log_like prune seed; exists am; split=> // k.
by rewrite X lim_cov.
Qed.
Example C118_hyps_ex (h : hord) prune : let tr := [:: linked _] in
  [/\ exact_folds (lim_w h) tr tr tr, exact_fits (lim_w h) (lim_args _) tr prune [:: A01; A10] [:: 0%N],
      split_data (w_shuffle (lim_w h) 42) [seq linked3 _ k | k <- enum 'I_1] (a_folds (lim_args R_realFieldType)) = Ok [:: tr; tr; tr]
    & forall G I, List.In G [:: A01; A10] -> explainable (train_conf (lim_w h) (lim_args _) tr 0) G I].
Proof.
by move=> tr; split; [exact: lim_folds | exact: lim_fits | exact: lim_split | move=> G I; exact: lim_explainable].
Qed.
(** Not every graph explains the data *)
Example C118_unexplained_ex (h : hord) I : ~ explainable (train_conf (lim_w h) (lim_args _) [:: linked _] 0) no_edge2 I.
Proof. by apply: lim_unexplained => -[i [j]]; exact: noedge_edge. Qed.
