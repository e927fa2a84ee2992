(** Concrete inputs that meet the hypotheses of the theorems of PropCand.v. *)
From Coq Require Import ZArith List Permutation.
From mathcomp Require Import all_ssreflect all_algebra.
From Verif Require Import Base GraphSpec NumModel NumSpec ListModel ScoreModel CovModel MainModel MainSpec PruneProofs Run2Proofs TotalProofs MainRunProofs ExMainDefs.
From Verif Require Import CandSpec CandProofs DupProofs PropCand.
Local Open Scope ring_scope.

(** C126: the candidates 0 -> 1 and 1 -> 0 in both orders.  The result is a model of 0 -> 1. *)
Example C126_both_orders (F : realFieldType) (log : F -> F) (pi : F) (h : hord) seed :
  exists r, [/\ equivalence_class (dup_world log pi h) (dup_args F) [:: A2; back2] (dup_data F) false seed = Ok r,
    equivalence_class (dup_world log pi h) (dup_args F) [:: back2; A2] (dup_data F) false seed = Ok r & mA (projT2 r.2) = A2].
Proof.
have [r [r' [E _ EA _]]] := dup_refuted log pi h seed; exists r; split=> //.
have GG : Forall (graph 2) [:: A2; back2] by constructor; [exact: A2_graph|constructor; [exact: back2_graph|constructor]].
refine (proj1 (C126_order _ _ _ _ _ _ _ _ _ _ _ _ _ _ _ (perm_swap _ _ _) GG (dup_split log pi h) erefl _) E) => k [<-|//].
by split; [exact: C126_cvx|exact: dup_different].
Qed.
