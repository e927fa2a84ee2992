(** Properties C139 and C140: data from a single environment. *)
From Coq Require Import ZArith List.
From mathcomp Require Import all_ssreflect all_algebra.
From Verif Require Import Base GraphSpec NumModel ScoreModel ScoreSpec CovModel MainModel MainSpec SingleSpec SingleProofs.
Import Order.Theory GRing.Theory Num.Theory.
Local Open Scope ring_scope.

(** C139.  With a single environment, psi_fixed has no influence on score_dag, whatever was called before. *)
Theorem C139_score_dag : forall (F : realFieldType) (p l : nat) (cf : conf F p l 1) (b : bool) caching cs (c : call F p l 1),
  (do_call (conf_psi_fixed cf b) (run (conf_psi_fixed cf b) (fresh F p l 1 caching) cs) c).2 =
  (do_call cf (run cf (fresh F p l 1 caching) cs) c).2.
Proof. exact @history_psi_fixed. Qed.
Print Assumptions C139_score_dag.

(** C139, for the result of equivalence_class. *)
Theorem C139_class : forall (F : realFieldType) (p : nat) (w : world F p 1) (a : args F) (b : bool) candidates data prune seed,
  equivalence_class w (args_psi_fixed a b) candidates data prune seed = equivalence_class w a candidates data prune seed.
Proof. exact @class_psi_fixed. Qed.
Print Assumptions C139_class.

(** C139, for the result of equivalence_class_w_ges. *)
Theorem C139_ges : forall (F : realFieldType) (p : nat) (w : world F p 1) (a : args F) (b : bool) data seed,
  equivalence_class_w_ges w (args_psi_fixed a b) data seed = equivalence_class_w_ges w a data seed.
Proof. exact @ges_psi_fixed. Qed.
Print Assumptions C139_ges.

(** C140.  With a single, non-empty sample the targets have no influence on score_dag. *)
Theorem C140_targets : forall (F : realFieldType) (p l : nat) (cf : conf F p l 1), (forall k, (0 < cf_n_obs cf k)%N) ->
  forall A I J init rnd, do_call cf None (Call A I init rnd) = do_call cf None (Call A J init rnd).
Proof. exact @call_targets. Qed.
Print Assumptions C140_targets.

(** C140.  With a single environment and the solver 'cvx', equivalence_class says that all variables, or all but one, are
    targets; so the I-CPDAG is the DAG of the returned model, and this DAG is the only one in the class. *)
Theorem C140_class : forall (F : realFieldType) (p : nat) (w : world F p 1) (a : args F) candidates data prune seed icpdag J am,
  sorts (w_argsort w) -> a_solver a = Cvx -> Forall (graph p) candidates -> some_training w a data ->
  equivalence_class w a candidates data prune seed = Ok (icpdag, J, am) ->
  [/\ almost_all p J, forall i j, edge icpdag i j <-> edge (mA (projT2 am)) i j
    & forall D, square p D -> consistent_ext D icpdag -> forall i j, edge D i j <-> edge (mA (projT2 am)) i j].
Proof. exact @class_single. Qed.
Print Assumptions C140_class.

(** C140, for the result of equivalence_class_w_ges. *)
Theorem C140_ges : forall (F : realFieldType) (p : nat) (w : world F p 1) (a : args F) data seed icpdag J am,
  sorts (w_argsort w) -> a_solver a = Cvx -> ges_pdag w -> some_training w a data ->
  equivalence_class_w_ges w a data seed = Ok (icpdag, J, am) ->
  [/\ almost_all p J, forall i j, edge icpdag i j <-> edge (mA (projT2 am)) i j
    & forall D, square p D -> consistent_ext D icpdag -> forall i j, edge D i j <-> edge (mA (projT2 am)) i j].
Proof. exact @ges_single. Qed.
Print Assumptions C140_ges.
