(** Property C125: equivalence_class does not depend on the names of the variables. *)
From Coq Require Import ZArith List.
From mathcomp Require Import all_ssreflect all_algebra all_fingroup.
From Verif Require Import Base GraphSpec RenameSpec NumModel NumSpec ListModel ScoreModel CovModel MainModel MainSpec NamesSpec ClassNamesSpec ClassNamesProofs.
Local Open Scope ring_scope.

(** C125.  w' is w for the renamed variables.  The call with renamed samples and renamed candidates returns the renamed I-CPDAG,
    the renamed set of targets and the same model with other names, or raises the same exception, if there are no ties. *)
Theorem C125_class_names : forall (F : realFieldType) (p e : nat) f g (t : 'S_p) (w w' : world F p e) (a : args F) candidates
    (data data' : 'I_e -> seq 'rV[F]_p) prune seed training test_graph test_I hs,
  names f g t -> renamed_world g t w w' -> sorts (w_argsort w) -> sorts (w_argsort w') ->
  (forall k, data' k = rename_sample t (data k)) ->
  split_data (w_shuffle w 42) [seq data k | k <- enum 'I_e] (a_folds a) = Ok [:: training; test_graph; test_I] ->
  numbers w a training = Ok hs -> Forall (graph p) candidates ->
  (0 < e)%N -> (forall k, posdef (covs w training k) /\ (0 < n_obs training k)%N) ->
  (forall n h, List.nth_error hs n = Some h -> no_ties (train_conf w a training h) (w_rnds w n) prune candidates) ->
  renamed_class f g t (equivalence_class w a candidates data prune seed)
    (equivalence_class w' a (List.map (rename p g) candidates) data' prune seed).
Proof. exact @class_names. Qed.
Print Assumptions C125_class_names.

(** There is such a w' for every renaming. *)
Theorem C125_renamed : forall (F : realFieldType) (p e : nat) f g (t : 'S_p) (w : world F p e), names f g t ->
  exists w', renamed_world g t w w' /\ w_argsort w' = w_argsort w.
Proof. exact @renamed_world_exists. Qed.
Print Assumptions C125_renamed.

(** In particular np.cov itself is such a function. *)
Theorem C125_cov : forall (F : realFieldType) (p : nat) (t : 'S_p) (X : seq 'rV[F]_p),
  np_cov (rename_sample t X) = rename_mx t (np_cov X).
Proof. exact @cov_names. Qed.
Print Assumptions C125_cov.
