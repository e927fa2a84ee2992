(** Property C121: fitting does not depend on the names of the variables. *)
From Coq Require Import ZArith List.
From mathcomp Require Import all_ssreflect all_algebra all_fingroup.
From Verif Require Import Base GraphModel GraphSpec RenameSpec NumModel NumSpec ScoreModel CacheSpec ScoreSpec NamesSpec NamesProofs.
Local Open Scope ring_scope.

(** C121.  cf' is the Score object of the renamed data.  After any calls, with or without a cache, a renamed call of score_dag
    on it has the renamed result of the call on cf: the same score or the same error, and the same model with other names. *)
Theorem C121_names : forall (F : realFieldType) (p l e : nat) f g (t : 'S_p) (cf cf' : conf F p l e),
  names f g t -> renamed_conf g t cf cf' ->
  (0 < e)%N -> (forall k, posdef (cf_sigmas cf k)) -> (forall k, (0 < cf_n_obs cf k)%N) ->
  forall caching cs c, Forall (@proper F p l e) cs -> proper c ->
  (do_call cf' (run cf' (fresh F p l e caching) (map (rename_call f g t) cs)) (rename_call f g t c)).2 =
  rename_result g t (do_call cf (run cf (fresh F p l e caching) cs) c).2.
Proof. exact @names_calls. Qed.
Print Assumptions C121_names.

(** There is such a Score object for every renaming. *)
Theorem C121_renamed : forall (F : realFieldType) (p l e : nat) f g (t : 'S_p) (cf : conf F p l e), names f g t ->
  exists cf', renamed_conf g t cf cf'.
Proof. exact @renamed_conf_exists. Qed.
Print Assumptions C121_renamed.
