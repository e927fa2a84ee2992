(** Property C141: the documented meaning of psi_fixed. *)
From Coq Require Import ZArith List.
From mathcomp Require Import all_ssreflect all_algebra.
From Verif Require Import Base GraphModel GraphSpec NumModel NumSpec ScoreModel CacheSpec ScoreSpec OptSpec InitSpec DescentSpec FixedSpec FixedProofs.
Import Order.Theory GRing.Theory Num.Theory.
Local Open Scope ring_scope.

(** C141.  "If True, impose the additional constraint that the hidden variables have all the same variance" is wrong: for
    every logarithm there is a call of score_dag with psi_fixed=True, exact solver, singular values and square roots, which
    returns two hidden variables with different variances. *)
Theorem C141_equal_refuted : forall (F : realFieldType) (log sqrt : F -> F) (h : hord) (N : nat),
  log_like log -> (0 < N)%N -> sqrt 4%:R ^+ 2 = 4%:R -> sqrt 1 ^+ 2 = 1 ->
  exists cf : conf F 2 2 1, exists A : mat,
  [/\ cf_log cf = log /\ cf_h cf = h, cf_sqrt cf = sqrt, (forall k, posdef (cf_sigmas cf k) /\ cf_n_obs cf k = N),
    svd_of (avg_cov cf) (cf_svd cf (avg_cov cf)) /\ exact_cvx cf A & cf_solver cf = Cvx /\ cf_psi_fixed cf = true] /\
  [/\ square 2 A, nonneg A, acyclic A & forall rnd, exists m s, fit cf A [::] None rnd = Ok (m, s) /\ ~ equal_variances (mpsis m)].
Proof. exact @not_equal. Qed.
Print Assumptions C141_equal_refuted.

(** C141 holds for a single hidden variable, for histories without initial models. *)
Theorem C141_one_latent_partial : forall (F : realFieldType) (p e : nat) (cf : conf F p 1 e) caching cs (c : call F p 1 e) m s,
  Forall (@proper F p 1 e) cs -> Forall (fun d => cl_init d = None) cs -> proper c -> cl_init c = None -> cf_psi_fixed cf = true ->
  (do_call cf (run cf (fresh F p 1 e caching) cs) c).2 = Ok (m, s) -> equal_variances (mpsis m).
Proof. exact @one_latent_equal. Qed.
Print Assumptions C141_one_latent_partial.
