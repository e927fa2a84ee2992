(** Properties C113 and C114 and an addition to C74: the initial parameters. *)
From Coq Require Import ZArith.
From mathcomp Require Import all_ssreflect all_algebra.
From Verif Require Import Base GraphModel GraphSpec NumModel NumSpec ScoreModel GradSpec InitModel InitSpec Init2Proofs.
Local Open Scope ring_scope.

(** C74.  Every column of the initial B minimises the variance of the residual among the vectors supported on the parents. *)
Theorem C74_least_squares : forall (F : realFieldType) (p l e : nat) (cf : conf F p l e) (A : mat) (B : 'M[F]_p),
  semidef (avg_cov cf) -> initialize_B cf A = Ok B ->
  forall (j : 'I_p) (b : 'cV[F]_p), (forall i : 'I_p, b i 0 != 0 -> edge A i j) ->
  residual_var (avg_cov cf) j (col j B) <= residual_var (avg_cov cf) j b.
Proof. exact @initial_least_squares. Qed.
Print Assumptions C74_least_squares.

(** C113.  The rows of the initial gamma are orthogonal, ordered by length, explain at most the covariance of the residuals,
    all of it if there are as many latents as variables, and as much of the variance as any l orthonormal directions. *)
Theorem C113_principal_components : forall (F : realFieldType) (p l e : nat) (cf : conf F p l e) (k : init_kind)
    (B : 'M[F]_p) (g : 'M[F]_(l, p)) (c : 'M[F]_p),
  init_cov cf k = Ok c -> init_gamma cf k B = Ok g -> semidef c ->
  svd_of (residual_cov B c) (cf_svd cf (residual_cov B c)) ->
  exact_sqrt (cf_sqrt cf) (cf_svd cf (residual_cov B c)).2 ->
  [/\ forall a b, a != b -> (g *m g^T) a b = 0,
      forall a b : 'I_l, (a <= b)%N -> (g *m g^T) b b <= (g *m g^T) a a,
      semidef (residual_cov B c - g^T *m g),
      l = p -> g^T *m g = residual_cov B c
    & forall Q : 'M[F]_(l, p), Q *m Q^T = 1%:M -> \tr (Q *m residual_cov B c *m Q^T) <= \tr (g *m g^T)].
Proof. exact @init_gamma_spec. Qed.
Print Assumptions C113_principal_components.

(** The noise variances of the initial model, averaged over the observations, are those of the residuals plus those that
    gamma already explains. *)
Theorem C113_noise : forall (F : realFieldType) (p l e : nat) (cf : conf F p l e) (A : mat) (I : seq nat) (m : model F p l e),
  square p A -> nonneg A -> initial_model cf A I = Ok m -> (\sum_i cf_n_obs cf i)%N%:R != 0 :> F ->
  forall j, weighted (cf_n_obs cf) (fun k => noise (mgamma m) (momegas m) (mpsis m) k j j) =
    residual_cov (mB m) (avg_cov cf) j j + ((mgamma m)^T *m mgamma m) j j.
Proof. exact @initial_noise. Qed.
Print Assumptions C113_noise.

(** They are at least those of the residuals and at most twice as much, and twice as much with as many latents as variables. *)
Theorem C113_counted_twice : forall (F : realFieldType) (p l e : nat) (cf : conf F p l e) (A : mat) (I : seq nat) (m : model F p l e),
  square p A -> nonneg A -> initial_model cf A I = Ok m -> (\sum_i cf_n_obs cf i)%N%:R != 0 :> F -> semidef (avg_cov cf) ->
  svd_of (residual_cov (mB m) (avg_cov cf)) (cf_svd cf (residual_cov (mB m) (avg_cov cf))) ->
  exact_sqrt (cf_sqrt cf) (cf_svd cf (residual_cov (mB m) (avg_cov cf))).2 ->
  forall j, let r := residual_cov (mB m) (avg_cov cf) j j in
    let v := weighted (cf_n_obs cf) (fun k => noise (mgamma m) (momegas m) (mpsis m) k j j) in
    r <= v <= 2%:R * r /\ (l = p -> v = 2%:R * r).
Proof. exact @initial_noise_bounds. Qed.
Print Assumptions C113_counted_twice.

(** C114.  With init='avg' the three functions are those score_dag uses. *)
Theorem C114_avg : forall (F : realFieldType) (p l e : nat) (cf : conf F p l e) A B I,
  [/\ init_B cf InitAvg A = initialize_B cf A, init_gamma cf InitAvg B = initialize_gamma cf B
    & init_omegas cf InitAvg B I = Ok (initialize_omegas cf B I)].
Proof. exact @init_avg. Qed.
Print Assumptions C114_avg.

(** With init='obs' B and gamma are those of a sample with the covariance of the first environment everywhere. *)
Theorem C114_obs : forall (F : realFieldType) (p l e : nat) (cf : conf F p l e) (i0 : 'I_e) A B,
  i0 = 0%N :> nat -> (\sum_i cf_n_obs cf i)%N%:R != 0 :> F ->
  init_B cf InitObs A = init_B (with_sigmas cf (fun=> cf_sigmas cf i0)) InitAvg A /\
  init_gamma cf InitObs B = init_gamma (with_sigmas cf (fun=> cf_sigmas cf i0)) InitAvg B.
Proof. exact @init_obs. Qed.
Print Assumptions C114_obs.

(** Any other value raises ValueError. *)
Theorem C114_other : forall (F : realFieldType) (p l e : nat) (cf : conf F p l e) A B I,
  [/\ init_B cf InitOther A = Err ValueError, init_gamma cf InitOther B = Err ValueError
    & init_omegas cf InitOther B I = Err ValueError].
Proof. exact @init_other. Qed.
Print Assumptions C114_other.

(** The noise variances do not depend on init. *)
Theorem C114_omegas_ignored : forall (F : realFieldType) (p l e : nat) (cf : conf F p l e) B I,
  (0 < e)%N -> init_omegas cf InitObs B I = init_omegas cf InitAvg B I.
Proof. exact @init_omegas_ignored. Qed.
Print Assumptions C114_omegas_ignored.

(** Hence with init='obs' the noise variances are not those of the first environment, as documented. *)
Theorem C114_omegas_refuted : forall (F : realFieldType), exists (cf : conf F 1 0 2) (i0 : 'I_2) B,
  [/\ i0 = 0%N :> nat, (\sum_i cf_n_obs cf i)%N%:R != 0 :> F, (forall k, posdef (cf_sigmas cf k)) &
      init_omegas cf InitObs B [::] <> init_omegas (with_sigmas cf (fun=> cf_sigmas cf i0)) InitAvg B [::]].
Proof. exact omegas_refuted. Qed.
Print Assumptions C114_omegas_refuted.
