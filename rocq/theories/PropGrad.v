(** Properties of the gradients in score.py and of the solvers for B. *)
From Coq Require Import ZArith.
From mathcomp Require Import all_ssreflect all_algebra.
From Verif Require Import Base GraphSpec NumSpec ScoreSpec GradSpec GraphModel NumModel ScoreModel.
From Verif Require Import NumProofs Run2Proofs GradProofs Grad2Proofs Bsolve3Proofs Bsolve5Proofs.
Set Implicit Arguments.
Unset Strict Implicit.
Unset Printing Implicit Defensive.
Import Order.Theory GRing.Theory Num.Theory.
Local Open Scope ring_scope.

(** C89: the gradient used to solve for gamma is that of the likelihood. *)
Theorem C89_gamma_gradient : forall (F : realFieldType) (p l e : nat) (cf : conf F p l e) A (B : 'M[F]_p) gamma0 omegas psis m gamma,
  square p A -> nonneg A -> new_model (cf_h cf) A B gamma0 omegas psis = Ok m ->
  positive omegas -> (forall a b, 0 <= psis a b) ->
  (forall i, log_at (cf_log cf) (\det (noise gamma omegas psis i))) ->
  exists G, gamma_gradient cf m gamma = Ok G /\
  gradient_at (fun g => Ok (likelihood (cf_log cf) (entailed B g omegas psis) (cf_sigmas cf) (cf_n_obs cf))) gamma G.
Proof. exact gamma_gradient_lik. Qed.
Print Assumptions C89_gamma_gradient.

(** C90: the gradients used to solve for omegas and psis are that of the likelihood, projected to the directions that
    respect the intervention targets. *)
Theorem C90_rest_gradient : forall (F : realFieldType) (p l e : nat) (cf : conf F p l e) A (B : 'M[F]_p) gamma o0 s0 m (I : seq nat) (omegas : 'M[F]_(e, p)) (psis : 'M[F]_(e, l)),
  square p A -> nonneg A -> new_model (cf_h cf) A B gamma o0 s0 = Ok m ->
  positive omegas -> (forall a b, 0 <= psis a b) ->
  (forall i, log_at (cf_log cf) (\det (noise gamma omegas psis i))) ->
  let free (H : 'M[F]_(e, p)) (H' : 'M[F]_(e, l)) :=
    const_cols (fun j : 'I_p => ~ List.In (nat_of_ord j) I) H /\ (cf_psi_fixed cf -> const_cols (fun=> True) H') in
  exists G G', rest_gradient cf m I (omegas, psis) = Ok (G, G') /\ free G G' /\
  forall H H', free H H' ->
    has_deriv (fun t => likelihood (cf_log cf) (entailed B gamma (omegas + t *: H) (psis + t *: H'))
                          (cf_sigmas cf) (cf_n_obs cf)) (inner G H + inner G' H').
Proof. exact rest_gradient_lik. Qed.
Print Assumptions C90_rest_gradient.

(** C91, one environment: the gradient is that of the loss. *)
Theorem C91_gamma_loss_partial : forall (F : realFieldType) (p l : nat) (cf : conf F p l 1) A (B : 'M[F]_p) gamma0 omegas psis m gamma,
  square p A -> nonneg A -> new_model (cf_h cf) A B gamma0 omegas psis = Ok m ->
  positive omegas -> (forall a b, 0 <= psis a b) ->
  (forall i, log_at (cf_log cf) (\det (invmx (noise gamma omegas psis i)))) ->
  exists G, gamma_gradient cf m gamma = Ok G /\ gradient_at (gamma_loss cf m) gamma G.
Proof. exact gamma_gradient_one. Qed.
Print Assumptions C91_gamma_loss_partial.

Theorem C91_rest_loss_partial : forall (F : realFieldType) (p l : nat) (cf : conf F p l 1) A (B : 'M[F]_p) gamma o0 s0 m (I : seq nat) (omegas : 'M[F]_(1, p)) (psis : 'M[F]_(1, l)),
  square p A -> nonneg A -> new_model (cf_h cf) A B gamma o0 s0 = Ok m ->
  positive omegas -> (forall a b, 0 <= psis a b) ->
  (forall i, log_at (cf_log cf) (\det (invmx (noise gamma omegas psis i)))) ->
  exists G G', rest_gradient cf m I (omegas, psis) = Ok (G, G') /\
    forall H H', deriv_along (fun t => rest_loss cf m (omegas + t *: H, psis + t *: H')) (inner G H + inner G' H').
Proof. exact rest_gradient_one. Qed.
Print Assumptions C91_rest_loss_partial.

(** C91 is false for two environments: small steps against the gradient increase the loss. *)
Theorem C91_loss_gradient_refuted : forall (F : realFieldType) (h : hord) (log : F -> F), log_at log 1 ->
  exists (cf : conf F 1 1 2) m G,
  [/\ cf_log cf = log, cf_h cf = h, new_model h A1 0 (mgamma m) (momegas m) (mpsis m) = Ok m,
      positive (momegas m) & positive (mpsis m)] /\
  [/\ (forall i, posdef (cf_sigmas cf i)), (forall i, (0 < cf_n_obs cf i)%N), gamma_gradient cf m (mgamma m) = Ok G &
      exists s del, gamma_loss cf m (mgamma m) = Ok s /\ 0 < del /\
        forall t, 0 < t -> t < del -> exists s', gamma_loss cf m (mgamma m - t *: G) = Ok s' /\ s < s'].
Proof. exact gradient_loss_two. Qed.
Print Assumptions C91_loss_gradient_refuted.

(** C92, equal sample sizes: up to the stopping threshold no other weights have a better likelihood. *)
Theorem C92_grad_optimal_partial : forall (F : realFieldType) (p l e : nat) (cf : conf F p l e) A (B0 : 'M[F]_p) gamma omegas psis m,
  square p A -> nonneg A -> new_model (cf_h cf) A B0 gamma omegas psis = Ok m ->
  positive omegas -> (forall a b, 0 <= psis a b) ->
  forall n rnd rnd' B, (forall k, cf_n_obs cf k = n) -> (0 < n)%N -> (0 < e)%N ->
  exact_roots (cf_sqrtm cf) (cf_sigmas cf) gamma omegas psis ->
  (forall X, cf_finite cf X) -> nontrivial rnd -> solve_B_grad cf m rnd rnd' = Ok B ->
  supported A B /\ forall B', supported A B' ->
    likelihood (cf_log cf) (entailed B gamma omegas psis) (cf_sigmas cf) (cf_n_obs cf) <=
    likelihood (cf_log cf) (entailed B' gamma omegas psis) (cf_sigmas cf) (cf_n_obs cf) +
      2%:R / e%:R * (200%:R + (\sum_k \tr (invmx (noise gamma omegas psis k)) * \tr (cf_sigmas cf k)) * (p * p)%:R) * (10%:R ^+ 10)^-1 *
      \sum_i \sum_j `|B' i j - B i j|.
Proof. exact grad_likelihood. Qed.
Print Assumptions C92_grad_optimal_partial.

(** C92 is false for unequal sample sizes: there are data for which the function terminates (for some draw), and every
    result it can return is worse, by 1 or more, than some other matrix. *)
Theorem C92_grad_optimal_refuted : forall (F : realFieldType) (log : F -> F) (h : hord),
  exists (cf : conf F 2 0 2) A g o s m,
  [/\ cf_log cf = log, cf_h cf = h, square 2 A, nonneg A & new_model h A 0 g o s = Ok m] /\
  [/\ positive o, positive s, (forall i, posdef (cf_sigmas cf i)), (forall i, (0 < cf_n_obs cf i)%N) &
      exact_roots (cf_sqrtm cf) (cf_sigmas cf) g o s /\ (forall X, cf_finite cf X)] /\
  (exists rnd B, nontrivial rnd /\ forall rnd' fuel, (2 <= fuel)%N -> solve_B_grad (with_fuel cf fuel) m rnd rnd' = Ok B) /\
  exists2 B', supported A B' & forall fuel rnd rnd' B, nontrivial rnd -> solve_B_grad (with_fuel cf fuel) m rnd rnd' = Ok B ->
    likelihood log (entailed B' g o s) (cf_sigmas cf) (cf_n_obs cf) + 1 <= likelihood log (entailed B g o s) (cf_sigmas cf) (cf_n_obs cf).
Proof. exact grad_not_optimal. Qed.
Print Assumptions C92_grad_optimal_refuted.

(** C93, for data of moderate scale. *)
Theorem C93_grad_terminates_partial : forall (F : archiFieldType) (p l e : nat) (cf : conf F p l e) A B0 g o s m rnd rnd',
  square p A -> nonneg A -> new_model (cf_h cf) A B0 g o s = Ok m -> positive o -> (forall a b, 0 <= s a b) ->
  (0 < p)%N -> exact_roots (cf_sqrtm cf) (cf_sigmas cf) g o s -> (forall X, cf_finite cf X) ->
  5%:R / 1000%:R * (\sum_k \tr (invmx (noise g o s k)) * \tr (cf_sigmas cf k)) < 2%:R ->
  exists n B, forall fuel, (n <= fuel)%N -> solve_B_grad (with_fuel cf fuel) m rnd rnd' = Ok B.
Proof. exact grad_terminates_model. Qed.
Print Assumptions C93_grad_terminates_partial.

(** C93 is false in general. *)
Theorem C93_grad_terminates_refuted : forall (F : realFieldType) (log : F -> F) (h : hord),
  exists (cf : conf F 2 0 1) A g o s m,
  [/\ cf_log cf = log, cf_h cf = h, square 2 A, nonneg A & new_model h A 0 g o s = Ok m] /\
  [/\ positive o, positive s, (forall i, posdef (cf_sigmas cf i)), (forall i, (0 < cf_n_obs cf i)%N) &
      exact_roots (cf_sqrtm cf) (cf_sigmas cf) g o s /\ (forall X, cf_finite cf X)] /\
  forall rnd rnd' : 'M[F]_2, (10%:R ^+ 10)^-1 < `|rnd 1 0| -> forall fuel,
    solve_B_grad (with_fuel cf fuel) m rnd rnd' = Err OutOfFuel.
Proof. exact grad_runs_forever. Qed.
Print Assumptions C93_grad_terminates_refuted.

(** C94: a result of the adaptive solver scores no worse than its random start ... *)
Theorem C94_adaptive_no_worse : forall (F : realFieldType) (p l e : nat) (cf : conf F p l e) m rnd B,
  solve_B_adaptive cf m rnd = Ok B ->
  exists m0 m1 s0 s1,
  [/\ new_model (cf_h cf) (mA m) (\matrix_(i, j) (if (i == j) || Z.eqb (get (mA m) i j) Z0 then 0 else - rnd j i))
        (mgamma m) (momegas m) (mpsis m) = Ok m0,
      new_model (cf_h cf) (mA m) B (mgamma m) (momegas m) (mpsis m) = Ok m1,
      mscore cf m0 = Ok s0, mscore cf m1 = Ok s1 & s1 <= s0].
Proof. exact adaptive_no_worse. Qed.
Print Assumptions C94_adaptive_no_worse.

(** ... but there need not be one. *)
Theorem C94_adaptive_terminates_refuted : forall (F : realFieldType) (log : F -> F) (h : hord),
  exists (cf : conf F 2 0 2) A g o s m,
  [/\ cf_log cf = log, cf_h cf = h, square 2 A, nonneg A & new_model h A 0 g o s = Ok m] /\
  [/\ positive o, positive s, (forall i, posdef (cf_sigmas cf i)), (forall i, (0 < cf_n_obs cf i)%N) &
      exact_roots (cf_sqrtm cf) (cf_sigmas cf) g o s /\ (forall X, cf_finite cf X)] /\
  forall rnd : 'M[F]_2, 2%:R / 5%:R < rnd 1 0 -> rnd 1 0 < 1 -> forall fuel,
    solve_B_adaptive (with_fuel cf fuel) m rnd = Err OutOfFuel.
Proof. exact adaptive_runs_forever. Qed.
Print Assumptions C94_adaptive_terminates_refuted.

(** C95 *)
Theorem C95_cvx_optimal : forall (F : realFieldType) (p l e : nat) (cf : conf F p l e) A (B0 : 'M[F]_p) gamma omegas psis m,
  square p A -> nonneg A -> new_model (cf_h cf) A B0 gamma omegas psis = Ok m ->
  positive omegas -> (forall a b, 0 <= psis a b) ->
  forall B, exact_roots (cf_sqrtm cf) (cf_sigmas cf) gamma omegas psis ->
  (forall B1, cf_cvx cf m = Some B1 -> supported A B1 /\
     forall B', supported A B' -> cvx_objective cf (fun k => invmx (noise gamma omegas psis k)) B1 <=
                                  cvx_objective cf (fun k => invmx (noise gamma omegas psis k)) B') ->
  solve_B_cvx cf m = Ok B ->
  supported A B /\ forall B', supported A B' ->
    likelihood (cf_log cf) (entailed B gamma omegas psis) (cf_sigmas cf) (cf_n_obs cf) <=
    likelihood (cf_log cf) (entailed B' gamma omegas psis) (cf_sigmas cf) (cf_n_obs cf).
Proof. exact cvx_likelihood. Qed.
Print Assumptions C95_cvx_optimal.
