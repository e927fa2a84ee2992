(** Properties C96 to C98: what the score measures, and termination. *)
From Coq Require Import ZArith List.
From mathcomp Require Import all_ssreflect all_algebra.
From Verif Require Import Base GraphSpec NumSpec ScoreSpec GradSpec OptSpec GraphModel NumModel ScoreModel.
From Verif Require Import ConsistProofs TermProofs Term2Proofs.
Set Implicit Arguments.
Unset Strict Implicit.
Unset Printing Implicit Defensive.
Import Order.Theory GRing.Theory Num.Theory.
Local Open Scope ring_scope.

(** C96: at the covariances entailed by a model, no model with any graph and any number of latent variables scores better
    than that model ... *)
Theorem C96_consistent : forall (F : realFieldType) (log : F -> F) (h : hord) (p l l' e : nat) A A'
  (B B' : 'M[F]_p) (g : 'M[F]_(l, p)) (g' : 'M[F]_(l', p)) (o o' : 'M[F]_(e, p)) (s : 'M[F]_(e, l)) (s' : 'M[F]_(e, l')) m m'
  (n_obs : 'I_e -> nat),
  square p A -> nonneg A -> new_model h A B g o s = Ok m -> positive o -> (forall a b, 0 <= s a b) ->
  square p A' -> nonneg A' -> new_model h A' B' g' o' s' = Ok m' -> positive o' -> (forall a b, 0 <= s' a b) ->
  (forall i, log_tangent log p (\det (noise g o s i))^-1) ->
  exists x y, [/\ score log m (entailed B g o s) n_obs = Ok x, score log m' (entailed B g o s) n_obs = Ok y & x <= y].
Proof. exact score_minimal. Qed.
Print Assumptions C96_consistent.

(** ... and those that score as well entail the same covariances. *)
Theorem C96_identified : forall (F : realFieldType) (log : F -> F) (h : hord) (p l l' e : nat) A A'
  (B B' : 'M[F]_p) (g : 'M[F]_(l, p)) (g' : 'M[F]_(l', p)) (o o' : 'M[F]_(e, p)) (s : 'M[F]_(e, l)) (s' : 'M[F]_(e, l')) m m'
  (n_obs : 'I_e -> nat),
  square p A -> nonneg A -> new_model h A B g o s = Ok m -> positive o -> (forall a b, 0 <= s a b) ->
  square p A' -> nonneg A' -> new_model h A' B' g' o' s' = Ok m' -> positive o' -> (forall a b, 0 <= s' a b) ->
  (forall i, log_tangent_strict log p (\det (noise g o s i))^-1) -> (forall i, (0 < n_obs i)%N) ->
  score log m' (entailed B g o s) n_obs = score log m (entailed B g o s) n_obs ->
  forall i, entailed B' g' o' s' i = entailed B g o s i.
Proof. exact score_unique. Qed.
Print Assumptions C96_identified.

(** The logarithm satisfies the hypotheses. *)
Theorem C96_logarithm : forall (F : realFieldType) (log : F -> F), log_like log ->
  forall n c, 0 < c -> log_tangent_strict log n c.
Proof. exact log_like_tangent. Qed.
Print Assumptions C96_logarithm.

(** C97 *)
Theorem C97_bounded_below : forall (F : realFieldType) (log : F -> F) (h : hord) (p l e : nat)
  (sigmas : 'I_e -> 'M[F]_p) (n_obs : 'I_e -> nat),
  (forall i, posdef (sigmas i)) -> (forall i, log_tangent log p (\det (sigmas i))^-1) ->
  forall A (B : 'M[F]_p) (g : 'M[F]_(l, p)) (o : 'M[F]_(e, p)) (s : 'M[F]_(e, l)) m,
  square p A -> nonneg A -> new_model h A B g o s = Ok m -> positive o -> (forall a b, 0 <= s a b) ->
  exists x, score log m sigmas n_obs = Ok x /\
    \sum_i (n_obs i)%:R / (\sum_k n_obs k)%N%:R ^+ (e - i) * (p%:R - log (\det (sigmas i))^-1) <= x.
Proof. exact score_bounded. Qed.
Print Assumptions C97_bounded_below.

(** C98: the gradient descents for gamma and for the variances end ... *)
Theorem C98_gamma_ends : forall (F : archiFieldType) (p l e : nat) (cf : conf F p l e) A,
  square p A -> nonneg A -> acyclic A -> (forall k, posdef (cf_sigmas cf k)) ->
  (forall k, log_tangent (cf_log cf) p (\det (cf_sigmas cf k))^-1) -> 0 < cf_threshold_score cf ->
  forall m, mA m = A -> supported A (mB m) -> positive (momegas m) -> (forall a b, 0 <= mpsis m a b) ->
  exists r, settles (fun k => solve_gamma (with_fuel cf k) m) (Ok r).
Proof. exact solve_gamma_term. Qed.
Print Assumptions C98_gamma_ends.

Theorem C98_rest_ends : forall (F : archiFieldType) (p l e : nat) (cf : conf F p l e) A,
  square p A -> nonneg A -> acyclic A -> (forall k, posdef (cf_sigmas cf k)) ->
  (forall k, log_tangent (cf_log cf) p (\det (cf_sigmas cf k))^-1) -> 0 < cf_threshold_score cf ->
  forall m I, mA m = A -> supported A (mB m) -> in_range (cf_psi_max cf) m ->
  (forall u, cf_psi_max cf = Some u -> 0 <= u) ->
  exists r, settles (fun k => solve_rest (with_fuel cf k) m I) (Ok r).
Proof. exact solve_rest_term. Qed.
Print Assumptions C98_rest_ends.

(** ... so the alternating procedure ends if the solver for B does ... *)
Theorem C98_fit_ends : forall (F : archiFieldType) (p l e : nat) (cf : conf F p l e) A,
  square p A -> nonneg A -> acyclic A -> (forall k, posdef (cf_sigmas cf k)) ->
  (forall k, log_tangent (cf_log cf) p (\det (cf_sigmas cf k))^-1) -> 0 < cf_threshold_score cf ->
  B_ends cf A -> (0 < p)%N -> (forall u, cf_psi_max cf = Some u -> 0 <= u) ->
  forall I init rnd,
  (forall m, init = Some m -> [/\ supported A (mB m), in_range (cf_psi_max cf) m & square p (mA m)]) ->
  (init = None -> [/\ (l <= p)%N, (0 < e)%N, forall k, (0 < cf_n_obs cf k)%N & forall u, cf_psi_max cf = Some u -> 1 < u]) ->
  (cf_solver cf = Grad -> forall k, nontrivial (rnd k).1) ->
  exists r, settles (fun k => fit (with_fuel cf k) A I init rnd) r /\ r <> Err OutOfFuel.
Proof. exact fit_term. Qed.
Print Assumptions C98_fit_ends.

(** ... as the convex one does: with it the fit returns a model or the exception of a failed solve. *)
Theorem C98_cvx_fit_ends : forall (F : archiFieldType) (p l e : nat) (cf : conf F p l e) A,
  square p A -> nonneg A -> acyclic A -> (0 < p)%N -> (0 < e)%N -> (l <= p)%N ->
  (forall k, posdef (cf_sigmas cf k)) -> (forall k, (0 < cf_n_obs cf k)%N) ->
  (forall k, log_tangent (cf_log cf) p (\det (cf_sigmas cf k))^-1) -> 0 < cf_threshold_score cf ->
  (forall u, cf_psi_max cf = Some u -> 1 < u) -> (0 < cf_max_iter cf)%N -> (0 < cf_max_fluctuations cf)%N ->
  cf_solver cf = Cvx -> forall I rnd,
  exists2 r, settles (fun k => fit (with_fuel cf k) A I None rnd) r &
    r = Err TypeError \/ r = Err AssertionError \/ exists x, r = Ok x.
Proof. exact fit_cvx_ends. Qed.
Print Assumptions C98_cvx_fit_ends.

Theorem C98_cvx_fit_returns : forall (F : archiFieldType) (p l e : nat) (cf : conf F p l e) A,
  square p A -> nonneg A -> acyclic A -> (0 < p)%N -> (0 < e)%N -> (l <= p)%N ->
  (forall k, posdef (cf_sigmas cf k)) -> (forall k, (0 < cf_n_obs cf k)%N) ->
  (forall k, log_tangent (cf_log cf) p (\det (cf_sigmas cf k))^-1) -> 0 < cf_threshold_score cf ->
  (forall u, cf_psi_max cf = Some u -> 1 < u) -> (0 < cf_max_iter cf)%N -> (0 < cf_max_fluctuations cf)%N ->
  cf_solver cf = Cvx -> (forall m, mA m = A -> exists B, cf_cvx cf m = Some B /\ supported A B) -> forall I rnd,
  exists x, settles (fun k => fit (with_fuel cf k) A I None rnd) (Ok x).
Proof. exact fit_cvx_returns. Qed.
Print Assumptions C98_cvx_fit_returns.
