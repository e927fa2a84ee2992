(** The theorems of PropOpt.v for the real numbers of the standard library and their logarithm: no hypothesis about the
    logarithm is left. *)
From Coq Require Import ZArith List Reals.
From mathcomp Require Import all_ssreflect all_algebra.
From Verif Require Import Base GraphModel GraphSpec MeekProofs EnumProofs ListModel NumModel NumSpec ScoreModel CacheSpec ScoreSpec GradSpec OptSpec LinAlgProofs ConsistProofs OptProofs RealProofs MainModel MainSpec TermSpec PropOpt PropTerm.
Import Order.Theory GRing.Theory Num.Theory.
Local Open Scope ring_scope.
Local Notation RF := R_realFieldType.

Lemma ln_tangent (p : nat) (S : 'M[RF]_p) : posdef S -> log_tangent (ln : RF -> RF) p (\det S)^-1.
Proof. by move=> H; have [] := @C96_logarithm RF ln ln_log_like p (\det S)^-1 _; rewrite ?invr_gt0 ?posdef_det. Qed.

(** C97: the score of all models is bounded below. *)
Example C97_real (h : hord) (p l e : nat) (sigmas : 'I_e -> 'M[RF]_p) (n_obs : 'I_e -> nat) A (B : 'M[RF]_p) (g : 'M[RF]_(l, p))
    (o : 'M[RF]_(e, p)) (s : 'M[RF]_(e, l)) m : (forall i, posdef (sigmas i)) ->
  square p A -> nonneg A -> new_model h A B g o s = Ok m -> positive o -> (forall a b, 0 <= s a b) ->
  exists x, score (ln : RF -> RF) m sigmas n_obs = Ok x /\
    \sum_i (n_obs i)%:R / (\sum_k n_obs k)%N%:R ^+ (e - i) * (p%:R - ln (\det (sigmas i))^-1) <= x.
Proof. by move=> H SA NA N Ho Hs; apply: (C97_bounded_below n_obs H _ SA NA N Ho Hs) => i; apply: ln_tangent. Qed.

(** C98: score_dag with the convex solver ends. *)
Example C98_real (p l e : nat) (cf : conf RF p l e) A : cf_log cf = ln -> square p A -> nonneg A -> acyclic A ->
  (0 < p)%N -> (0 < e)%N -> (l <= p)%N -> (forall k, posdef (cf_sigmas cf k)) -> (forall k, (0 < cf_n_obs cf k)%N) ->
  0 < cf_threshold_score cf -> (forall u, cf_psi_max cf = Some u -> 1 < u) -> (0 < cf_max_iter cf)%N ->
  (0 < cf_max_fluctuations cf)%N -> cf_solver cf = Cvx -> forall I rnd,
  exists2 r, settles (fun k => fit (with_fuel cf k) A I None rnd) r &
    r = Err TypeError \/ r = Err AssertionError \/ exists x, r = Ok x.
Proof.
move=> EL SA NA AA p0 e0 lp PD N0 T0 Pm mi mf So I rnd.
apply: (@C98_cvx_fit_ends R_archiFieldType p l e cf A) => // k; rewrite EL; exact: ln_tangent.
Qed.

(** C96: at the covariances of a model no model scores better, and only models with these covariances score as well. *)
Example C96_real (h : hord) (p l l' e : nat) A A' (B B' : 'M[RF]_p) (g : 'M[RF]_(l, p)) (g' : 'M[RF]_(l', p)) (o o' : 'M[RF]_(e, p))
    (s : 'M[RF]_(e, l)) (s' : 'M[RF]_(e, l')) m m' (n_obs : 'I_e -> nat) :
  square p A -> nonneg A -> new_model h A B g o s = Ok m -> positive o -> (forall a b, 0 <= s a b) ->
  square p A' -> nonneg A' -> new_model h A' B' g' o' s' = Ok m' -> positive o' -> (forall a b, 0 <= s' a b) ->
  (forall i, (0 < n_obs i)%N) ->
  exists x y, [/\ score (ln : RF -> RF) m (entailed B g o s) n_obs = Ok x, score (ln : RF -> RF) m' (entailed B g o s) n_obs = Ok y, x <= y
    & x = y -> forall i, entailed B' g' o' s' i = entailed B g o s i].
Proof.
move=> SA NA N Ho Hs SA' NA' N' Ho' Hs' n0.
have T i : 0 < (\det (noise g o s i))^-1 by rewrite invr_gt0 posdef_det //; apply: noise_posdef.
have [x [y [E E' L]]] := @C96_consistent RF ln h p l l' e A A' B B' g g' o o' s s' m m' n_obs SA NA N Ho Hs SA' NA' N' Ho' Hs'
  (fun i => let: And3 H _ _ := @C96_logarithm RF ln ln_log_like p _ (T i) in H).
exists x, y; split=> // xy.
apply: (@C96_identified RF ln h p l l' e A A' B B' g g' o o' s s' m m' n_obs SA NA N Ho Hs SA' NA' N' Ho' Hs') => //.
  by move=> i; apply: C96_logarithm => //; exact: ln_log_like.
by rewrite E E' xy.
Qed.

(** C99: equivalence_class with the convex solver returns. *)
Example C99_real (p e : nat) (w : world RF p e) (a : args RF) data candidates prune seed training test_graph test_I hs :
  w_log w = ln ->
  split_data (w_shuffle w 42) [seq data k | k <- enum 'I_e] (a_folds a) = Ok [:: training; test_graph; test_I] ->
  numbers w a training = Ok hs -> hs <> [::] -> (forall h, List.In h hs -> (h <= p)%N) ->
  candidates <> [::] -> Forall (graph p) candidates -> Forall acyclic candidates -> (0 < p)%N -> (0 < e)%N ->
  (forall k, posdef (covs w training k) /\ (1 < n_obs training k)%N) -> 0 < a_threshold_score a ->
  (forall u, a_psi_max a = Some u -> 1 < u) -> (0 < a_max_iter a)%N -> (0 < a_max_fluctuations a)%N ->
  a_solver a = Cvx -> cvx_answers w ->
  exists x, settles (fun k => equivalence_class (w_with_fuel w k) a candidates data prune seed) (Ok x).
Proof.
move=> EL Sp Nu H0 Hp C0 CG CA p0 e0 PD T0 Pm mi mf So An.
apply: (@C99_class_returns R_archiFieldType p e w a data candidates prune seed _ _ _ _ Sp Nu) => // k; rewrite EL; apply: ln_tangent.
by have [] := PD k.
Qed.
