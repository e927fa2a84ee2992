(** Termination of the fitting procedure with the convex solver. *)
From Coq Require Import ZArith.
From mathcomp Require Import all_ssreflect all_algebra.
From Verif Require Import Base FieldTac GraphSpec TopoProofs NumSpec CacheSpec CacheProofs ScoreSpec GradSpec OptSpec GraphModel NumModel ScoreModel.
From Verif Require Import NumProofs GDProofs ScoreProofs LoopProofs Lr0Proofs NoErrProofs GradProofs OptProofs ConsistProofs TermProofs.
Set Implicit Arguments.
Unset Strict Implicit.
Unset Printing Implicit Defensive.
Import Order.Theory GRing.Theory Num.Theory.
Local Open Scope ring_scope.

Lemma score_bounded (F : realFieldType) (log : F -> F) (h : hord) (p l e : nat)
  (sigmas : 'I_e -> 'M[F]_p) (n_obs : 'I_e -> nat) :
  (forall i, posdef (sigmas i)) -> (forall i, log_tangent log p (\det (sigmas i))^-1) ->
  forall A (B : 'M[F]_p) (g : 'M[F]_(l, p)) (o : 'M[F]_(e, p)) (s : 'M[F]_(e, l)) m,
  square p A -> nonneg A -> new_model h A B g o s = Ok m -> positive o -> (forall a b, 0 <= s a b) ->
  exists x, score log m sigmas n_obs = Ok x /\
    \sum_i (n_obs i)%:R / (\sum_k n_obs k)%N%:R ^+ (e - i) * (p%:R - log (\det (sigmas i))^-1) <= x.
Proof.
move=> PS LT A B g o s m SA NA E Ho Hs; have [HA HB Em] := new_model_ok SA NA E.
have [x Ex Hx] : exists2 x, score log m sigmas n_obs = Ok x & saturated log sigmas n_obs <= x.
  by rewrite Em; apply: (@score_bound F log p l e A sigmas n_obs HA PS (MkModel A B g o s (1%:M - B^T))).
exists x; split=> //; apply: le_trans Hx; rewrite /saturated /weight le_eqVlt; apply/orP; left; apply/eqP.
by apply: eq_bigr => i _; rewrite [- _ + _]addrC.
Qed.

Section Cvx.
Variables (F : archiFieldType) (p l e : nat) (cf : conf F p l e) (A : mat).
Local Notation model := (model F p l e).
Hypothesis SA : square p A.
Hypothesis NA : nonneg A.
Hypothesis HA : acyclic A.
Hypothesis p0 : (0 < p)%N.
Hypothesis e0 : (0 < e)%N.
Hypothesis lp : (l <= p)%N.
Hypothesis PS : forall k, posdef (cf_sigmas cf k).
Hypothesis n0 : forall k, (0 < cf_n_obs cf k)%N.
Hypothesis LT : forall k, log_tangent (cf_log cf) p (\det (cf_sigmas cf k))^-1.
Hypothesis T0 : 0 < cf_threshold_score cf.
Hypothesis U : forall u, cf_psi_max cf = Some u -> 1 < u.
Hypothesis MI : (0 < cf_max_iter cf)%N.
Hypothesis MF : (0 < cf_max_fluctuations cf)%N.
Hypothesis EC : cf_solver cf = Cvx.

Lemma fit_cvx_ends I rnd : exists2 r, settles (fun k => fit (with_fuel cf k) A I None rnd) r &
    r = Err TypeError \/ r = Err AssertionError \/ exists x, r = Ok x.
Proof.
have U0 u : cf_psi_max cf = Some u -> 0 <= u by move=> /U Hu; apply: le_trans ler01 (ltW Hu).
have [||r [Hr Nr]] := @fit_term F p l e cf A SA NA HA PS LT T0 (cvx_ends EC) p0 U0 I None rnd _ (fun=> And4 lp e0 n0 U) => //.
  by rewrite EC.
exists r => //; have [n Hn] := Hr; have E := Hn n (leqnn n).
have [|[x Ex]|[x [Ex [Ef|[_ Ex']]]]] := @fit_no_error F p l e (with_fuel cf n) A SA NA HA p0 e0 PS n0 I rnd lp U MI MF; first by rewrite /= EC.
- by right; right; exists x; rewrite -E.
- by case: Nr; rewrite -E Ex Ef.
by case: Ex' => Ex'; [left | right; left]; rewrite -E Ex Ex'.
Qed.

Lemma fit_cvx_returns : (forall m, mA m = A -> exists B, cf_cvx cf m = Some B /\ supported A B) -> forall I rnd,
  exists x, settles (fun k => fit (with_fuel cf k) A I None rnd) (Ok x).
Proof.
move=> HC I rnd; pose ok x := x = ValueError \/ x = UnboundLocalError.
have U0 u : cf_psi_max cf = Some u -> 0 <= u by move=> /U Hu; apply: le_trans ler01 (ltW Hu).
have BE (m : model) rnd1 rnd' : mA m = A -> positive (momegas m) -> (forall a b, 0 <= mpsis m a b) ->
    exists r, settles (fun k => solve_B (with_fuel cf k) m rnd1 rnd') r /\ fine ok r.
  move=> EA Ho Hs; have [B [EB SB]] := HC m EA.
  exists (solve_B_cvx cf m); split; first by exists 0%N => k _; rewrite /solve_B /= EC.
  rewrite /solve_B_cvx inv_noise_ok //= EB; case: ifP => // /forallP; case=> i; apply/forallP => j; apply/implyP => Eij.
  have -> : B i j = 0 by apply/eqP/negPn/negP => /SB; rewrite /edge -EA; move/Z.eqb_eq: Eij.
  by rewrite normr0 invr_ge0 exprn_ge0 // ler0n.
have [//|||r [Hr Nr]] := @fit_term_ok F p l e cf A SA NA HA PS LT T0 ok BE p0 U0 I None rnd (or_introl erefl) (or_intror erefl).
- by [].
- by rewrite EC.
have [r' Hr' C] := fit_cvx_ends I rnd.
have Err : r = r'.
  have [n Hn] := Hr; have [n' Hn'] := Hr'; by rewrite -(Hn (maxn n n') (leq_maxl _ _)) -(Hn' (maxn n n') (leq_maxr _ _)).
subst r'; case: C => [E|[E|[x E]]]; try by case: (Nr _ E).
by exists x; rewrite -E.
Qed.
End Cvx.
