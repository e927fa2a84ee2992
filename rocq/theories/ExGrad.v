(** Concrete instances of the hypotheses in PropGrad.v. *)
From Coq Require Import ZArith List.
From mathcomp Require Import all_ssreflect all_algebra.
From Verif Require Import Base FieldTac GraphSpec NumSpec ScoreSpec GradSpec GraphModel NumModel ScoreModel NumProofs ScoreProofs NoErrProofs.
From Verif Require Import Run2Proofs GradProofs Grad2Proofs BsolveProofs Bsolve2Proofs Bsolve3Proofs Bsolve4Proofs Bsolve5Proofs PropGrad.
Set Implicit Arguments.
Unset Strict Implicit.
Unset Printing Implicit Defensive.
Import Order.Theory GRing.Theory Num.Theory.
Local Open Scope ring_scope.

Local Notation Q := [archiFieldType of rat].
Definition h0 : hord := ho_rev.

(** A function with the derivative of the logarithm at 1 *)
Definition lin_log (x : Q) : Q := x - 1.
Lemma lin_log_at : log_at lin_log 1.
Proof.
move=> eps e0; exists 1; rewrite ?ltr01 // => t _; rewrite /lin_log addr0 subrr subr0 invr1 mulr1.
by rewrite [1 + t]addrC addrK subrr normr0 mulr_ge0 // ltW.
Qed.

(** One variable, one latent variable, two environments with variances 2 and 1/4 *)
Definition cfa : conf Q 1 1 2 := cf2 h0 lin_log.
Definition o2' : 'M[Q]_(2, 1) := o2 Q.
Lemma o2_pos : positive o2'. Proof. by move=> i j; rewrite mxE half_gt0. Qed.
Lemma det_noise2 i : \det (noise (g2 Q) o2' o2' i) = 1.
Proof. by rewrite noiseE noise2 det1. Qed.

Example C89_ex : exists G, gamma_gradient cfa (m2 Q) (g2 Q) = Ok G /\
  gradient_at (fun g => Ok (likelihood lin_log (entailed 0 g o2' o2') (cf_sigmas cfa) (cf_n_obs cfa))) (g2 Q) G.
Proof.
apply: (C89_gamma_gradient (cf := cfa) A1_sq A1_nonneg (new2 Q h0) o2_pos) => [a b|i]; first by apply: ltW; exact: o2_pos.
by rewrite det_noise2; exact: lin_log_at.
Qed.

Example C90_ex : exists G G', rest_gradient cfa (m2 Q) [:: 0%N] (o2', o2') = Ok (G, G').
Proof.
have [G [G' [E _]]] := C90_rest_gradient (cf := cfa) [:: 0%N] A1_sq A1_nonneg (new2 Q h0) o2_pos
  (fun a b => ltW (o2_pos a b)) (fun i => eq_ind_r (log_at lin_log) lin_log_at (det_noise2 i)).
by exists G, G'.
Qed.

(** One environment with variance 3 *)
Definition cfb : conf Q 1 1 1 :=
  @Conf Q 1 1 1 lin_log h0 id (fun=> None) (fun X => (X, 0)) id (fun=> true)
    (fun i => 3%:R%:M) (fun=> 5%N) None false 1 0 0 1 0 1 Grad 1.
Definition o1 : 'M[Q]_(1, 1) := const_mx (half Q).
Definition m1 : model Q 1 1 1 := MkModel A1 0 (g2 Q) o1 o1 (1%:M - (0 : 'M[Q]_1)^T).
Lemma new1 : new_model h0 A1 0 (g2 Q) o1 o1 = Ok m1.
Proof.
case: (new_model_spec h0 (0 : 'M[Q]_1) (g2 Q) o1 o1 A1_sq A1_nonneg) => [[_ [_ ->]]//|[]].
by case; split; [exact: A1_acyclic | move=> i j; rewrite mxE eqxx].
Qed.
Lemma o1_pos : positive o1. Proof. by move=> i j; rewrite mxE half_gt0. Qed.
Lemma det_noise1 i : \det (invmx (noise (g2 Q) o1 o1 i)) = 1.
Proof.
rewrite (_ : noise _ _ _ _ = 1%:M) ?invmx1 ?det1 // noiseE.
by apply/matrixP => a b; rewrite /noise_cov /g2 trmx1 mul1mx mulmx1 !ord1 !mxE eqxx !mulr1n half2.
Qed.
Lemma log1 i : log_at lin_log (\det (invmx (noise (g2 Q) o1 o1 i))).
Proof. by rewrite det_noise1; exact: lin_log_at. Qed.

Example C91_ex : exists G, gamma_gradient cfb m1 (g2 Q) = Ok G /\ gradient_at (gamma_loss cfb m1) (g2 Q) G.
Proof. exact: (C91_gamma_loss_partial (cf := cfb) A1_sq A1_nonneg new1 o1_pos (fun a b => ltW (o1_pos a b)) log1). Qed.
Example C91_rest_ex : exists G G', rest_gradient cfb m1 [:: 0%N] (o1, o1) = Ok (G, G').
Proof.
have [G [G' [E _]]] := C91_rest_loss_partial (cf := cfb) [:: 0%N] A1_sq A1_nonneg new1 o1_pos (fun a b => ltW (o1_pos a b)) log1.
by exists G, G'.
Qed.
Example C91_refuted_ex : exists (cf : conf Q 1 1 2) m G,
  [/\ cf_log cf = lin_log, cf_h cf = h0, new_model h0 A1 0 (mgamma m) (momegas m) (mpsis m) = Ok m,
      positive (momegas m) & positive (mpsis m)] /\
  [/\ (forall i, posdef (cf_sigmas cf i)), (forall i, (0 < cf_n_obs cf i)%N), gamma_gradient cf m (mgamma m) = Ok G &
      exists s del, gamma_loss cf m (mgamma m) = Ok s /\ 0 < del /\
        forall t, 0 < t -> t < del -> exists s', gamma_loss cf m (mgamma m - t *: G) = Ok s' /\ s < s'].
Proof. exact: C91_loss_gradient_refuted lin_log_at. Qed.

(** 0 -> 1 in two environments with covariances [[25, 40], [40, 65]] and [[25, -60], [-60, 160]] *)
Definition cfc : conf Q 2 0 2 := with_fuel (cfn lin_log h0 (fun=> 7%N)) 2.
Lemma cfc_roots : exact_roots (cf_sqrtm cfc) (cf_sigmas cfc) (no_g Q) (one_o Q 2) (no_s Q 2).
Proof. by apply: em_roots; [move=> k; exact: root2_root | exact: root2_one]. Qed.
Lemma cfc_new : new_model h0 A2 0 (no_g Q) (one_o Q 2) (no_s Q 2) = Ok (em 2 0).
Proof. by apply: (em_new cfc) => i j; rewrite mxE eqxx. Qed.

Example C92_ex : exists B, solve_B_grad cfc (em 2 0) (draw Q) 0 = Ok B /\ supported A2 B /\ B 0 1 = - (2%:R / 5%:R).
Proof.
have E := draw_run lin_log h0 (fun=> 7%N) 0 (leqnn 2); exists (1%:M - tri (2%:R / 5%:R))^T; split=> //.
have [S _] := C92_grad_optimal_partial (cf := cfc) A2_sq A2_nonneg cfc_new (@one_o_pos Q 2) (@no_s_ge0 Q 2)
  (fun=> erefl) (isT : 0 < 7)%N isT cfc_roots (fun=> isT) (draw_nontrivial Q) E.
by split=> //; rewrite [LHS]mxE Bsolve2Proofs.subE tri10 mxE sub0r.
Qed.

(** The first of these environments alone *)
Definition B85 : 'M[Q]_2 := (1%:M - tri (- (8%:R / 5%:R)))^T.
Definition cfd : conf Q 2 0 1 :=
  Conf lin_log h0 (root2 (F := Q)) (fun=> Some B85) (fun X => (X, 0)) id (fun=> true) (fun=> sgm Q 0) (fun=> 7%N) None false 1 0 0 1 0 1 Grad 1.
Lemma cfd_roots : exact_roots (cf_sqrtm cfd) (cf_sigmas cfd) (no_g Q) (one_o Q 1) (no_s Q 1).
Proof. by apply: em_roots; [move=> k; exact: root2_root | exact: root2_one]. Qed.
Lemma cfd_new : new_model h0 A2 0 (no_g Q) (one_o Q 1) (no_s Q 1) = Ok (em 1 0).
Proof. by apply: (em_new cfd) => i j; rewrite mxE eqxx. Qed.

Example C93_ex : exists n B, forall fuel, (n <= fuel)%N ->
  solve_B_grad (with_fuel cfd fuel) (em 1 0) (draw Q) 0 = Ok B.
Proof.
apply: (C93_grad_terminates_partial (cf := cfd) (draw Q) 0 A2_sq A2_nonneg cfd_new (@one_o_pos Q 1) (@no_s_ge0 Q 1)
  isT cfd_roots (fun=> isT)).
by rewrite big_ord1 noise_one' invmx1 mxtrace1 /mxtrace sum2 sgm_a sgm_c0.
Qed.

Section Unfold.
Variables (F : realFieldType) (p l e : nat) (cf : conf F p l e) (Ms : 'I_e -> 'M[F]_p) (A : mat) (lik : 'M[F]_p -> res F).
Lemma adaptive_go k lr cur cs nxt ns d : pattern A (cur - lr *: Nmul cf Ms cur) = nxt -> lik nxt = Ok ns -> (cs < ns) = false ->
  amax (cur - nxt) = Ok d -> (d < (10%:R ^+ 5)^-1) = false ->
  adaptive_loop cf k.+1 lik Ms A lr cur cs = adaptive_loop cf k lik Ms A lr nxt ns.
Proof. by move=> /= -> -> /= -> -> /= ->. Qed.
Lemma adaptive_stop k lr cur cs nxt ns d : pattern A (cur - lr *: Nmul cf Ms cur) = nxt -> lik nxt = Ok ns -> (cs < ns) = false ->
  amax (cur - nxt) = Ok d -> (d < (10%:R ^+ 5)^-1) = true ->
  adaptive_loop cf k.+1 lik Ms A lr cur cs = Ok cur.
Proof. by move=> /= -> -> /= -> -> /= ->. Qed.
End Unfold.

(** Unit covariance: the learning rate 1 leads from x = 1/2 to x = 0 *)
Section Unit.
Variables (F : realFieldType) (log : F -> F).
Add Field ff : (fieldT F).
Definition cfe (k : nat) : conf F 2 0 1 :=
  Conf log h0 id (fun=> None) (fun X => (X, 0)) id (fun=> true) (fun=> 1%:M) (fun=> 1%N) None false 1 0 0 1 0 1 Adaptive k.
Lemma cfe_root k (i : 'I_1) : sqrt_of (cf_sqrtm (cfe k) (cf_sigmas (cfe k) i)) (cf_sigmas (cfe k) i).
Proof. by split; rewrite /= ?trmx1 ?mulmx1. Qed.
Lemma cfe_slope k (x y : F) : slope10 (cfe k) x y = x.
Proof. by rewrite /slope10 big_ord1 /= !mxE /= mulr1n mulr1 mulr0n mulr0 addr0. Qed.
Example C94_ex k : (2 <= k)%N -> solve_B_adaptive (cfe k) (em 1 0) (draw F) = Ok 0.
Proof.
move=> Hk; rewrite /solve_B_adaptive; have [Ms -> HM] := em_inv 1 (0 : 'M[F]_2); rewrite [bind (Ok _) _]/=.
have step (x : F) : pattern A2 (tri x - 1 *: Nmul (cfe k) Ms (tri x)) = tri 0.
  by rewrite (step_tri (cf := cfe k) (cfe_root k) erefl HM) cfe_slope mul1r subrr.
pose sc (x : F) := - log 1 + qd x 1%:M.
have lik x : bind (new_model h0 A2 (1%:M - tri x)^T (no_g F) (one_o F 1) (no_s F 1)) (mscore (cfe k)) = Ok (sc x).
  rewrite (lik_tri (cf := cfe k) (cfe_root k)); congr Ok; rewrite big_ord1 (_ : (\sum_(i < 1) _)%N = 1%N) ?big_ord1 //.
  by rewrite expr1n divr1 mul1r.
have scE x : sc x = - log 1 + (1 + (x * x + 1)).
  by rewrite /sc /qd !mxE /= !mulr1n mulr0n mulr0 addr0 !mulr1.
have sc0 x : (sc x < sc 0) = false.
  by rewrite !scE mulr0 !ltr_add2l ltr_add2r ltNge -expr2 sqr_ge0.
have H0 : (0 < (10%:R ^+ 5)^-1 :> F) by rewrite invr_gt0 exprn_gt0 ?ltr0n.
have N0 : 0 <= (10%:R ^+ 5)^-1 :> F := ltW H0.
have N1 : (10%:R ^+ 5)^-1 < 2%:R^-1 :> F.
  rewrite ltf_pinv ?posrE ?ltr0n ?exprn_gt0 ?ltr0n // -natrX ltr_nat.
  by apply: leq_trans (_ : 10 ^ 1 <= _)%N => //; rewrite leq_pexp2l.
rewrite pattern_tri lik; rewrite [bind (Ok _) _]/=.
have [d Ed] := amax_ok (isT : 0 < 2)%N (tri (draw F 1 0) - tri 0).
have dF : (d < (10%:R ^+ 5)^-1) = false.
  apply/negbTE; rewrite -leNgt; apply: ltW; apply/(amax_gt Ed N0); exists 1, 0.
  by rewrite Bsolve2Proofs.subE !tri10 subr0 mxE /= gtr0_norm ?invr_gt0 ?ltr0n.
have [d' Ed'] := amax_ok (isT : 0 < 2)%N (tri (0 : F) - tri 0).
have dT : (d' < (10%:R ^+ 5)^-1) = true.
  apply: le_lt_trans H0; rewrite leNgt; apply/negP => /(amax_gt Ed' (lexx _)) [i [j]].
  by rewrite subrr mxE normr0 ltxx.
case: k Hk step lik => [|[|k]] // _ step lik.
rewrite (adaptive_go _ (step _) (lik 0) (sc0 _) Ed dF).
rewrite (adaptive_stop _ (step _) (lik 0) (sc0 _) Ed' dT) /=; congr Ok; apply/matrixP => i j.
by rewrite [LHS]mxE Bsolve2Proofs.subE [1%:M _ _]mxE [tri _ _ _]mxE [RHS]mxE; case: eqP => _; rewrite ?subrr ?if_same ?subr0.
Qed.
End Unit.

Lemma supported_shape (B : 'M[Q]_2) : supported A2 B -> B = (1%:M - tri (- B 0 1))^T.
Proof.
move=> S; apply/matrixP => i j; rewrite [RHS]mxE Bsolve2Proofs.subE [1%:M _ _]mxE [tri _ _ _]mxE.
have Z := supported_B2 S.
case: (two i) => ->; case: (two j) => -> /=; rewrite ?subrr ?subr0 ?sub0r ?opprK //; apply: Z => /=; by [left|right].
Qed.

Lemma solve_cvx_ok (F : realFieldType) (p l e : nat) (cf : conf F p l e) m B Ms : inv_noise m = Ok Ms -> cf_cvx cf m = Some B ->
  supported (mA m) B -> solve_B_cvx cf m = Ok B.
Proof.
move=> EM EB SB; rewrite /solve_B_cvx EM /= EB.
have Z (i j : 'I_p) : Z.eqb (get (mA m) i j) Z0 -> B i j = 0.
  by move/Z.eqb_spec => E; apply/eqP; apply: contraT => /SB; rewrite /edge E.
have -> : [forall i : 'I_p, forall j : 'I_p, Z.eqb (get (mA m) i j) Z0 ==> (`|B i j| <= (10%:R ^+ 8)^-1)].
  apply/forallP => i; apply/forallP => j; apply/implyP => /Z ->.
  by rewrite normr0 invr_ge0 exprn_ge0 ?ler0n.
by congr Ok; apply/matrixP => i j; rewrite mxE; case: ifP => // /Z.
Qed.

Section Square.
Variable F : realFieldType.
Add Field ff3 : (fieldT F).
Lemma qd0_min (x : F) : qd (- (8%:R / 5%:R)) (sgm F 0) <= qd x (sgm F 0).
Proof.
have Q (y : F) : qd y (sgm F 0) = (5%:R * y + 8%:R) ^+ 2 + (25%:R + 65%:R - 8%:R * 8%:R).
  rewrite qd0; have -> : 25%:R = 5%:R * 5%:R :> F by rewrite -natrM.
  have -> : 80%:R = 10%:R * 8%:R :> F by rewrite -natrM.
  move: (65%:R : F) => c; nums; by rg F.
rewrite !Q ler_add2r mulrN mulrC divfK ?pnatr_eq0 // addNr expr0n /=; exact: sqr_ge0.
Qed.
End Square.

Example C95_ex : supported A2 B85 /\ forall B', supported A2 B' ->
    likelihood lin_log (entailed B85 (no_g Q) (one_o Q 1) (no_s Q 1)) (cf_sigmas cfd) (cf_n_obs cfd) <=
    likelihood lin_log (entailed B' (no_g Q) (one_o Q 1) (no_s Q 1)) (cf_sigmas cfd) (cf_n_obs cfd).
Proof.
apply: (C95_cvx_optimal (cf := cfd) A2_sq A2_nonneg cfd_new (@one_o_pos Q 1) (@no_s_ge0 Q 1) cfd_roots).
  move=> B1 [<-]; split; first exact: supported_tri.
  move=> B' /supported_shape ->; rewrite !cvx_obj; try exact: cfd_roots.
  rewrite !(res_tri (cf := cfd) (fun=> root2_root _ 0)) !big_ord1 ler_pmul2l; last by [].
  exact: qd0_min.
by have [Ms E _] := em_inv 1 (0 : 'M[Q]_2); apply: (solve_cvx_ok E) => //; exact: supported_tri.
Qed.
