(** The solvers for B and the likelihood. *)
From Coq Require Import ZArith.
From mathcomp Require Import all_ssreflect all_algebra all_fingroup.
From Verif Require Import Base FieldTac GraphModel GraphSpec NumModel NumSpec LinAlgProofs NumProofs ScoreModel ScoreSpec ScoreProofs.
From Verif Require Import NoErrProofs GradSpec DerivProofs Deriv2Proofs GradProofs BsolveProofs Bsolve2Proofs.
Set Implicit Arguments.
Unset Strict Implicit.
Unset Printing Implicit Defensive.
Import Order.Theory GRing.Theory Num.Theory.
Local Open Scope ring_scope.

Section Top.
Variables (F : realFieldType) (p l e : nat) (cf : conf F p l e).
Add Field ff : (fieldT F).
Local Notation sg := (cf_sigmas cf).

(** The roots computed by scipy.linalg.sqrtm are symmetric square roots. *)
Definition roots (Ms : 'I_e -> 'M[F]_p) : Prop :=
  forall k, sqrt_of (cf_sqrtm cf (sg k)) (sg k) /\ sqrt_of (cf_sqrtm cf (Ms k)) (Ms k).

Lemma IB_inv (X : 'M[F]_p) : 1%:M - ((1%:M - X)^T)^T = X.
Proof. by rewrite trmxK opprB addrC subrK. Qed.

Lemma grad_optimal m Ms rnd rnd' B : acyclic (mA m) -> inv_noise m = Ok Ms -> roots Ms ->
  (forall X, cf_finite cf X) -> nontrivial rnd -> solve_B_grad cf m rnd rnd' = Ok B ->
  supported (mA m) B /\ forall B', supported (mA m) B' ->
    residuals (fun=> 1) Ms sg B <= residuals (fun=> 1) Ms sg B' +
      2%:R * ((200%:R + (\sum_k \tr (Ms k) * \tr (sg k)) * (p * p)%:R) * (10%:R ^+ 10)^-1) * \sum_i \sum_j `|B' i j - B i j|.
Proof.
move=> HA EM R fin NT; rewrite /solve_B_grad EM /=; case E: grad_loop => [r|] //=.
have RS k := proj1 (R k); have RM k := proj2 (R k).
have lr0 : 0 < 5%:R / 1000%:R :> F by rewrite divr_gt0 ?ltr0n.
have [R2 [P1 H]] := grad_near_optimal RS RM fin 0 lr0 NT E.
rewrite fin R2 lr0 /= => -[<-]; split.
  by have := @pattern_supported F p (mA m) r.1; rewrite P1.
move=> B' SB'; rewrite !residualsE // IB_inv.
apply: le_trans (H _ (supported_pattern HA SB')) _; rewrite ler_add2l.
have -> : (5%:R / 1000%:R)^-1 = 200%:R :> F.
  by rewrite invf_div -[1000%N]/(200 * 5)%N natrM mulfK // pnatr_eq0.
rewrite le_eqVlt; apply/orP; left; apply/eqP; congr (_ * _).
rewrite exchange_big; apply: eq_bigr => i _; apply: eq_bigr => j _; rewrite !mxE eq_sym.
rewrite -[LHS]normrN; congr (`| _ |); move: (B' i j) (r.1 j i) ((i == j)%:R : F) => x y z; by rg F.
Qed.

(** The likelihood as a function of B. *)
Lemma lik_residuals (B : 'M[F]_p) (g : 'M[F]_(l, p)) (o : 'M[F]_(e, p)) (s : 'M[F]_(e, l)) :
  \det (1%:M - B^T) = 1 -> (forall k, noise g o s k \in unitmx) ->
  likelihood (cf_log cf) (entailed B g o s) sg (cf_n_obs cf) =
  (\sum_k (cf_n_obs cf k)%:R * cf_log cf (\det (noise g o s k))) / (\sum_i cf_n_obs cf i)%N%:R +
  residuals (fun k => (cf_n_obs cf k)%:R / (\sum_i cf_n_obs cf i)%N%:R) (fun k => invmx (noise g o s k)) sg B.
Proof.
move=> UB U; rewrite /likelihood /residuals mulr_suml [X in _ = X + _]mulr_suml -big_split /=.
apply: eq_bigr => k _; rewrite mulrDr mulrDl; congr (_ + _).
  by rewrite /entailed !det_mulmx det_tr det_Q // mul1r mulr1.
rewrite /entailed inv_cov // mulrAC; congr (_ * _).
by rewrite -!mulmxA mxtrace_mulC !mulmxA.
Qed.

Variables (A : mat) (B0 : 'M[F]_p) (g : 'M[F]_(l, p)) (o : 'M[F]_(e, p)) (s : 'M[F]_(e, l)) (m : model F p l e).
Hypothesis SA : square p A.
Hypothesis NA : nonneg A.
Hypothesis Em : new_model (cf_h cf) A B0 g o s = Ok m.
Hypothesis Ho : positive o.
Hypothesis Hs : forall a b, 0 <= s a b.

Lemma noise_unit k : noise g o s k \in unitmx.
Proof. by rewrite noiseE; apply/posdef_unit/posdef_noise => j; rewrite mxE. Qed.
Lemma model_inv : inv_noise m = Ok (fun k => invmx (noise_cov g o s k)).
Proof. by case: (new_model_ok SA NA Em) => _ _ ->; apply: inv_noise_ok. Qed.
Local Notation model_roots := (exact_roots (cf_sqrtm cf) sg g o s).
Lemma model_rootsE : model_roots -> roots (fun k => invmx (noise_cov g o s k)).
Proof. by move=> H k; rewrite -noiseE; apply: H. Qed.
Lemma residuals_noise w B : residuals w (fun k => invmx (noise g o s k)) sg B = residuals w (fun k => invmx (noise_cov g o s k)) sg B.
Proof. by apply: eq_bigr => k _; rewrite noiseE. Qed.
Lemma residuals_scale (c : F) M B : residuals (fun=> c) M sg B = c * residuals (fun=> 1) M sg B.
Proof. by rewrite /residuals mulr_sumr; apply: eq_bigr => k _; rewrite mul1r. Qed.

(** C92, equal sample sizes *)
Lemma grad_likelihood n rnd rnd' B : (forall k, cf_n_obs cf k = n) -> (0 < n)%N -> (0 < e)%N -> model_roots ->
  (forall X, cf_finite cf X) -> nontrivial rnd -> solve_B_grad cf m rnd rnd' = Ok B ->
  supported A B /\ forall B', supported A B' ->
    likelihood (cf_log cf) (entailed B g o s) sg (cf_n_obs cf) <= likelihood (cf_log cf) (entailed B' g o s) sg (cf_n_obs cf) +
      2%:R / e%:R * (200%:R + (\sum_k \tr (invmx (noise g o s k)) * \tr (sg k)) * (p * p)%:R) * (10%:R ^+ 10)^-1 *
      \sum_i \sum_j `|B' i j - B i j|.
Proof.
move=> En n0 e0 R fin NT E; have [HA _ EM] := new_model_ok SA NA Em.
have HA' : acyclic (mA m) by rewrite EM.
have [SB H] := grad_optimal (m := m) HA' model_inv (model_rootsE R) fin NT E.
move: SB H; rewrite EM /= => SB H; split=> // B' SB'.
have w k : (cf_n_obs cf k)%:R / (\sum_i cf_n_obs cf i)%N%:R = e%:R^-1 :> F.
  rewrite (eq_bigr (fun=> n)) // sum_nat_const card_ord En natrM invfM mulrCA mulfV ?mulr1 // pnatr_eq0 -lt0n //.
have rw X : residuals (fun k => (cf_n_obs cf k)%:R / (\sum_i cf_n_obs cf i)%N%:R) (fun k => invmx (noise g o s k)) sg X =
    e%:R^-1 * residuals (fun=> 1) (fun k => invmx (noise_cov g o s k)) sg X.
  by rewrite residuals_noise -residuals_scale; apply: eq_bigr => k _; rewrite w.
rewrite !lik_residuals ?(det_sub_dag HA) //; try exact: noise_unit.
rewrite !rw -addrA ler_add2l.
have e1 : 0 < e%:R^-1 :> F by rewrite invr_gt0 ltr0n.
apply: le_trans (ler_wpmul2l (ltW e1) (H B' SB')) _.
rewrite [X in X <= _]mulrDr ler_add2l le_eqVlt; apply/orP; left; apply/eqP.
under [in RHS]eq_bigr do rewrite noiseE.
move: (\sum_k _ * _) (\sum_i \sum_j _) ((10%:R ^+ 10)^-1) (e%:R^-1) (2%:R : F) (200%:R : F) ((p * p)%:R : F) => x1 x2 x3 x4 x5 x6 x7.
by rg F.
Qed.

Lemma cvx_obj X : model_roots -> cvx_objective cf (fun k => invmx (noise g o s k)) X =
  residuals (fun k => (cf_n_obs cf k)%:R / (\sum_i cf_n_obs cf i)%N%:R) (fun k => invmx (noise g o s k)) sg X.
Proof.
move=> R; rewrite /cvx_objective mulr_suml; apply: eq_bigr => k _; rewrite -mulrA mulrC; congr (_ * _).
have [R1 R2] := R k; rewrite (quad_sqrt _ _ R2 R1) /inner; apply: eq_bigr => i _; apply: eq_bigr => j _.
by rewrite expr2.
Qed.

(** C95 *)
Lemma cvx_likelihood B : model_roots ->
  (forall B1, cf_cvx cf m = Some B1 -> supported A B1 /\
     forall B', supported A B' -> cvx_objective cf (fun k => invmx (noise g o s k)) B1 <=
                                  cvx_objective cf (fun k => invmx (noise g o s k)) B') ->
  solve_B_cvx cf m = Ok B ->
  supported A B /\ forall B', supported A B' ->
    likelihood (cf_log cf) (entailed B g o s) sg (cf_n_obs cf) <= likelihood (cf_log cf) (entailed B' g o s) sg (cf_n_obs cf).
Proof.
move=> R Hc; have [HA _ EM] := new_model_ok SA NA Em.
rewrite /solve_B_cvx model_inv /=; case Ec: (cf_cvx cf m) => [B1|] //; case: ifP => // _ [<-].
have [SB1 H] := Hc _ Ec.
have -> : \matrix_(i, j) (if Z.eqb (get (mA m) i j) Z0 then 0 else B1 i j) = B1.
  apply/matrixP => i j; rewrite mxE; case: Z.eqb_spec => // Z; apply/esym/eqP; apply: contraT => /SB1 /=.
  by move: Z; rewrite EM /edge => /= ->.
split=> // B' SB'.
by rewrite !lik_residuals ?(det_sub_dag HA) ?ler_add2l -?cvx_obj ?H //; try exact: noise_unit.
Qed.
End Top.

Section TopTerm.
Variables (F : archiFieldType) (p l e : nat) (cf : conf F p l e).
Local Notation sg := (cf_sigmas cf).

Lemma grad_loop_with (G : realFieldType) (c : conf G p l e) k fuel Ms A init lr B X :
  grad_loop (with_fuel c k) fuel Ms A init lr B X = grad_loop c fuel Ms A init lr B X.
Proof. by elim: fuel lr B X => [|fuel IH] lr B X //=; case: (amax _) => [d|] //=; rewrite !IH. Qed.

(** C93 *)
Lemma grad_terminates m Ms rnd rnd' : (0 < p)%N -> inv_noise m = Ok Ms -> roots cf Ms -> (forall X, cf_finite cf X) ->
  5%:R / 1000%:R * (\sum_k \tr (Ms k) * \tr (sg k)) < 2%:R ->
  exists n B, forall fuel, (n <= fuel)%N -> solve_B_grad (with_fuel cf fuel) m rnd rnd' = Ok B.
Proof.
move=> p0 EM R fin S; have RS k := proj1 (R k); have RM k := proj2 (R k).
have lr0 : 0 < 5%:R / 1000%:R :> F by rewrite divr_gt0 ?ltr0n.
have [n [r Hr]] := grad_loop_term (mA m) RS RM fin p0 lr0 S rnd.
have R2 : r.2 = 5%:R / 1000%:R.
  have : forall fuel B X r, grad_loop cf fuel Ms (mA m) rnd (5%:R / 1000%:R) B X = Ok r -> r.2 = 5%:R / 1000%:R.
    elim=> [|k IH] B X q /=; case: (amax _) => [d|] //=; case: ifP => // _; first by case=> <-.
      by rewrite gt_eqF // fin /=; apply: IH.
    by case=> <-.
  by move=> Q; apply: Q (Hr _ (leqnn _)).
exists n, (1%:M - r.1)^T => fuel Hf; rewrite /solve_B_grad EM /= grad_loop_with Hr //= fin R2 lr0 //.
Qed.
End TopTerm.
