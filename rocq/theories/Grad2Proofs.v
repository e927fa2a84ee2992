(** The gradients of the solvers compared with the loss. *)
From Coq Require Import ZArith.
From mathcomp Require Import all_ssreflect all_algebra all_fingroup.
From Verif Require Import Base FieldTac GraphModel GraphSpec NumModel NumSpec LinAlgProofs NumProofs ScoreModel ScoreSpec.
From Verif Require Import GradSpec DerivProofs Deriv2Proofs GradProofs.
Set Implicit Arguments.
Unset Strict Implicit.
Unset Printing Implicit Defensive.
Import Order.Theory GRing.Theory Num.Theory.
Local Open Scope ring_scope.

Section Loss.
Variables (F : realFieldType) (p l e : nat) (cf : conf F p l e).
Implicit Types (gamma : 'M[F]_(l, p)) (omegas : 'M[F]_(e, p)) (psis : 'M[F]_(e, l)).
Local Notation tot := ((\sum_i cf_n_obs cf i)%N%:R : F).

Lemma gamma_loss_deriv A (B : 'M[F]_p) gamma0 omegas psis m gamma H :
  square p A -> nonneg A -> new_model (cf_h cf) A B gamma0 omegas psis = Ok m ->
  positive omegas -> (forall a b, 0 <= psis a b) ->
  (forall i, log_at (cf_log cf) (\det (invmx (noise gamma omegas psis i)))) ->
  deriv_along (fun t => gamma_loss cf m (gamma + t *: H))
    (\sum_i (cf_n_obs cf i)%:R * slope cf B gamma omegas psis i
       (H^T *m diag_mx (row i psis) *m gamma + gamma^T *m diag_mx (row i psis) *m H) / tot ^+ (e - i)).
Proof.
move=> SA NA /new_model_ok [] // HA HB -> Ho Hp L.
pose ms t : model F p l e := MkModel A B (gamma + t *: H) omegas psis (1%:M - B^T).
have P i : posdef (noise_cov gamma omegas psis i) by apply: posdef_noise => j; rewrite mxE.
have Z : gamma + 0 *: H = gamma by rewrite scale0r addr0.
have [||||f [Nf Df]] := @deriv_loss F p l e cf B ms
    (fun i => H^T *m diag_mx (row i psis) *m gamma + gamma^T *m diag_mx (row i psis) *m H).
- by [].
- by move=> i; apply: noise_gamma.
- by move=> i; rewrite /mnoise /= Z; apply/posdef_unit/P.
- by move=> i; rewrite /mnoise /= Z -noiseE.
exists f; split; last by move: Df; rewrite /= Z.
have [del Hd K] := Nf; exists del => // t Ht; rewrite /gamma_loss /=.
by case: (new_model_spec (cf_h cf) B (gamma + t *: H) omegas psis SA NA) => [[_ [_ ->]]|[[]]] //=; apply: K.
Qed.

Lemma rest_loss_deriv A (B : 'M[F]_p) gamma o0 s0 m omegas psis H H' :
  square p A -> nonneg A -> new_model (cf_h cf) A B gamma o0 s0 = Ok m ->
  positive omegas -> (forall a b, 0 <= psis a b) ->
  (forall i, log_at (cf_log cf) (\det (invmx (noise gamma omegas psis i)))) ->
  deriv_along (fun t => rest_loss cf m (omegas + t *: H, psis + t *: H'))
    (\sum_i (cf_n_obs cf i)%:R * slope cf B gamma omegas psis i
       (gamma^T *m diag_mx (row i H') *m gamma + diag_mx (row i H)) / tot ^+ (e - i)).
Proof.
move=> SA NA /new_model_ok [] // HA HB -> Ho Hp L.
pose ms t : model F p l e := MkModel A B gamma (omegas + t *: H) (psis + t *: H') (1%:M - B^T).
have P i : posdef (noise_cov gamma omegas psis i) by apply: posdef_noise => j; rewrite mxE.
have Z : omegas + 0 *: H = omegas by rewrite scale0r addr0.
have Z' : psis + 0 *: H' = psis by rewrite scale0r addr0.
have [||||f [Nf Df]] := @deriv_loss F p l e cf B ms
    (fun i => gamma^T *m diag_mx (row i H') *m gamma + diag_mx (row i H)).
- by [].
- by move=> i; apply: noise_rest.
- by move=> i; rewrite /mnoise /= Z Z'; apply/posdef_unit/P.
- by move=> i; rewrite /mnoise /= Z Z' -noiseE.
exists f; split; last by move: Df; rewrite /= Z Z'.
have [del Hd K] := Nf; exists del => // t Ht; rewrite /rest_loss /=.
by case: (new_model_spec (cf_h cf) B gamma (omegas + t *: H) (psis + t *: H') SA NA) => [[_ [_ ->]]|[[]]] //=; apply: K.
Qed.
End Loss.

Section One.
Variables (F : realFieldType) (p l : nat) (cf : conf F p l 1).
Implicit Types (gamma : 'M[F]_(l, p)) (omegas : 'M[F]_(1, p)) (psis : 'M[F]_(1, l)).

Lemma gamma_gradient_one A (B : 'M[F]_p) gamma0 omegas psis m gamma :
  square p A -> nonneg A -> new_model (cf_h cf) A B gamma0 omegas psis = Ok m ->
  positive omegas -> (forall a b, 0 <= psis a b) ->
  (forall i, log_at (cf_log cf) (\det (invmx (noise gamma omegas psis i)))) ->
  exists G, gamma_gradient cf m gamma = Ok G /\ gradient_at (gamma_loss cf m) gamma G.
Proof.
move=> SA NA E Ho Hp L; have [G [EG HG]] := gamma_gradient_inner gamma SA NA E Ho Hp.
exists G; split=> // H; have := gamma_loss_deriv H SA NA E Ho Hp L.
by rewrite HG !big_ord1 subn0 expr1.
Qed.

Lemma rest_gradient_one A (B : 'M[F]_p) gamma o0 s0 m (I : seq nat) omegas psis :
  square p A -> nonneg A -> new_model (cf_h cf) A B gamma o0 s0 = Ok m ->
  positive omegas -> (forall a b, 0 <= psis a b) ->
  (forall i, log_at (cf_log cf) (\det (invmx (noise gamma omegas psis i)))) ->
  exists G G', rest_gradient cf m I (omegas, psis) = Ok (G, G') /\
    forall H H', deriv_along (fun t => rest_loss cf m (omegas + t *: H, psis + t *: H')) (inner G H + inner G' H').
Proof.
move=> SA NA E Ho Hp L; have [G [G' [EG [_ HG]]]] := rest_gradient_inner I SA NA E Ho Hp.
exists G, G'; split=> // H H'; have := rest_loss_deriv H H' SA NA E Ho Hp L.
rewrite HG; last by split=> [j _|_ j _] i i'; rewrite !ord1.
by rewrite !big_ord1 subn0 expr1.
Qed.
End One.

(** * Two environments *)
Section Two.
Variables (F : realFieldType) (h : hord) (log : F -> F).
Hypothesis L1 : log_at log 1.
Add Field ff : (fieldT F).

Lemma deriv_pos (f : F -> F) d : has_deriv f d -> 0 < d -> exists2 del, 0 < del & forall t, 0 < t -> t < del -> f 0 < f t.
Proof.
move=> Hf Hd; have d2 : 0 < d / 2%:R by rewrite divr_gt0 ?ltr0n.
have [del Hdel K] := Hf _ d2; exists del => // t t0 td.
have := K t; rewrite gtr0_norm // => /(_ td); rewrite ler_norml => /andP [H _].
move: H; rewrite -subr_ge0 opprK => H.
rewrite -subr_gt0; apply: lt_le_trans (_ : 0 < t * d / 2%:R) _; first by rewrite divr_gt0 ?mulr_gt0 ?ltr0n.
rewrite -subr_ge0; apply: le_trans H _; rewrite le_eqVlt; apply/orP; left; apply/eqP.
rewrite -[t * d / _]mulrA; have -> : t * d = t * (d / 2%:R + d / 2%:R) by rewrite -splitr.
move: (d / 2%:R) (f t) (f 0) => x y z; by rg F.
Qed.

Definition half : F := 2%:R^-1.
Definition cf2 : conf F 1 1 2 :=
  @Conf F 1 1 2 log h id (fun=> None) (fun X => (X, 0)) id (fun=> true)
    (fun i => (if i == 0 then 2%:R else half * half)%:M) (fun=> 1%N) None false 1 0 0 1 0 1 Grad 1.
Definition g2 : 'M[F]_(1, 1) := 1%:M.
Definition o2 : 'M[F]_(2, 1) := const_mx half.
Lemma half_gt0 : 0 < half. Proof. by rewrite invr_gt0 ltr0n. Qed.
Lemma half2 : half + half = 1. Proof. by have := splitr (1 : F); rewrite !mul1r. Qed.
Lemma one_two : 1 - 2%:R = - 1 :> F. Proof. by rewrite -[2%:R]/(1 + 1) opprD addrA subrr add0r. Qed.
Lemma num_a : (1 - 2%:R + (1 - half * half)) * half = - (half * half * half).
Proof. rewrite one_two; move: half => x; by rg F. Qed.
Lemma num_b : half * half * half * (1 - 2%:R) / (2%:R * 2%:R) + half * half * half * (1 - half * half) / 2%:R =
  half * half * half * (half * half * half).
Proof.
rewrite one_two invfM -/half.
transitivity (- (half * half * half * half * half * (half + half)) +
  (half * half * half * half * (half + half) * (half + half) - half * half * half * half * half * half)).
  by rewrite half2; move: half => x; rg F.
by move: half => x; rg F.
Qed.
Lemma noise2 i : noise_cov g2 o2 o2 i = 1%:M.
Proof.
apply/matrixP => a b; rewrite /noise_cov /g2 trmx1 mul1mx mulmx1 !ord1 !mxE eqxx !mulr1n; exact: half2.
Qed.
Definition m2 : model F 1 1 2 := MkModel A1 0 g2 o2 o2 (1%:M - (0 : 'M[F]_1)^T).
Lemma new2 : new_model h A1 0 g2 o2 o2 = Ok m2.
Proof.
case: (new_model_spec h (0 : 'M[F]_1) g2 o2 o2 A1_sq A1_nonneg) => [[_ [_ ->]]//|[]].
by case; split; [exact: A1_acyclic | move=> i j; rewrite mxE eqxx].
Qed.

Lemma slope2 i (H : 'M[F]_(1, 1)) : slope cf2 0 g2 o2 o2 i
    (H^T *m diag_mx (row i o2) *m g2 + g2^T *m diag_mx (row i o2) *m H) = H 0 0 * (1 - cf_sigmas cf2 i 0 0).
Proof.
have -> : diag_mx (row i o2) = half%:M by apply/matrixP => a b; rewrite !ord1 !mxE eqxx.
have -> : H^T = H by apply/matrixP => a b; rewrite !ord1 mxE.
rewrite /slope noise2 invmx1 /g2 trmx1 !mulmx1 !mul1mx mul_mx_scalar mul_scalar_mx -scalerDl half2 scale1r.
rewrite /Nk trmx0 subr0 trmx1 mul1mx !mulmx1 /mxtrace !big_ord1 mxE big_ord1 mulrBr mulr1.
by rewrite [H 0 0 * _]mulrC.
Qed.

Lemma gradient_loss_two : exists (cf : conf F 1 1 2) m G,
  [/\ cf_log cf = log, cf_h cf = h, new_model h A1 0 (mgamma m) (momegas m) (mpsis m) = Ok m,
      positive (momegas m) & positive (mpsis m)] /\
  [/\ (forall i, posdef (cf_sigmas cf i)), (forall i, (0 < cf_n_obs cf i)%N), gamma_gradient cf m (mgamma m) = Ok G &
      exists s del, gamma_loss cf m (mgamma m) = Ok s /\ 0 < del /\
        forall t, 0 < t -> t < del -> exists s', gamma_loss cf m (mgamma m - t *: G) = Ok s' /\ s < s'].
Proof.
have Po : positive o2 by move=> i j; rewrite mxE half_gt0.
have Pp a b : 0 <= o2 a b by apply: ltW.
have [G [EG HG]] := gamma_gradient_inner (cf := cf2) g2 A1_sq A1_nonneg new2 Po Pp.
have tot2 : (\sum_i cf_n_obs cf2 i)%N = 2%N by rewrite !big_ord_recl big_ord0.
have S0 : cf_sigmas cf2 0 0 0 = 2%:R by rewrite /= mxE eqxx mulr1n.
have S1 : cf_sigmas cf2 1 0 0 = half * half by rewrite /= mxE eqxx mulr1n.
have e1 : lift ord0 ord0 = 1 :> 'I_2 by apply/val_inj.
exists cf2, m2, G; split; first by split=> //; exact: new2.
have GE : G 0 0 = - (half * half * half).
  have := HG 1%:M; rewrite /inner !big_ord1 mxE eqxx mulr1 => ->.
  rewrite tot2 big_ord_recl big_ord1 !slope2 e1 S0 S1 /= !mxE eqxx !mul1r -/half.
  exact: num_a.
have D := gamma_loss_deriv (cf := cf2) (- G) A1_sq A1_nonneg new2 Po Pp.
split=> //.
- move=> i /=; split; first by rewrite tr_scalar_mx.
  move=> v Nv; rewrite mul_mx_scalar -scalemxAl mxE; apply: mulr_gt0.
    by case: ifP => _; [exact: ltr0n | rewrite mulr_gt0 // half_gt0].
  rewrite mxE big_ord1 mxE -expr2 exprn_even_gt0 //=; apply: contra Nv => /eqP V0.
  by apply/eqP/matrixP => a b; rewrite !ord1 V0 mxE.
have [i|f [[del Hd K] Df]] := D g2.
  by rewrite noiseE noise2 invmx1 det1.
have P : 0 < \sum_i (cf_n_obs cf2 i)%:R * slope cf2 0 g2 o2 o2 i
       ((- G)^T *m diag_mx (row i o2) *m g2 + g2^T *m diag_mx (row i o2) *m (- G)) / (\sum_i cf_n_obs cf2 i)%N%:R ^+ (2 - i).
  rewrite tot2 big_ord_recl big_ord1 !slope2 e1 S0 S1 mxE GE opprK !mul1r.
  rewrite subn0 /= !exprS !expr0 !mulr1 num_b; by rewrite !mulr_gt0 ?half_gt0.
have [del' Hd' Q] := deriv_pos Df P.
exists (f 0), (Num.min del del'); split.
  by rewrite -[mgamma m2]addr0 -(scale0r (- G)); apply: K; rewrite normr0.
split; first by rewrite lt_minr Hd.
move=> t t0; rewrite lt_minr => /andP [T1 T2]; exists (f t); split; last exact: Q.
by rewrite -scalerN; apply: K; rewrite gtr0_norm.
Qed.
End Two.
