(** The score at the population covariances. *)
From Coq Require Import ZArith.
From mathcomp Require Import all_ssreflect all_algebra all_fingroup.
From Verif Require Import Base FieldTac GraphSpec NumSpec GradSpec OptSpec GraphModel NumModel LinAlgProofs NumProofs NoErrProofs GradProofs.
From Verif Require Import OptProofs.
Set Implicit Arguments.
Unset Strict Implicit.
Unset Printing Implicit Defensive.
Import Order.Theory GRing.Theory Num.Theory.
Local Open Scope ring_scope.

Section LogLike.
Variable F : realFieldType.
Variable log : F -> F.
Hypothesis L : log_like log.
Add Field ffC : (fieldT F).

Lemma log1 : log 1 = 0.
Proof.
have := L.1 1 1 ltr01 ltr01; rewrite mulr1 => /eqP.
by rewrite -[X in X == _]addr0 (inj_eq (addrI _)) => /eqP.
Qed.

Lemma logV x : 0 < x -> log x^-1 = - log x.
Proof.
move=> x0; have := L.1 x x^-1 x0; rewrite invr_gt0 mulfV ?gt_eqF // log1 => /(_ x0) /eqP.
by rewrite eq_sym addrC addr_eq0 => /eqP.
Qed.

Lemma log_smono x y : 0 < x -> x < y -> log x < log y.
Proof.
move=> x0 xy; have y0 := lt_trans x0 xy; rewrite -subr_gt0.
have E : log (x / y) = log x - log y by rewrite L.1 ?invr_gt0 // logV.
have := L.2 (x / y); rewrite E divr_gt0 // => /(_ isT) H.
rewrite -oppr_lt0 opprB; apply: (le_lt_trans H).
by rewrite subr_lt0 ltr_pdivr_mulr // mul1r.
Qed.

Lemma log_mono x y : 0 < x -> x <= y -> log x <= log y.
Proof.
by move=> x0; rewrite le_eqVlt => /orP [/eqP -> // | /(log_smono x0) /ltW].
Qed.

Lemma log_strict x : 0 < x -> log x = x - 1 -> x = 1.
Proof.
move=> x0 E; apply/eqP; apply: contraT => N.
have [y [y0 Ey]] : exists y : F, 0 < y /\ y + y = x + 1.
  by exists ((x + 1) / 2%:R); rewrite -splitr divr_gt0 ?addr_gt0 ?ltr01 ?ltr0n.
have Ex : x = y + y - 1 by rewrite Ey addrK.
have lt : (y - 1) * (y - x) < 0.
  have -> : (y - 1) * (y - x) = - ((y - 1) ^+ 2) by rewrite Ex expr2; move: (y) => z; rg F.
  rewrite oppr_lt0 exprn_even_gt0 //= subr_eq0; apply: contra N => /eqP y1.
  by rewrite Ex y1 addrK.
have : log x <= (x / y - 1) + (y - 1).
  have D : x = x / y * y by rewrite divfK ?gt_eqF.
  rewrite {1}D L.1 ?divr_gt0 //.
  apply: ler_add; apply: L.2; rewrite ?divr_gt0 //.
rewrite E -subr_ge0.
have -> : x / y - 1 + (y - 1) - (x - 1) = (y - 1) * (y - x) / y.
  have yy : y / y = 1 by rewrite mulfV ?gt_eqF.
  have -> : (y - 1) * (y - x) / y = (y - 1 - x) * (y / y) + x / y by rg F.
  rewrite yy; rg F.
by rewrite pmulr_lge0 ?invr_gt0 // leNgt lt.
Qed.

Lemma log_prod n (x : 'I_n -> F) c : 0 < c -> (forall i, 0 < x i) -> log (c * \prod_i x i) = log c + \sum_i log (x i).
Proof.
move=> c0 x0; rewrite L.1 // ?prod_gt0 //; congr (_ + _).
elim: n x x0 => [|n IH] x x0; first by rewrite !big_ord0 log1.
by rewrite !big_ord_recl L.1 ?prod_gt0 // IH.
Qed.

Lemma log_like_tangent n c : 0 < c -> log_tangent_strict log n c.
Proof.
move=> c0; split; [split | exact: log_smono |].
- exact: log_mono.
- by move=> x x0; rewrite log_prod // ler_add2l; apply: ler_sum => i _; apply: L.2.
move=> x x0; rewrite log_prod // => /addrI E i; apply: log_strict => //.
have Z : \sum_i (x i - 1 - log (x i)) = 0 by rewrite sumrB E subrr.
have N j : true -> 0 <= x j - 1 - log (x j) by rewrite subr_ge0 L.2.
have /eqP : x i - 1 - log (x i) = 0 by apply: (psumr_eq0P N Z).
by rewrite subr_eq0 => /eqP.
Qed.
End LogLike.

Section Bound.
Variables (F : realFieldType) (log : F -> F) (p l e : nat).
Variables (A : mat) (sigmas : 'I_e -> 'M[F]_p) (n_obs : 'I_e -> nat).
Hypotheses (HA : acyclic A) (PS : forall i, posdef (sigmas i)).

Definition weight (i : 'I_e) : F := (n_obs i)%:R / (\sum_i n_obs i)%N%:R ^+ (e - i).
Lemma weight_ge0 i : 0 <= weight i.
Proof. by rewrite divr_ge0 ?exprn_ge0 ?ler0n. Qed.
Definition saturated : F := \sum_i weight i * (- log (\det (sigmas i))^-1 + p%:R).

Lemma residual_posdef (B : 'M[F]_p) i : supported A B -> posdef ((1%:M - B^T) *m sigmas i *m (1%:M - B^T)^T).
Proof. by move=> HB; apply: posdef_congr => //; rewrite unitmxE (det_sub_dag HA HB) unitr1. Qed.
Lemma residual_det (B : 'M[F]_p) i : supported A B ->
  \det ((1%:M - B^T) *m sigmas i *m (1%:M - B^T)^T) = \det (sigmas i).
Proof. by move=> HB; rewrite !det_mulmx det_tr (det_sub_dag HA HB) mul1r mulr1. Qed.

Lemma score_bound (m : model F p l e) : supported A (mB m) -> mI_B m = 1%:M - (mB m)^T ->
  positive (momegas m) -> (forall a b, 0 <= mpsis m a b) -> (forall i, log_tangent log p (\det (sigmas i))^-1) ->
  exists2 x, score log m sigmas n_obs = Ok x & saturated <= x.
Proof.
move=> HB EI Ho Hs T; eexists; first exact: score_value.
rewrite /saturated; apply: ler_sum => i _; rewrite [X in _ <= X]mulrAC; apply: ler_wpmul2l; first exact: weight_ge0.
rewrite EI -(residual_det i HB); apply: likelihood_min; [exact/posdef_inv/mnoise_posdef | exact: residual_posdef |].
by rewrite residual_det.
Qed.
End Bound.

Section Consist.
Variables (F : realFieldType) (log : F -> F) (h : hord) (p l l' e : nat).
Variables (A A' : mat) (B B' : 'M[F]_p) (g : 'M[F]_(l, p)) (g' : 'M[F]_(l', p)) (o o' : 'M[F]_(e, p)).
Variables (s : 'M[F]_(e, l)) (s' : 'M[F]_(e, l')) (m : model F p l e) (m' : model F p l' e) (n_obs : 'I_e -> nat).
Hypotheses (SA : square p A) (NA : nonneg A) (E : new_model h A B g o s = Ok m) (Po : positive o) (Ps : forall a b, 0 <= s a b).
Hypotheses (SA' : square p A') (NA' : nonneg A') (E' : new_model h A' B' g' o' s' = Ok m') (Po' : positive o')
  (Ps' : forall a b, 0 <= s' a b).

Local Notation S := (entailed B g o s).
Local Notation Q := (1%:M - B^T).
Local Notation Q' := (1%:M - B'^T).
Local Notation W i := (Q' *m S i *m Q'^T).

Let HA : acyclic A. Proof. by case: (new_model_ok SA NA E). Qed.
Let HB : supported A B. Proof. by case: (new_model_ok SA NA E). Qed.
Let Em : m = MkModel A B g o s Q. Proof. by case: (new_model_ok SA NA E). Qed.
Let HA' : acyclic A'. Proof. by case: (new_model_ok SA' NA' E'). Qed.
Let HB' : supported A' B'. Proof. by case: (new_model_ok SA' NA' E'). Qed.
Let Em' : m' = MkModel A' B' g' o' s' Q'. Proof. by case: (new_model_ok SA' NA' E'). Qed.
Let dQ : \det Q = 1. Proof. exact: det_sub_dag HA HB. Qed.
Let dQ' : \det Q' = 1. Proof. exact: det_sub_dag HA' HB'. Qed.
Let uQ : Q \in unitmx. Proof. by rewrite unitmxE dQ unitr1. Qed.
Let uQ' : Q' \in unitmx. Proof. by rewrite unitmxE dQ' unitr1. Qed.

Lemma noise_posdef i : posdef (noise g o s i).
Proof. by rewrite noiseE; apply: posdef_noise => j; rewrite mxE. Qed.
Lemma noise_posdef' i : posdef (noise g' o' s' i).
Proof. by rewrite noiseE; apply: posdef_noise => j; rewrite mxE. Qed.

Lemma entailed_posdef i : posdef (S i).
Proof. by apply: posdef_congr; rewrite ?unitmx_inv //; apply: noise_posdef. Qed.

Lemma W_posdef i : posdef (W i).
Proof. by apply: posdef_congr => //; apply: entailed_posdef. Qed.

Lemma W_det i : \det (W i) = \det (noise g o s i).
Proof. by rewrite !det_mulmx !det_tr det_inv dQ dQ' invr1 !mul1r !mulr1. Qed.

Lemma own_term i : invmx (noise g o s i) *m (Q *m S i *m Q^T) = 1%:M.
Proof.
rewrite /entailed !mulmxA -[_ *m Q *m _]mulmxA mulmxV // mulmx1 -[_ *m _ *m Q^T]mulmxA -trmx_mul mulmxV // trmx1 mulmx1.
by rewrite mulVmx //; apply/posdef_unit/noise_posdef.
Qed.

Definition wt (i : 'I_e) : F := (n_obs i)%:R / (\sum_i n_obs i)%N%:R ^+ (e - i).
Lemma wt_ge0 i : 0 <= wt i.
Proof. by rewrite divr_ge0 ?exprn_ge0 ?ler0n. Qed.

Lemma own_score : score log m S n_obs = Ok (\sum_i wt i * (- log (\det (noise g o s i))^-1 + p%:R)).
Proof.
rewrite score_value ?Em //; congr Ok; apply: eq_bigr => i _; rewrite /= -[mnoise _ _]noiseE own_term mxtrace1 det_inv.
by rewrite mulrAC.
Qed.

Lemma other_score : score log m' S n_obs =
  Ok (\sum_i wt i * (- log (\det (invmx (noise g' o' s' i))) + \tr (invmx (noise g' o' s' i) *m W i))).
Proof.
rewrite score_value ?Em' //; congr Ok; apply: eq_bigr => i _; rewrite /= -[mnoise _ _]noiseE.
by rewrite mulrAC.
Qed.

Lemma score_minimal : (forall i, log_tangent log p (\det (noise g o s i))^-1) ->
  exists x y, [/\ score log m S n_obs = Ok x, score log m' S n_obs = Ok y & x <= y].
Proof.
move=> T; do 2 eexists; split; [exact: own_score | exact: other_score |].
apply: ler_sum => i _; apply: ler_wpmul2l; first exact: wt_ge0.
rewrite -W_det; apply: likelihood_min; [exact/posdef_inv/noise_posdef' | exact: W_posdef | by rewrite W_det].
Qed.

Lemma score_unique : (forall i, log_tangent_strict log p (\det (noise g o s i))^-1) -> (forall i, (0 < n_obs i)%N) ->
  score log m' S n_obs = score log m S n_obs -> forall i, entailed B' g' o' s' i = S i.
Proof.
move=> T N; rewrite own_score other_score => -[] ES i.
pose t i := - log (\det (invmx (noise g' o' s' i))) + \tr (invmx (noise g' o' s' i) *m W i).
pose u i := - log (\det (noise g o s i))^-1 + p%:R.
have pM j : posdef (invmx (noise g' o' s' j)) by apply/posdef_inv/noise_posdef'.
have le j : true -> 0 <= wt j * (t j - u j).
  move=> _; apply: mulr_ge0; first exact: wt_ge0.
  rewrite subr_ge0 /u -W_det; apply: likelihood_min => //; first exact: W_posdef.
  by rewrite W_det; case: (T j).
have Z : \sum_j wt j * (t j - u j) = 0.
  by under eq_bigr do rewrite mulrBr; rewrite sumrB ES subrr.
have tu : t i <= u i.
  have /eqP : wt i * (t i - u i) = 0 by apply: (psumr_eq0P le Z).
  rewrite mulf_eq0 subr_eq0 => /orP [/eqP w0 | /eqP -> //].
  move: w0 => /eqP; rewrite /wt mulf_eq0 invr_eq0 expf_eq0 !pnatr_eq0 (gtn_eqF (N i)) /= => /andP [_ /eqP H].
  by have := N i; rewrite (bigD1 i) //= in H; move: H; case: (n_obs i).
have MW : invmx (noise g' o' s' i) *m W i = 1%:M.
  apply: (likelihood_min_eq (log := log)) => //; [exact: W_posdef | by rewrite W_det | by rewrite W_det].
have uN : noise g' o' s' i \in unitmx by apply/posdef_unit/noise_posdef'.
have EW : noise g' o' s' i = W i by rewrite -[W i](mulKVmx uN) MW mulmx1.
rewrite /entailed [in LHS]EW -/(entailed B g o s i).
by rewrite !mulmxA mulVmx // mul1mx -mulmxA -trmx_mul mulVmx // trmx1 mulmx1.
Qed.
End Consist.
