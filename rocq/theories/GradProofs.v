(** The gradients of the solvers for gamma, omegas and psis. *)
From Coq Require Import ZArith.
From mathcomp Require Import all_ssreflect all_algebra all_fingroup.
From Verif Require Import Base FieldTac GraphModel GraphSpec NumModel NumSpec LinAlgProofs NumProofs ScoreModel ScoreSpec.
From Verif Require Import GradSpec DerivProofs Deriv2Proofs.
Set Implicit Arguments.
Unset Strict Implicit.
Unset Printing Implicit Defensive.
Import Order.Theory GRing.Theory Num.Theory.
Local Open Scope ring_scope.

Section Grad.
Variables (F : realFieldType) (p l e : nat).
Implicit Types (gamma : 'M[F]_(l, p)) (omegas : 'M[F]_(e, p)) (psis : 'M[F]_(e, l)).

Lemma noiseE gamma omegas psis i : noise gamma omegas psis i = noise_cov gamma omegas psis i.
Proof.
apply/matrixP => u v; rewrite /noise /noise_cov !mxE; congr (_ + _); last by case: eqP => // ->; rewrite mulr1n.
apply: eq_bigr => a _; congr (_ * _); rewrite !mxE (bigD1 a) //= big1 ?addr0 ?mxE ?eqxx ?mulr1n // => b /negbTE N.
by rewrite !mxE N mulr0n mulr0.
Qed.

Section At.
Variables (B : 'M[F]_p) (sigmas : 'I_e -> 'M[F]_p) (n_obs : 'I_e -> nat) (log : F -> F).
Hypothesis UB : \det (1%:M - B^T) = 1.
Local Notation R := (1%:M - B^T).
Local Notation Q := (invmx (1%:M - B^T)).
Lemma UR : R \in unitmx. Proof. by rewrite unitmxE UB unitr1. Qed.
Definition Nk (k : 'I_e) : 'M[F]_p := R *m sigmas k *m R^T.

Lemma det_Q : \det Q = 1.
Proof. by rewrite det_inv UB invr1. Qed.
Lemma inv_cov (K : 'M[F]_p) : K \in unitmx -> invmx (Q *m K *m Q^T) = R^T *m invmx K *m R.
Proof.
move=> UK; have UQ : Q \in unitmx by rewrite unitmx_inv UR.
have U : Q *m K *m Q^T \in unitmx by rewrite !unitmx_mul UQ UK unitmx_tr UQ.
have XY : R^T *m invmx K *m R *m (Q *m K *m Q^T) = 1%:M.
  rewrite !mulmxA -[_ *m R *m Q]mulmxA mulmxV ?UR // mulmx1 -[_ *m invmx K *m K]mulmxA.
  by rewrite mulVmx // mulmx1 -trmx_mul mulVmx ?UR // trmx1.
by apply: (can_inj (mulmxK U)); rewrite XY mulVmx.
Qed.
Lemma tr_conj1 (M D : 'M[F]_p) : \tr (R^T *m M *m R *m (Q *m D *m Q^T)) = \tr (M *m D).
Proof.
rewrite mxtrace_mulC !mulmxA -[_ *m Q^T *m R^T]mulmxA -trmx_mul mulmxV ?UR // trmx1 mulmx1.
by rewrite mxtrace_mulC !mulmxA mulmxV ?UR // mul1mx mxtrace_mulC.
Qed.
Lemma tr_conj2 (M D : 'M[F]_p) k :
  \tr (R^T *m M *m R *m (Q *m D *m Q^T) *m (R^T *m M *m R) *m sigmas k) = \tr (M *m Nk k *m M *m D).
Proof.
have -> : R^T *m M *m R *m (Q *m D *m Q^T) *m (R^T *m M *m R) *m sigmas k = R^T *m (M *m D *m M *m R *m sigmas k).
  by rewrite !mulmxA -[_ *m R *m Q]mulmxA mulmxV ?UR // mulmx1 -[_ *m Q^T *m R^T]mulmxA -trmx_mul mulmxV ?UR // trmx1 mulmx1.
rewrite mxtrace_mulC /Nk; have -> : M *m D *m M *m R *m sigmas k *m R^T = (M *m D) *m (M *m (R *m sigmas k *m R^T)).
  by rewrite !mulmxA.
by rewrite mxtrace_mulC !mulmxA.
Qed.

(** The derivative of the likelihood along a curve of noise covariances. *)
Lemma deriv_lik (K : F -> 'I_e -> 'M[F]_p) (D : 'I_e -> 'M[F]_p) :
  (forall i, mderiv (fun t => K t i) (D i)) -> (forall i, K 0 i \in unitmx) -> (forall i, log_at log (\det (K 0 i))) ->
  has_deriv (fun t => likelihood log (fun i => Q *m K t i *m Q^T) sigmas n_obs)
    ((\sum_i (n_obs i)%:R * (\tr (invmx (K 0 i) *m D i) - \tr (invmx (K 0 i) *m Nk i *m invmx (K 0 i) *m D i)))
     / (\sum_i n_obs i)%N%:R).
Proof.
move=> H U L; have UQ : Q \in unitmx by rewrite unitmx_inv UR.
apply: deriv_eq (deriv_likelihood (S := fun t i => Q *m K t i *m Q^T) (D := fun i => Q *m D i *m Q^T) _ _ _ _ _) _.
- by move=> i; apply/mderiv_mulr/mderiv_mull.
- by move=> i; rewrite !unitmx_mul UQ U unitmx_tr UQ.
- by move=> i; rewrite !det_mulmx det_tr det_Q mul1r mulr1.
congr (_ / _); apply: eq_bigr => i _; congr (_ * _); rewrite inv_cov // tr_conj1 tr_conj2 //.
Qed.
End At.

Lemma diag_line n m (X H : 'M[F]_(m, n)) t i : diag_mx (row i (X + t *: H)) = diag_mx (row i X) + t *: diag_mx (row i H).
Proof. by rewrite linearD linearZ /= linearD linearZ. Qed.

Lemma noise_gamma gamma omegas psis (H : 'M[F]_(l, p)) i :
  mderiv (fun t => noise_cov (gamma + t *: H) omegas psis i)
         (H^T *m diag_mx (row i psis) *m gamma + gamma^T *m diag_mx (row i psis) *m H).
Proof.
have L := mderiv_line gamma H.
apply: mderiv_eq (mderiv_add (mderiv_mul (mderiv_mulr (diag_mx (row i psis)) (mderiv_tr L)) L) (mderiv_cst _)) _.
by rewrite scale0r !addr0.
Qed.
Lemma noise_rest gamma omegas psis (H : 'M[F]_(e, p)) (H' : 'M[F]_(e, l)) i :
  mderiv (fun t => noise_cov gamma (omegas + t *: H) (psis + t *: H') i)
         (gamma^T *m diag_mx (row i H') *m gamma + diag_mx (row i H)).
Proof.
apply: mderiv_add.
  apply/mderiv_mulr/mderiv_mull; apply: mderiv_near (mderiv_line (diag_mx (row i psis)) _).
  by apply: near_all => t; rewrite diag_line.
apply: mderiv_near (mderiv_line (diag_mx (row i omegas)) _).
by apply: near_all => t; rewrite diag_line.
Qed.

Lemma T_gamma_sum gamma psis (H : 'M[F]_(l, p)) x :
  H^T *m diag_mx (row x psis) *m gamma + gamma^T *m diag_mx (row x psis) *m H =
  \sum_a \sum_k H a k *: T_gamma gamma psis x a k.
Proof.
have S1 : H^T *m diag_mx (row x psis) *m gamma =
  \sum_a \sum_k H a k *: \matrix_(i, j) (if i == k then gamma a j * psis x a else 0).
  apply/matrixP => u v; rewrite !mxE summxE; apply: eq_bigr => a _.
  rewrite summxE (bigD1 u) //= [X in _ + X]big1 ?addr0 => [|k /negbTE N]; last by rewrite !mxE eq_sym N mulr0.
  rewrite !mxE eqxx (bigD1 a) //= big1 ?addr0 => [|b /negbTE N]; last by rewrite !mxE N mulr0n mulr0.
  by rewrite !mxE eqxx mulr1n -mulrA [psis x a * _]mulrC.
have S2 : gamma^T *m diag_mx (row x psis) *m H = (H^T *m diag_mx (row x psis) *m gamma)^T.
  by rewrite !trmx_mul trmxK tr_diag_mx mulmxA.
rewrite S2 S1 linear_sum -big_split /=; apply: eq_bigr => a _.
rewrite linear_sum -big_split /=; apply: eq_bigr => k _.
by rewrite linearZ /= /T_gamma scalerDr.
Qed.

Lemma inner_sumZ (G H : 'M[F]_(l, p)) : inner G H = \sum_a \sum_k H a k * G a k.
Proof. by apply: eq_bigr => a _; apply: eq_bigr => k _; rewrite mulrC. Qed.

Lemma tr_sum2 (X : 'M[F]_p) (c : 'I_l -> 'I_p -> F) (T : 'I_l -> 'I_p -> 'M[F]_p) :
  \tr (X *m (\sum_a \sum_k c a k *: T a k)) = \sum_a \sum_k c a k * \tr (X *m T a k).
Proof.
rewrite mulmx_sumr raddf_sum /=; apply: eq_bigr => a _; rewrite mulmx_sumr raddf_sum /=; apply: eq_bigr => k _.
by rewrite -scalemxAr mxtraceZ.
Qed.

Variable cf : conf F p l e.
Local Notation tot := ((\sum_i cf_n_obs cf i)%N%:R : F).

(** The derivative of the term of environment i when its noise covariance changes by D. *)
Definition slope (B : 'M[F]_p) gamma omegas psis (i : 'I_e) (D : 'M[F]_p) : F :=
  let M := invmx (noise_cov gamma omegas psis i) in \tr (M *m D) - \tr (M *m Nk B (cf_sigmas cf) i *m M *m D).

Lemma gamma_gradient_inner A (B : 'M[F]_p) gamma0 omegas psis m gamma :
  square p A -> nonneg A -> new_model (cf_h cf) A B gamma0 omegas psis = Ok m ->
  positive omegas -> (forall a b, 0 <= psis a b) ->
  exists G, gamma_gradient cf m gamma = Ok G /\ forall H, inner G H =
    (\sum_i (cf_n_obs cf i)%:R * (slope B gamma omegas psis i
        (H^T *m diag_mx (row i psis) *m gamma + gamma^T *m diag_mx (row i psis) *m H))) / tot.
Proof.
move=> SA NA /new_model_ok [] // HA HB -> Ho Hp; rewrite /gamma_gradient /=.
case: (new_model_spec (cf_h cf) B gamma omegas psis SA NA) => [[_ [_ ->]]|[[]]] //=.
rewrite inv_noise_ok //=; eexists; split; first by [].
move=> H; apply/esym; rewrite /slope.
rewrite inner_sumZ.
transitivity (\sum_i \sum_a \sum_k H a k * ((cf_n_obs cf i)%:R * (\tr (invmx (noise_cov gamma omegas psis i) *m
  T_gamma gamma psis i a k) - \tr (invmx (noise_cov gamma omegas psis i) *m Nk B (cf_sigmas cf) i *m
  invmx (noise_cov gamma omegas psis i) *m T_gamma gamma psis i a k)) / tot)).
  rewrite mulr_suml; apply: eq_bigr => i _; rewrite T_gamma_sum !tr_sum2 -sumrB mulr_sumr mulr_suml; apply: eq_bigr => a _.
  rewrite -sumrB mulr_sumr mulr_suml; apply: eq_bigr => k _.
  by rewrite -mulrBr mulrCA !mulrA.
rewrite exchange_big; apply: eq_bigr => a _; rewrite exchange_big; apply: eq_bigr => k _.
by rewrite mxE -mulr_sumr -mulr_suml.
Qed.

(** C89 *)
Lemma gamma_gradient_lik A (B : 'M[F]_p) gamma0 omegas psis m gamma :
  square p A -> nonneg A -> new_model (cf_h cf) A B gamma0 omegas psis = Ok m ->
  positive omegas -> (forall a b, 0 <= psis a b) ->
  (forall i, log_at (cf_log cf) (\det (noise gamma omegas psis i))) ->
  exists G, gamma_gradient cf m gamma = Ok G /\
  gradient_at (fun g => Ok (likelihood (cf_log cf) (entailed B g omegas psis) (cf_sigmas cf) (cf_n_obs cf))) gamma G.
Proof.
move=> SA NA E Ho Hp L; have [G [EG HG]] := gamma_gradient_inner gamma SA NA E Ho Hp.
exists G; split=> // H; have [HA HB _] := new_model_ok SA NA E.
have UB := det_sub_dag HA HB.
pose f t := likelihood (cf_log cf) (entailed B (gamma + t *: H) omegas psis) (cf_sigmas cf) (cf_n_obs cf).
exists f; split; first by exists 1; rewrite ?ltr01.
have P i : posdef (noise_cov gamma omegas psis i) by apply: posdef_noise => j; rewrite mxE.
have Z : gamma + 0 *: H = gamma by rewrite scale0r addr0.
have := deriv_lik (cf_sigmas cf) (cf_n_obs cf) UB (log := cf_log cf) (noise_gamma gamma omegas psis H).
rewrite /= Z => D.
have {}D := D (fun i => posdef_unit (P i)).
have {}D := D (fun i => eq_ind _ (fun M => log_at _ (\det M)) (L i) _ (noiseE _ _ _ i)).
apply: deriv_ext (deriv_eq D _) => [t|]; last by rewrite HG.
by rewrite /f /entailed /likelihood; congr (_ / _); apply: eq_bigr => i _; rewrite noiseE.
Qed.

Lemma average_const a b (c : pred 'I_b) (X : 'M[F]_(a, b)) j i i' : c j -> average_cols c X i j = average_cols c X i' j.
Proof. by move=> cj; rewrite !mxE cj. Qed.
Lemma inner_average a b (c : pred 'I_b) (X H : 'M[F]_(a, b)) : (forall j i i', c j -> H i j = H i' j) ->
  inner (average_cols c X) H = inner X H.
Proof.
move=> HH; rewrite /inner exchange_big [RHS]exchange_big; apply: eq_bigr => j _.
case cj: (c j); last by apply: eq_bigr => i _; rewrite mxE cj.
case: a X H HH => [|a] X H HH; first by rewrite !big_ord0.
under eq_bigr do rewrite mxE cj (HH _ _ 0 cj).
under [RHS]eq_bigr do rewrite (HH _ _ 0 cj).
rewrite -mulr_suml -[RHS]mulr_suml; congr (_ * _).
by rewrite sumr_const card_ord -mulr_natr mulfVK // pnatr_eq0.
Qed.

Lemma tr_rest (X : 'M[F]_p) gamma (H : 'M[F]_(e, p)) (H' : 'M[F]_(e, l)) y :
  \tr (X *m (gamma^T *m diag_mx (row y H') *m gamma + diag_mx (row y H))) =
  \sum_k H' y k * \tr (X *m \matrix_(i, j) (gamma k i * gamma k j)) + \sum_j H y j * X j j.
Proof.
have -> : gamma^T *m diag_mx (row y H') *m gamma = \sum_k H' y k *: \matrix_(i, j) (gamma k i * gamma k j).
  apply/matrixP => u v; rewrite mxE summxE; apply: eq_bigr => k _; rewrite !mxE (bigD1 k) //= big1 ?addr0.
    by rewrite !mxE eqxx mulr1n [gamma k u * _]mulrC mulrA.
  by move=> b /negbTE N; rewrite !mxE N mulr0n mulr0.
rewrite mulmxDr mxtraceD mulmx_sumr raddf_sum /=; congr (_ + _).
  by apply: eq_bigr => k _; rewrite -scalemxAr mxtraceZ.
apply: eq_bigr => j _; rewrite mul_mx_diag !mxE mulrC //.
Qed.


Lemma rest_gradient_inner A (B : 'M[F]_p) gamma o0 s0 m (I : seq nat) omegas psis :
  square p A -> nonneg A -> new_model (cf_h cf) A B gamma o0 s0 = Ok m ->
  positive omegas -> (forall a b, 0 <= psis a b) ->
  let free (H : 'M[F]_(e, p)) (H' : 'M[F]_(e, l)) :=
    const_cols (fun j : 'I_p => ~ List.In (nat_of_ord j) I) H /\ (cf_psi_fixed cf -> const_cols (fun=> True) H') in
  exists G G', rest_gradient cf m I (omegas, psis) = Ok (G, G') /\ free G G' /\
  forall H H', free H H' -> inner G H + inner G' H' =
    (\sum_i (cf_n_obs cf i)%:R * (slope B gamma omegas psis i
        (gamma^T *m diag_mx (row i H') *m gamma + diag_mx (row i H)))) / tot.
Proof.
move=> SA NA /new_model_ok [] // HA HB -> Ho Hp free; rewrite /rest_gradient /=.
case: (new_model_spec (cf_h cf) B gamma omegas psis SA NA) => [[_ [_ ->]]|[[]]] //=.
rewrite inv_noise_ok //=; do 2!eexists; split; first by [].
split.
  split=> [j Hj i i'|Hf j _ i i']; last by rewrite Hf; apply: average_const.
  apply: average_const; apply/negP => /memb_In; exact: Hj.
move=> H H' [F1 F2]; apply/esym; rewrite /slope.
rewrite inner_average => [|j i i' /negP N]; last by apply: F1 => K; apply: N; apply/memb_In.
have -> : forall X : 'M[F]_(e, l), inner (if cf_psi_fixed cf then average_cols (fun=> true) X else X) H' = inner X H'.
  by move=> X; case E: (cf_psi_fixed cf) => //; apply: inner_average => j i i' _; apply: F2.
rewrite /inner -big_split mulr_suml; apply: eq_bigr => y _ /=; rewrite !tr_rest.
have K n (c : F) (x z : 'I_n -> F) : (forall j, x j = c * z j) -> \sum_j x j = c * \sum_j z j.
  by move=> E; rewrite mulr_sumr; apply: eq_bigr.
rewrite [X in _ = X + _](K _ ((cf_n_obs cf y)%:R / tot) _ (fun j => H y j * (invmx (noise_cov gamma omegas psis y) j j -
  (invmx (noise_cov gamma omegas psis y) *m Nk B (cf_sigmas cf) y *m invmx (noise_cov gamma omegas psis y)) j j))); last first.
  by move=> j; rewrite mxE [RHS]mulrCA [LHS]mulrC; congr (_ * (_ * _)); rewrite mxE; congr (_ + _); rewrite mxE.
rewrite [X in _ = _ + X](K _ ((cf_n_obs cf y)%:R / tot) _ (fun k => H' y k *
   (\tr (invmx (noise_cov gamma omegas psis y) *m \matrix_(i, j) (gamma k i * gamma k j)) -
    \tr (invmx (noise_cov gamma omegas psis y) *m Nk B (cf_sigmas cf) y *m invmx (noise_cov gamma omegas psis y) *m
      \matrix_(i, j) (gamma k i * gamma k j))))); last first.
  by move=> k; rewrite mxE [RHS]mulrCA [LHS]mulrC.
rewrite -mulrDr [LHS]mulrAC; congr (_ * _).
rewrite opprD addrACA addrC; congr (_ + _); rewrite -sumrB; apply: eq_bigr => j _; by rewrite mulrBr.
Qed.

(** C90 *)
Lemma rest_gradient_lik A (B : 'M[F]_p) gamma o0 s0 m (I : seq nat) omegas psis :
  square p A -> nonneg A -> new_model (cf_h cf) A B gamma o0 s0 = Ok m ->
  positive omegas -> (forall a b, 0 <= psis a b) ->
  (forall i, log_at (cf_log cf) (\det (noise gamma omegas psis i))) ->
  let free (H : 'M[F]_(e, p)) (H' : 'M[F]_(e, l)) :=
    const_cols (fun j : 'I_p => ~ List.In (nat_of_ord j) I) H /\ (cf_psi_fixed cf -> const_cols (fun=> True) H') in
  exists G G', rest_gradient cf m I (omegas, psis) = Ok (G, G') /\ free G G' /\
  forall H H', free H H' ->
    has_deriv (fun t => likelihood (cf_log cf) (entailed B gamma (omegas + t *: H) (psis + t *: H'))
                          (cf_sigmas cf) (cf_n_obs cf)) (inner G H + inner G' H').
Proof.
move=> SA NA E Ho Hp L free; have [G [G' [EG [FG HG]]]] := rest_gradient_inner I SA NA E Ho Hp.
exists G, G'; split=> //; split=> // H H' FH.
have [HA HB _] := new_model_ok SA NA E; have UB := det_sub_dag HA HB.
have P i : posdef (noise_cov gamma omegas psis i) by apply: posdef_noise => j; rewrite mxE.
have Z : omegas + 0 *: H = omegas by rewrite scale0r addr0.
have Z' : psis + 0 *: H' = psis by rewrite scale0r addr0.
have := deriv_lik (cf_sigmas cf) (cf_n_obs cf) UB (log := cf_log cf) (noise_rest gamma omegas psis H H').
rewrite /= Z Z' => D.
have {}D := D (fun i => posdef_unit (P i)).
have {}D := D (fun i => eq_ind _ (fun M => log_at _ (\det M)) (L i) _ (noiseE _ _ _ i)).
apply: deriv_ext (deriv_eq D _) => [t|]; last by rewrite HG.
by rewrite /entailed /likelihood; congr (_ / _); apply: eq_bigr => i _; rewrite noiseE.
Qed.

Lemma deriv_code_term log (K : F -> 'M[F]_p) (D N : 'M[F]_p) : mderiv K D -> K 0 \in unitmx ->
  log_at log (\det (invmx (K 0))) ->
  has_deriv (fun t => - log (\det (invmx (K t))) + \tr (invmx (K t) *m N))
            (\tr (invmx (K 0) *m D) - \tr (invmx (K 0) *m N *m invmx (K 0) *m D)).
Proof.
move=> H U L; have HI := mderiv_inv H U; have UI : invmx (K 0) \in unitmx by rewrite unitmx_inv.
have d0 : \det (invmx (K 0)) != 0 by rewrite -unitfE -unitmxE.
apply: deriv_add.
  apply: deriv_eq (deriv_opp (deriv_comp (deriv_det_unit HI UI) L)) _.
  rewrite mulrA mulVf // mul1r invmxK mulmxN raddfN /= opprK -mulmxA mulmxA mulmxV // mul1mx.
  by rewrite mxtrace_mulC.
apply: deriv_eq (deriv_trace (mderiv_mulr N HI)) _; rewrite mulNmx raddfN /=; congr (- _).
by rewrite -[_ *m invmx (K 0) *m N]mulmxA mxtrace_mulC !mulmxA.
Qed.

Lemma near_fin (I : finType) (P : I -> F -> Prop) : (forall i, near (P i)) -> near (fun t => forall i, P i t).
Proof.
move=> H; suff : forall r : seq I, near (fun t => forall i, i \in r -> P i t).
  by move=> /(_ (enum I)); apply: near_imp => t Q i; apply: Q; rewrite mem_enum.
elim=> [|i r IH]; first by apply: near_all.
apply: near_imp (near_and (H i) IH) => t [Q1 Q2] j; rewrite in_cons => /orP [/eqP -> //|]; exact: Q2.
Qed.

Lemma score_value_unit (m : model F p l e) : (forall i, mnoise m i \in unitmx) ->
  mscore cf m = Ok (\sum_(i < e) (cf_n_obs cf i)%:R *
     (- cf_log cf (\det (invmx (mnoise m i))) +
      \tr (invmx (mnoise m i) *m (mI_B m *m cf_sigmas cf i *m (mI_B m)^T))) / tot ^+ (e - i)).
Proof.
move=> U; rewrite /mscore /score /inv_noise; have -> : [forall i, mnoise m i \in unitmx] by apply/forallP.
congr Ok; move: (cf_n_obs cf) (cf_sigmas cf) (cf_log cf) => n sg lg.
case: e m n sg {U} => [|e'] m n sg.
  by rewrite !big_ord0 (size0nil (size_enum_ord 0)).
rewrite (foldl_div _ _ _ _ ord0) mul0r add0r size_enum_ord; apply: eq_bigr => i _.
by rewrite nth_ord_enum.
Qed.

(** The derivative of the loss along a curve of models. *)
Lemma deriv_loss (B : 'M[F]_p) (ms : F -> model F p l e) (D : 'I_e -> 'M[F]_p) :
  (forall t, mI_B (ms t) = 1%:M - B^T) ->
  (forall i, mderiv (fun t => mnoise (ms t) i) (D i)) -> (forall i, mnoise (ms 0) i \in unitmx) ->
  (forall i, log_at (cf_log cf) (\det (invmx (mnoise (ms 0) i)))) ->
  exists f, near (fun t => mscore cf (ms t) = Ok (f t)) /\
    has_deriv f (\sum_i (cf_n_obs cf i)%:R * slope B (mgamma (ms 0)) (momegas (ms 0)) (mpsis (ms 0)) i (D i)
                    / tot ^+ (e - i)).
Proof.
move=> HI HD HU HL; eexists; split.
  apply: near_imp (near_fin (fun i => near_unit (HD i) (HU i))) => t U; exact: score_value_unit.
apply: deriv_sum => i _; rewrite [_ / _]mulrC.
apply: (@deriv_ext _ (fun t => (tot ^+ (e - i))^-1 * ((cf_n_obs cf i)%:R *
    (- cf_log cf (\det (invmx (mnoise (ms t) i))) +
     \tr (invmx (mnoise (ms t) i) *m ((1%:M - B^T) *m cf_sigmas cf i *m (1%:M - B^T)^T)))))).
  by move=> t; rewrite HI mulrC.
by apply: deriv_scale; apply: deriv_scale; apply: deriv_code_term.
Qed.
End Grad.
