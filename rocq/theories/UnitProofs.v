(** The score and the units of the variables (C108). *)
From Coq Require Import ZArith.
From mathcomp Require Import all_ssreflect all_algebra.
From Verif Require Import Base FieldTac GraphSpec NumSpec GradSpec OptSpec CovSpec CovModel GraphModel NumModel LinAlgProofs NumProofs GradProofs CovProofs.
Set Implicit Arguments.
Unset Strict Implicit.
Unset Printing Implicit Defensive.
Import Order.Theory GRing.Theory Num.Theory.
Local Open Scope ring_scope.

Section Units.
Variables (F : realFieldType) (log : F -> F) (h h' : hord) (p l e : nat) (c : 'I_p -> F).
Add Field ffU : (fieldT F).
Hypothesis c0 : forall j, c j != 0.
Hypothesis logM : forall x y, 0 < x -> 0 < y -> log (x * y) = log x + log y.

Definition D : 'M[F]_p := diag_mx (\row_j c j).
Definition Di : 'M[F]_p := diag_mx (\row_j (c j)^-1).
Lemma DDi : D *m Di = 1%:M.
Proof. by apply/matrixP => i j; rewrite mul_diag_mx !mxE mulrnAr mulfV. Qed.
Lemma DiD : Di *m D = 1%:M. Proof. exact: mulmx1C DDi. Qed.
Lemma D_tr : D^T = D. Proof. by rewrite tr_diag_mx. Qed.
Lemma convert_covE S : convert_cov c S = D *m S *m D.
Proof. by apply/matrixP => i j; rewrite mul_mx_diag mul_diag_mx !mxE mulrAC. Qed.
Lemma det_D : \det D = \prod_j c j.
Proof. by rewrite det_diag; apply: eq_bigr => j _; rewrite mxE. Qed.

Lemma score_units A (B : 'M[F]_p) (gm : 'M[F]_(l, p)) (o : 'M[F]_(e, p)) (s : 'M[F]_(e, l)) m :
  square p A -> nonneg A -> new_model h A B gm o s = Ok m -> positive o -> (forall a b, 0 <= s a b) ->
  exists2 m', new_model h' A (weights_in c B) (loadings_in c gm) (variances_in c o) s = Ok m' &
    (forall k, entailed (mB m') (mgamma m') (momegas m') (mpsis m') k = convert_cov c (entailed B gm o s k)) /\
    forall sigmas n_obs x, score log m sigmas n_obs = Ok x ->
    score log m' (fun k => convert_cov c (sigmas k)) n_obs =
      Ok (x + \sum_k (n_obs k)%:R / (\sum_i n_obs i)%N%:R ^+ (e - k) * log ((\prod_j c j) ^+ 2)).
Proof.
move=> SA NA Em Po Ps; have [HA HB EM] := new_model_ok SA NA Em.
set B2 := weights_in c B; set g2 := loadings_in c gm; set o2 := variances_in c o.
have HB' : supported A B2.
  by move=> i j; rewrite mxE => H; apply: HB; apply: contraNneq H => ->; rewrite !mul0r.
exists (MkModel A B2 g2 o2 s (1%:M - B2^T)).
  by case: (new_model_spec h' B2 g2 o2 s SA NA) => [[_ [_ ->]]|[H _]] //; case: H.
have Po' : positive o2 by move=> i j; rewrite mxE mulr_gt0 // lt_def sqr_ge0 expf_eq0 /= c0.
have EI : 1%:M - B2^T = D *m (1%:M - B^T) *m Di.
  rewrite mulmxBr mulmx1 mulmxBl DDi; congr (_ - _).
  apply/matrixP => i j; rewrite mul_mx_diag mul_diag_mx !mxE; by rewrite [B j i * _]mulrC.
have EN k : noise_cov g2 o2 s k = D *m noise_cov gm o s k *m D.
  apply/matrixP => u v; rewrite mul_mx_diag mul_diag_mx -!noiseE !mxE mulrDr mulrDl mulr_sumr mulr_suml; congr (_ + _).
    by apply: eq_bigr => a _; rewrite !mxE; move: (gm a u) (gm a v) (s k a) (c u) (c v) => *; rg F.
  by case: eqP => [->|_]; rewrite ?mulr1n ?mulr0n ?mulr0 ?mul0r // expr2 mulrA [c v * _]mulrC.
have uN k : noise_cov gm o s k \in unitmx by apply/posdef_unit/posdef_noise => j; rewrite mxE.
have [uD _] := mulmx1_unit DDi; have [uDi _] := mulmx1_unit DiD.
have uI : 1%:M - B^T \in unitmx by rewrite unitmxE (det_sub_dag HA HB) unitr1.
have IN (X : 'M[F]_p) : X \in unitmx -> invmx (D *m X *m D) = Di *m invmx X *m Di.
  move=> uX; have U : D *m X *m D \in unitmx by rewrite !unitmx_mul uD uX.
  apply: (can_inj (mulmxK U)); rewrite mulVmx // -!mulmxA [Di *m (D *m _)]mulmxA DiD mul1mx [invmx X *m (X *m D)]mulmxA mulVmx // mul1mx DiD //.
have II : invmx (1%:M - B2^T) = D *m invmx (1%:M - B^T) *m Di.
  have U : 1%:M - B2^T \in unitmx by rewrite EI !unitmx_mul uD uI.
  apply: (can_inj (mulmxK U)); rewrite mulVmx // EI -!mulmxA [Di *m (D *m _)]mulmxA DiD mul1mx [invmx _ *m (_ *m Di)]mulmxA mulVmx // mul1mx DDi //.
have Di_tr : Di^T = Di by rewrite tr_diag_mx.
split=> [k|sigmas n_obs x].
  rewrite /= convert_covE /entailed !noiseE EN II !trmx_mul D_tr Di_tr -!mulmxA; congr (_ *m (_ *m _)).
  by rewrite [Di *m (D *m _)]mulmxA DiD mul1mx [D *m (Di *m _)]mulmxA DDi mul1mx.
rewrite EM !score_value // => -[<-]; congr Ok; rewrite -big_split /=; apply: eq_bigr => k _.
rewrite /mnoise /= EN convert_covE EI IN //.
have -> : \tr (Di *m invmx (noise_cov gm o s k) *m Di *m (D *m (1%:M - B^T) *m Di *m (D *m sigmas k *m D) *m (D *m (1%:M - B^T) *m Di)^T)) =
  \tr (invmx (noise_cov gm o s k) *m ((1%:M - B^T) *m sigmas k *m (1%:M - B^T)^T)).
  rewrite !trmx_mul D_tr Di_tr -!mulmxA [Di *m (D *m _)]mulmxA DiD mul1mx [Di *m (D *m _)]mulmxA DiD mul1mx.
  rewrite [D *m (Di *m _)]mulmxA DDi mul1mx mxtrace_mulC -!mulmxA DDi mulmx1 //.
have Pn : 0 < \det (invmx (noise_cov gm o s k)).
  by apply/posdef_det/posdef_inv/posdef_noise => j; rewrite ?mxE.
have Pc : 0 < (\prod_j c j) ^+ 2 by rewrite lt_def sqr_ge0 expf_eq0 /= andbT; apply/prodf_neq0.
have dDi : \det Di = (\prod_j c j)^-1.
  by rewrite det_diag -prodfV; apply: eq_bigr => j _; rewrite mxE.
have -> : log (\det (invmx (noise_cov gm o s k))) = log (\det (Di *m invmx (noise_cov gm o s k) *m Di)) + log ((\prod_j c j) ^+ 2).
  rewrite -logM //; last first.
    rewrite !det_mulmx dDi mulrAC -expr2 exprVn mulr_gt0 // invr_gt0 //.
  congr log; rewrite !det_mulmx dDi mulrAC -expr2 exprVn [RHS]mulrC mulrA mulfV ?mul1r // gt_eqF //.
rewrite opprD; move: (_ ^+ (e - k)) (log (\det (Di *m _ *m _))) (log ((\prod_j c j) ^+ 2)) (\tr _) (_%:R) => a b d t n.
by rewrite -mulrA [_ / a]mulrC; rg F.
Qed.

Lemma score_ext (m : model F p l e) (S S' : 'I_e -> 'M[F]_p) n : (forall k, S k = S' k) -> score log m S n = score log m S' n.
Proof.
move=> H; rewrite /score; case: inv_noise => //= Ms; congr Ok; elim: (enum 'I_e) 0 => //= k ks IH x.
by rewrite H IH.
Qed.
(** On samples with their covariances *)
Lemma data_units A (B : 'M[F]_p) (gm : 'M[F]_(l, p)) (o : 'M[F]_(e, p)) (s : 'M[F]_(e, l)) m m' (b : 'I_p -> F) (X : 'I_e -> seq 'rV[F]_p) x :
  square p A -> nonneg A -> new_model h A B gm o s = Ok m -> positive o -> (forall a b, 0 <= s a b) ->
  new_model h' A (weights_in c B) (loadings_in c gm) (variances_in c o) s = Ok m' -> (forall k, (0 < size (X k))%N) ->
  score log m (fun k => np_cov (X k)) (fun k => size (X k)) = Ok x ->
  score log m' (fun k => np_cov [seq convert c b y | y <- X k]) (fun k => size (X k)) =
    Ok (x + \sum_k (size (X k))%:R / (\sum_i size (X i))%N%:R ^+ (e - k) * log ((\prod_j c j) ^+ 2)).
Proof.
move=> SA NA Em Po Ps Em' X0 Ex; have [m1 Em1 [_ /(_ _ _ _ Ex) <-]] := score_units SA NA Em Po Ps.
move: Em1; rewrite Em' => -[->]; apply: score_ext => k; exact: cov_convert.
Qed.
End Units.

Lemma units_entailed (F : realFieldType) (h h' : hord) (p l e : nat) (c : 'I_p -> F) : (forall j, c j != 0) ->
  forall A (B : 'M[F]_p) (gm : 'M[F]_(l, p)) (o : 'M[F]_(e, p)) (s : 'M[F]_(e, l)) m,
  square p A -> nonneg A -> new_model h A B gm o s = Ok m -> positive o -> (forall a b, 0 <= s a b) ->
  exists2 m', new_model h' A (weights_in c B) (loadings_in c gm) (variances_in c o) s = Ok m' &
    forall k, entailed (mB m') (mgamma m') (momegas m') (mpsis m') k = convert_cov c (entailed B gm o s k).
Proof.
move=> c0 A B gm o s m SA NA Em Po Ps.
by have [x y _ _|m' E [H _]] := @score_units F (fun=> 0) h h' p l e c c0 _ A B gm o s m SA NA Em Po Ps; [rewrite addr0 | exists m'].
Qed.
