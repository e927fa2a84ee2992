(** Proofs about the initial parameters in the model of the code (C74, C113, C114). *)
From Coq Require Import ZArith.
From mathcomp Require Import all_ssreflect all_algebra.
From Verif Require Import Base GraphModel GraphSpec ListModel NumModel NumSpec ScoreModel ScoreSpec GradSpec NumProofs ScoreProofs NoErrProofs RunProofs.
From Verif Require Import InitModel InitSpec InitProofs FieldTac.
Set Implicit Arguments.
Unset Strict Implicit.
Unset Printing Implicit Defensive.
Import Order.Theory GRing.Theory Num.Theory.
Local Open Scope ring_scope.

Section Init.
Variables (F : realFieldType) (p l e : nat) (cf : conf F p l e).
Add Field ffj : (fieldT F).
Local Notation tot := ((\sum_i cf_n_obs cf i)%N%:R : F).

Lemma init_avg A B I : [/\ init_B cf InitAvg A = initialize_B cf A, init_gamma cf InitAvg B = initialize_gamma cf B
  & init_omegas cf InitAvg B I = Ok (initialize_omegas cf B I)].
Proof.
split=> //; rewrite /init_B /initialize_B /=; elim: (enum _) 0 => //= j js IH C.
by case: regress => //= x; rewrite IH.
Qed.
Lemma init_other A B I : [/\ init_B cf InitOther A = Err ValueError, init_gamma cf InitOther B = Err ValueError
  & init_omegas cf InitOther B I = Err ValueError].
Proof. by []. Qed.

Lemma init_cov_obs (i0 : 'I_e) : i0 = 0%N :> nat -> init_cov cf InitObs = Ok (cf_sigmas cf i0).
Proof.
move=> E; rewrite /init_cov; have H : (0 < e)%N by rewrite -E.
by rewrite insubT; congr (Ok (cf_sigmas cf _)); apply: val_inj.
Qed.
Lemma avg_const S : tot != 0 -> avg_cov (with_sigmas cf (fun=> S)) = S.
Proof.
move=> T; rewrite /avg_cov /= -scaler_suml scalerA -natr_sum mulVf ?scale1r //.
Qed.
Lemma init_obs (i0 : 'I_e) A B : i0 = 0%N :> nat -> tot != 0 ->
  init_B cf InitObs A = init_B (with_sigmas cf (fun=> cf_sigmas cf i0)) InitAvg A /\
  init_gamma cf InitObs B = init_gamma (with_sigmas cf (fun=> cf_sigmas cf i0)) InitAvg B.
Proof. by move=> E T; rewrite /init_B /init_gamma (init_cov_obs E) /init_cov avg_const. Qed.
Lemma init_omegas_ignored B I : (0 < e)%N -> init_omegas cf InitObs B I = init_omegas cf InitAvg B I.
Proof. by move=> H; rewrite /init_omegas (@init_cov_obs (Ordinal H)). Qed.

(** C113 *)
Lemma gamma_top k B g c : init_cov cf k = Ok c -> init_gamma cf k B = Ok g -> exists lp : (l <= p)%N,
  g = top_rows lp (cf_svd cf (residual_cov B c)).1 (cf_svd cf (residual_cov B c)).2 (cf_sqrt cf).
Proof.
rewrite /init_gamma => -> /= Eg; have lp : (l <= p)%N by move: Eg; case: ifP.
rewrite lp in Eg; exists lp; case: Eg => <-; apply/matrixP => i j; rewrite !mxE.
have H : (i < p)%N := leq_trans (ltn_ord i) lp.
rewrite -/(residual_cov B c) insubT; have -> : Sub (nat_of_ord i) H = widen_ord lp i by apply: val_inj.
by [].
Qed.
Lemma init_gamma_spec k B g c : init_cov cf k = Ok c -> init_gamma cf k B = Ok g -> semidef c ->
  svd_of (residual_cov B c) (cf_svd cf (residual_cov B c)) -> exact_sqrt (cf_sqrt cf) (cf_svd cf (residual_cov B c)).2 ->
  [/\ forall a b, a != b -> (g *m g^T) a b = 0,
      forall a b : 'I_l, (a <= b)%N -> (g *m g^T) b b <= (g *m g^T) a a,
      semidef (residual_cov B c - g^T *m g),
      l = p -> g^T *m g = residual_cov B c
    & forall Q : 'M[F]_(l, p), Q *m Q^T = 1%:M -> \tr (Q *m residual_cov B c *m Q^T) <= \tr (g *m g^T)].
Proof.
move=> Ec Eg Sc HS SQ; have [lp ->] := gamma_top Ec Eg.
have SM : semidef (residual_cov B c) by rewrite /residual_cov -{1}[1%:M - B^T]trmxK; apply: semidef_conj.
case: (cf_svd cf _) HS SQ => U d HS /= SQ; split.
- by move=> a b /negbTE N; rewrite (gg lp HS SQ) N.
- by move=> a b H; rewrite !(gg lp HS SQ) !eqxx; case: HS => V [_ _ _ _]; apply.
- exact: gamma_below.
- exact: gamma_full.
- exact: gamma_principal.
Qed.

(** The noise of the initial model *)
Lemma initial_fields A I m : square p A -> nonneg A -> initial_model cf A I = Ok m ->
  [/\ initialize_B cf A = Ok (mB m), initialize_gamma cf (mB m) = Ok (mgamma m), momegas m = initialize_omegas cf (mB m) I
    & mpsis m = const_mx 1].
Proof.
move=> SA NA; rewrite /initial_model; case EB : initialize_B => [B|] //=; case EG : initialize_gamma => [g|] //= EN.
by case: (new_model_ok SA NA EN) => _ _ -> /=.
Qed.
Lemma residual_avg B j : tot != 0 -> weighted (cf_n_obs cf) (fun k => residual_cov B (cf_sigmas cf k) j j) = residual_cov B (avg_cov cf) j j.
Proof.
move=> T; rewrite /weighted /residual_cov /avg_cov -scalemxAr -scalemxAl mulmx_sumr mulmx_suml mxE mulrC; congr (_ * _).
rewrite summxE; apply: eq_bigr => k _; by rewrite -scalemxAr -scalemxAl [RHS]mxE.
Qed.
Lemma weighted_const (f : 'I_e -> F) c : tot != 0 -> (forall k, f k = c) -> weighted (cf_n_obs cf) f = c.
Proof.
move=> T E; rewrite /weighted (eq_bigr (fun k => (cf_n_obs cf k)%:R * c)) => [|k _]; last by rewrite E.
by rewrite -mulr_suml -natr_sum mulrC mulKf.
Qed.
Lemma initial_omegas B I j : tot != 0 -> weighted (cf_n_obs cf) (fun k => initialize_omegas cf B I k j) = residual_cov B (avg_cov cf) j j.
Proof.
move=> T; rewrite -(residual_avg _ _ T); case E : (memb j I).
  by congr (_ / _); apply: eq_bigr => k _; rewrite mxE E mxE.
rewrite (@weighted_const _ (weighted (cf_n_obs cf) (fun k => residual_cov B (cf_sigmas cf k) j j))) // => k.
rewrite mxE E /weighted; congr (_ / _); apply: eq_bigr => k' _; by rewrite mxE mulrC.
Qed.
Lemma initial_noise A I m : square p A -> nonneg A -> initial_model cf A I = Ok m -> tot != 0 ->
  forall j, weighted (cf_n_obs cf) (fun k => noise (mgamma m) (momegas m) (mpsis m) k j j) =
    residual_cov (mB m) (avg_cov cf) j j + ((mgamma m)^T *m mgamma m) j j.
Proof.
move=> SA NA EI T j; have [_ _ EO EP] := initial_fields SA NA EI.
rewrite -(initial_omegas _ I _ T) -EO -[X in _ = _ + X](@weighted_const (fun=> ((mgamma m)^T *m mgamma m) j j)) //.
rewrite /weighted -mulrDl -big_split; congr (_ / _); apply: eq_bigr => k _ /=; rewrite -mulrDr; congr (_ * _).
rewrite mxE eqxx addrC; congr (_ + _); rewrite mxE; apply: eq_bigr => a _; by rewrite EP !mxE mulr1.
Qed.
Lemma diag_semidef n (M : 'M[F]_n) j : semidef M -> 0 <= M j j.
Proof. by move=> [_ /(_ (delta_mx j 0))]; rewrite trmx_delta -rowE -colE !mxE. Qed.
Lemma initial_noise_bounds A I m : square p A -> nonneg A -> initial_model cf A I = Ok m -> tot != 0 -> semidef (avg_cov cf) ->
  svd_of (residual_cov (mB m) (avg_cov cf)) (cf_svd cf (residual_cov (mB m) (avg_cov cf))) ->
  exact_sqrt (cf_sqrt cf) (cf_svd cf (residual_cov (mB m) (avg_cov cf))).2 ->
  forall j, let r := residual_cov (mB m) (avg_cov cf) j j in
    let v := weighted (cf_n_obs cf) (fun k => noise (mgamma m) (momegas m) (mpsis m) k j j) in
    r <= v <= 2%:R * r /\ (l = p -> v = 2%:R * r).
Proof.
move=> SA NA EI T Sc HS SQ j r v; have [_ EG _ _] := initial_fields SA NA EI.
have [_ _ H1 H2 _] := @init_gamma_spec InitAvg _ _ _ erefl EG Sc HS SQ.
have G0 : 0 <= ((mgamma m)^T *m mgamma m) j j by rewrite mxE; apply: sumr_ge0 => a _; rewrite mxE -expr2 sqr_ge0.
have G1 : ((mgamma m)^T *m mgamma m) j j <= r by have := diag_semidef j H1; rewrite mxE [X in _ + X]mxE subr_ge0.
rewrite /v (initial_noise SA NA EI T) -/r mulr_natl mulr2n ler_addl G0 ler_add2l G1; split=> // E.
by rewrite (H2 E).
Qed.

(** C74: least squares *)
Lemma initial_least_squares A B : semidef (avg_cov cf) -> initialize_B cf A = Ok B ->
  forall (j : 'I_p) (b : 'cV[F]_p), (forall i : 'I_p, b i 0 != 0 -> edge A i j) ->
  residual_var (avg_cov cf) j (col j B) <= residual_var (avg_cov cf) j b.
Proof.
move=> [SS PS] EB j b Hb; have [SB NE] := initialize_B_normal SS EB.
set r := delta_mx j 0 - col j B; set d := col j B - b.
have Ed : delta_mx j 0 - b = r + d by rewrite /r /d addrA addrNK.
have Z : (d^T *m avg_cov cf *m r) 0 0 = 0.
  rewrite -mulmxA mxE bigop.big1 // => i _; rewrite [d^T 0 i]mxE.
  case: (boolP (d i 0 == 0)) => [/eqP ->|N]; first by rewrite mul0r.
  have Eij : edge A i j.
    move: N; rewrite /d !mxE; case: (boolP (b i 0 == 0)) => [/eqP ->|/Hb //]; rewrite subr0; exact: SB.
  have -> : (avg_cov cf *m r) i 0 = avg_cov cf i j - (avg_cov cf *m B) i j.
    by rewrite /r mulmxBr colE mulmxA -!colE !mxE.
  by rewrite NE // subrr mulr0.
have Z' : (r^T *m avg_cov cf *m d) 0 0 = 0.
  have -> : r^T *m avg_cov cf *m d = (d^T *m avg_cov cf *m r)^T by rewrite !trmx_mul trmxK SS mulmxA.
  by rewrite mxE.
by rewrite /residual_var Ed (quadD r d SS) Z' mulr0 addr0 ler_addl.
Qed.
End Init.

(** One variable, with variances 1 and 3 *)
Lemma omegas_refuted (F : realFieldType) : exists (cf : conf F 1 0 2) (i0 : 'I_2) B,
  [/\ i0 = 0%N :> nat, (\sum_i cf_n_obs cf i)%N%:R != 0 :> F, (forall k, posdef (cf_sigmas cf k)) &
      init_omegas cf InitObs B [::] <> init_omegas (with_sigmas cf (fun=> cf_sigmas cf i0)) InitAvg B [::]].
Proof.
pose sg (k : 'I_2) : 'M[F]_1 := (if k == 0 then 1 else 3%:R)%:M.
exists (@Conf F 1 0 2 id ho_id id (fun=> None) (fun=> (0, 0)) id (fun=> true) sg (fun=> 1%N) None false 1 0 0 1 0 0 Cvx 1), 0, 0; split=> //=.
- by rewrite !big_ord_recl big_ord0 pnatr_eq0.
- move=> k; split; first by rewrite tr_scalar_mx.
  move=> x x0; rewrite /sg mul_mx_scalar -scalemxAl mxE; apply: mulr_gt0; first by case: ifP; rewrite ?ltr01 ?ltr0n.
  rewrite mxE big_ord1 mxE -expr2 lt_neqAle sqr_ge0 andbT eq_sym sqrf_eq0; apply: contra x0 => /eqP x0.
  by apply/eqP/matrixP => i j; rewrite !ord1 x0 mxE.
rewrite /init_omegas /init_cov insubT //= => -[] /matrixP /(_ 0 0); rewrite !mxE /=.
have D S : ((1%:M - 0^T) *m S *m (1%:M - 0^T)^T) = S :> 'M[F]_1 by rewrite trmx0 subr0 trmx1 mul1mx mulmx1.
have DD (S : 'I_2 -> 'M[F]_1) : \matrix_(i < 2, j < 1) ((1%:M - 0^T) *m S i *m (1%:M - 0^T)^T) j j = \matrix_(i < 2, j < 1) S i j j.
  by apply/matrixP => i j; rewrite mxE D mxE.
rewrite !DD !big_ord_recl !big_ord0 !mxE /= !mulr1n !mulr1 !addr0.
have N2 : (1 + (1 + 0))%N%:R != 0 :> F by rewrite pnatr_eq0.
move=> E; have := congr1 (fun x => x * (1 + (1 + 0))%N%:R) E; rewrite /= !divfK // => /addrI /eqP.
by rewrite -[X in _ == X]/(1%:R) eqr_nat.
Qed.
