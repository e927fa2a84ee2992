(** Hadamard's inequality and the minimum of the Gaussian likelihood. *)
From Coq Require Import ZArith.
From mathcomp Require Import all_ssreflect all_algebra all_fingroup.
From Verif Require Import Base FieldTac GraphSpec NumSpec LinAlgProofs NoErrProofs GradSpec OptSpec.
Set Implicit Arguments.
Unset Strict Implicit.
Unset Printing Implicit Defensive.
Import Order.Theory GRing.Theory Num.Theory.
Local Open Scope ring_scope.

Section Schur.
Variable F : realFieldType.

(** One step of elimination *)
Lemma schur n (M : 'M[F]_(1 + n)) : posdef M ->
  exists (a : F) (b : 'rV[F]_n) (D : 'M[F]_n),
  [/\ M = block_mx a%:M b b^T D, 0 < a & posdef (D - a^-1 *: (b^T *m b))].
Proof.
rewrite -(submxK M).
set a := ulsubmx M; set b := ursubmx M; set c := dlsubmx M; set d := drsubmx M.
case=> sM qM.
have Ec : c = b^T by have := sM; rewrite tr_block_mx => /eq_block_mx [_ _ <- _].
have sd : d^T = d by have := sM; rewrite tr_block_mx => /eq_block_mx [_ _ _ ->].
have qa : 0 < a 0 0.
  have N0 : col_mx (1 : 'cV[F]_1) (0 : 'cV[F]_n) != 0.
    apply/eqP => E; have := congr1 (fun X : 'cV_(1 + n) => X (lshift n 0) 0) E.
    by rewrite col_mxEu !mxE eqxx => /eqP; rewrite oner_eq0.
  have := qM _ N0; rewrite tr_col_mx mul_row_block trmx0 !mul0mx !addr0 mul_row_col mulmx0 addr0.
  by rewrite trmx1 mul1mx mulmx1.
have Ea : a = (a 0 0)%:M := mx11_scalar a.
exists (a 0 0), b, d; split=> //; first by rewrite -Ea Ec.
split; first by rewrite linearB /= sd linearZ /= trmx_mul trmxK.
move=> x Nx; have N0 : col_mx (- ((a 0 0)^-1 *: (b *m x))) x != 0.
  apply: contra Nx => /eqP E0; apply/eqP.
  by have := congr1 dsubmx E0; rewrite col_mxKd => ->; apply/matrixP => i j; rewrite !mxE.
have := qM _ N0; rewrite -mulmxA mul_block_col tr_col_mx mul_row_col.
have -> : a *m - ((a 0 0)^-1 *: (b *m x)) + b *m x = 0.
  by rewrite {1}Ea mulmxN mul_scalar_mx scalerA mulfV ?gt_eqF // scale1r addNr.
rewrite mulmx0 add0r.
rewrite Ec mulmxBr mulmxBl mulmxDr !mulmxN !mulmxA -!scalemxAr -!scalemxAl !mulmxA addrC.
done.
Qed.

Lemma schur_det n (a : F) (b : 'rV[F]_n) (D : 'M[F]_n) : 0 < a ->
  \det (block_mx a%:M b b^T D) = a * \det (D - a^-1 *: (b^T *m b)).
Proof.
move=> a0; have -> : block_mx a%:M b b^T D = block_mx 1%:M 0 (a^-1 *: b^T) 1%:M *m block_mx a%:M b 0 (D - a^-1 *: (b^T *m b)).
  rewrite mulmx_block !mul1mx !mul0mx !addr0 -!scalemxAl mul_mx_scalar scalerA mulVf ?gt_eqF // scale1r.
  by rewrite [a^-1 *: _ + _]addrC subrK.
by rewrite det_mulmx det_lblock !det1 !mul1r det_ublock det_mx11 mxE eqxx mulr1n.
Qed.

(** M = U^T D U *)
Lemma congruence_step n (a : F) (b : 'rV[F]_n) (D U : 'M[F]_n) (d : 'rV[F]_n) : 0 < a ->
  D - a^-1 *: (b^T *m b) = U^T *m diag_mx d *m U ->
  block_mx a%:M b b^T D =
  (block_mx (1%:M : 'M[F]_1) (a^-1 *: b) 0 U)^T *m diag_mx (row_mx (a%:M : 'M[F]_1) d) *m block_mx (1%:M : 'M[F]_1) (a^-1 *: b) 0 U.
Proof.
move=> a0 ES.
rewrite diag_mx_row tr_block_mx !mulmx_block trmx0 trmx1 !mul0mx !mulmx0 !addr0 !add0r !mul1mx !mulmx1.
have -> : diag_mx (a%:M : 'M[F]_1) = a%:M by apply/matrixP => i j; rewrite !ord1 !mxE eqxx.
have -> : (a^-1 *: b)^T = a^-1 *: b^T by apply/matrixP => i j; rewrite !mxE.
rewrite mul_mx_scalar mul_scalar_mx !scalerA !mulfV ?gt_eqF // !scale1r mul0mx addr0.
by rewrite -ES -scalemxAr addrC subrK.
Qed.
Lemma congruence n (M : 'M[F]_n) : posdef M -> exists (U : 'M[F]_n) (d : 'rV[F]_n),
  [/\ M = U^T *m diag_mx d *m U, \det U = 1 & forall i, 0 < d 0 i].
Proof.
elim: n M => [|n IH] M pM.
  by exists 1%:M, 0; split; rewrite ?det1 //; [apply/matrixP; case | case].
have [a [b [D [E a0 pS]]]] := schur (M := M : 'M[F]_(1 + n)) pM.
have [U [d [ES dU d0]]] := IH _ pS.
exists (block_mx (1%:M : 'M[F]_1) (a^-1 *: b) 0 U : 'M[F]_(1 + n)), (row_mx (a%:M : 'M[F]_1) d : 'rV[F]_(1 + n)).
split.
- rewrite E; exact: congruence_step.
- by rewrite (det_ublock (1%:M : 'M[F]_1)) det1 mul1r.
move=> i; rewrite -(@splitK 1 n i); case: (@fintype.split 1 n i) => k /=; last by rewrite (row_mxEr (a%:M : 'M[F]_1)).
by rewrite (row_mxEl (a%:M : 'M[F]_1)) ord1 mxE eqxx mulr1n.
Qed.

Lemma sqr_entry n (b : 'rV[F]_n) i : (b^T *m b) i i = b 0 i ^+ 2.
Proof. by rewrite mxE big_ord1 mxE expr2. Qed.

(** Products of smaller factors *)
Lemma prod_le (I : finType) (f g : I -> F) : (forall i, 0 < f i) -> (forall i, f i <= g i) -> \prod_i f i <= \prod_i g i.
Proof. by move=> f0 fg; apply: ler_prod => i _; rewrite ltW // fg. Qed.
Lemma prod_eq (I : finType) (f g : I -> F) : (forall i, 0 < f i) -> (forall i, f i <= g i) -> \prod_i f i = \prod_i g i ->
  forall i, f i = g i.
Proof.
move=> f0 fg E i; apply/eqP; rewrite eq_le fg leNgt; apply/negP => lt.
have P : 0 < \prod_(j | j != i) f j by apply: prodr_gt0.
move: E; rewrite (bigD1 i) //= [RHS](bigD1 i) //= => E.
have : f i * \prod_(j | j != i) f j < g i * \prod_(j | j != i) g j.
  apply: lt_le_trans (_ : g i * \prod_(j | j != i) f j <= _); first by rewrite ltr_pmul2r.
  rewrite ler_pmul2l ?(lt_le_trans (f0 i)) //; apply: ler_prod => j _; by rewrite ltW // fg.
by rewrite E ltxx.
Qed.

Lemma block_diag n (a : F) (b : 'rV[F]_n) (D : 'M[F]_n) (M := block_mx a%:M b b^T D : 'M[F]_n.+1) :
  M ord0 ord0 = a /\ forall i, M (lift ord0 i) (lift ord0 i) = D i i.
Proof.
split=> [|i].
  transitivity (M (lshift n (0 : 'I_1)) (lshift n (0 : 'I_1))); first by congr (M _ _); apply: val_inj.
  by apply: etrans (block_mxEul _ _ _ _ _ _) _; rewrite mxE eqxx.
transitivity (M (rshift 1 i) (rshift 1 i)); first by congr (M _ _); apply: val_inj.
exact: block_mxEdr.
Qed.

(** Hadamard's inequality *)
Lemma hadamard n (M : 'M[F]_n) : posdef M -> \det M <= \prod_i M i i.
Proof.
elim: n M => [|n IH] M pM; first by rewrite det_mx00 big_ord0.
have [a [b [D [E a0 pS]]]] := schur (M := M : 'M[F]_(1 + n)) pM.
rewrite {1}E schur_det // big_ord_recl.
have [E0 E1] := block_diag a b D; rewrite -E in E0 E1.
rewrite E0 ler_pmul2l //; apply: (le_trans (IH _ pS)).
rewrite (eq_bigr _ (fun i _ => E1 i)); apply: prod_le => i; first exact: posdef_diag.
rewrite mxE [X in _ + X]mxE [X in - X]mxE sqr_entry ger_addl oppr_le0 mulr_ge0 ?sqr_ge0 //.
by rewrite invr_ge0 ltW.
Qed.

Lemma hadamard_eq n (M : 'M[F]_n) : posdef M -> \det M = \prod_i M i i -> M = diag_mx (\row_i M i i).
Proof.
elim: n M => [|n IH] M pM; first by move=> _; apply/matrixP; case.
have [a [b [D [E a0 pS]]]] := schur (M := M : 'M[F]_(1 + n)) pM.
rewrite {1}E schur_det // big_ord_recl.
have [E0 E1] := block_diag a b D; rewrite -E in E0 E1.
rewrite E0 (eq_bigr _ (fun i _ => E1 i)) => /(mulfI (lt0r_neq0 a0)) EP.
set S := D - _ in pS EP.
have le i : S i i <= D i i.
  rewrite /S mxE [X in _ + X]mxE [X in - X]mxE sqr_entry ger_addl oppr_le0 mulr_ge0 ?sqr_ge0 //.
  by rewrite invr_ge0 ltW.
have pos i : 0 < S i i by apply: posdef_diag.
have ES : \det S = \prod_i S i i.
  apply/eqP; rewrite eq_le hadamard //= EP; exact: prod_le.
have Eq := prod_eq pos le; have {}Eq := Eq (etrans (esym ES) EP).
have b0 : b = 0.
  apply/matrixP => x i; rewrite ord1 !mxE; apply/eqP; rewrite -sqrf_eq0.
  have := Eq i; rewrite /S mxE [X in _ + X]mxE [X in - X]mxE sqr_entry => /eqP.
  by rewrite -subr_eq0 addrAC subrr add0r oppr_eq0 mulf_eq0 invr_eq0 gt_eqF.
have SD : S = D by rewrite /S b0 mulmx0 scaler0 subr0.
have DD := IH _ pS ES; rewrite SD in DD.
apply/matrixP => i j; rewrite [RHS]mxE [X in X *+ _]mxE; case: eqP => [-> | /eqP ij]; first by rewrite mulr1n.
rewrite mulr0n E b0 trmx0.
rewrite -(@splitK 1 n i) -(@splitK 1 n j) in ij *.
case: (@fintype.split 1 n i) (@fintype.split 1 n j) ij => u [] v /= ij.
- by rewrite !ord1 eqxx in ij.
- by apply: etrans (block_mxEur _ _ _ _ _ _) _; rewrite mxE.
- by apply: etrans (block_mxEdl _ _ _ _ _ _) _; rewrite mxE.
apply: etrans (block_mxEdr _ _ _ _ _ _) _; rewrite DD !mxE; case: eqP => [uv | //]; by rewrite uv eqxx in ij.
Qed.
End Schur.

Section Like.
Variable F : realFieldType.
Add Field ffO : (fieldT F).
Variable log : F -> F.

Lemma prod_gt0 n (x : 'I_n -> F) : (forall i, 0 < x i) -> 0 < \prod_i x i.
Proof. by move=> x0; apply: prodr_gt0. Qed.

(** tr (M W) as a sum over the diagonal of M *)
Lemma trace_congr n (M W : 'M[F]_n) : posdef M -> posdef W -> exists (U : 'M[F]_n) (d : 'rV[F]_n),
  [/\ M = U^T *m diag_mx d *m U, \det U = 1, forall i, 0 < d 0 i, posdef (U *m W *m U^T) &
      \tr (M *m W) = \sum_i d 0 i * (U *m W *m U^T) i i].
Proof.
move=> /congruence [U [d [E dU d0]]] pW; exists U, d; split=> //.
  by apply: posdef_congr => //; rewrite unitmxE dU unitr1.
rewrite E -!mulmxA mxtrace_mulC -!mulmxA /mxtrace; apply: eq_bigr => i _.
by rewrite mul_diag_mx mxE !mulmxA.
Qed.

Lemma likelihood_min n (M W : 'M[F]_n) : posdef M -> posdef W -> log_tangent log n (\det W)^-1 ->
  - log (\det W)^-1 + n%:R <= - log (\det M) + \tr (M *m W).
Proof.
move=> pM pW [mono tang].
have [U [d [E dU d0 pK ->]]] := trace_congr pM pW.
set K := U *m W *m U^T in pK *.
have x0 i : 0 < d 0 i * K i i by apply: mulr_gt0 => //; apply: posdef_diag.
have dW : 0 < \det W by apply: posdef_det.
have dM : 0 < \det M by apply: posdef_det.
have EM : \det M = \prod_i d 0 i by rewrite E !det_mulmx det_tr dU mul1r mulr1 det_diag.
have EK : \det K = \det W by rewrite /K !det_mulmx det_tr dU mul1r mulr1.
have le : \det M <= (\det W)^-1 * \prod_i (d 0 i * K i i).
  rewrite big_split /= -EM mulrCA ler_pmulr // mulrC ler_pdivl_mulr // mul1r -EK; exact: hadamard.
have := le_trans (mono _ _ dM le) (tang _ x0).
rewrite big_split /= sumr_const card_ord mulNrn; set S := \sum_i _ => H.
by rewrite -ler_opp2 !opprD !opprK -(ler_add2r S) subrK -addrA [- _ + S]addrC.
Qed.

Lemma likelihood_min_eq n (M W : 'M[F]_n) : posdef M -> posdef W -> log_tangent_strict log n (\det W)^-1 ->
  - log (\det M) + \tr (M *m W) <= - log (\det W)^-1 + n%:R -> M *m W = 1%:M.
Proof.
move=> pM pW [[mono tang] smono stang].
have [U [d [E dU d0 pK ->]]] := trace_congr pM pW.
set K := U *m W *m U^T in pK *.
have x0 i : 0 < d 0 i * K i i by apply: mulr_gt0 => //; apply: posdef_diag.
have dW : 0 < \det W by apply: posdef_det.
have dM : 0 < \det M by apply: posdef_det.
have EM : \det M = \prod_i d 0 i by rewrite E !det_mulmx det_tr dU mul1r mulr1 det_diag.
have EK : \det K = \det W by rewrite /K !det_mulmx det_tr dU mul1r mulr1.
have le : \det M <= (\det W)^-1 * \prod_i (d 0 i * K i i).
  rewrite big_split /= -EM mulrCA ler_pmulr // mulrC ler_pdivl_mulr // mul1r -EK; exact: hadamard.
set S := \sum_i _ => H.
have {}H : log (\det W)^-1 + \sum_i (d 0 i * K i i - 1) <= log (\det M).
  rewrite big_split /= sumr_const card_ord mulNrn -/S.
  move: H; move: (n%:R) (log _) (log _) S => u v w z H.
  by rewrite -(ler_add2l (- w - v + u)); move: H; congr (_ <= _); rg F.
have T := tang _ x0; have L := mono _ _ dM le.
have ET : log ((\det W)^-1 * \prod_i (d 0 i * K i i)) = log (\det W)^-1 + \sum_i (d 0 i * K i i - 1).
  by apply/eqP; rewrite eq_le T (le_trans H L).
have X1 := stang _ x0 ET.
have EL : \det M = (\det W)^-1 * \prod_i (d 0 i * K i i).
  apply/eqP; rewrite eq_le le leNgt; apply/negP => lt.
  by have := lt_le_trans (smono _ _ dM lt) (le_trans T H); rewrite ltxx.
have DK : \det K = \prod_i K i i.
  move: EL; rewrite big_split /= -EM EK => EL; apply: (mulfI (lt0r_neq0 dM)).
  by rewrite {1}EL mulrAC mulrC mulrA mulVf ?gt_eqF // mul1r || rewrite [LHS]mulrC {1}EL mulrA mulfV ?gt_eqF // mul1r.
have KD := hadamard_eq pK DK.
have DK1 : diag_mx d *m K = 1%:M.
  move: KD X1; move: (K) => K0 KD X1; rewrite KD; apply/matrixP => i j; rewrite mul_diag_mx !mxE.
  by case: eqP => [->|_]; rewrite ?mulr1n ?X1 // ?mulr0n ?mulr0.
have uU : U \in unitmx by rewrite unitmxE dU unitr1.
have uT : U^T \in unitmx by rewrite unitmx_tr.
have -> : M *m W = U^T *m (diag_mx d *m K) *m invmx U^T by rewrite E /K !mulmxA mulmxK.
by rewrite DK1 mulmx1 mulmxV.
Qed.
End Like.
