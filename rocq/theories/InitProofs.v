(** Proofs about the initial parameters (C74, C113, C114). *)
From mathcomp Require Import all_ssreflect all_algebra.
From Verif Require Import InitSpec FieldTac.
Set Implicit Arguments.
Unset Strict Implicit.
Unset Printing Implicit Defensive.
Import Order.Theory GRing.Theory Num.Theory.
Local Open Scope ring_scope.

Section Svd.
Variable F : realFieldType.
Add Field ffi : (fieldT F).
Implicit Types n m : nat.

Lemma gram0 m n (X : 'M[F]_(m, n)) : X^T *m X = 0 -> X = 0.
Proof.
move=> E; apply/matrixP => i j; have /matrixP /(_ j j) := E; rewrite !mxE => /eqP.
rewrite psumr_eq0 => [/allP /(_ i (mem_index_enum _))|k _]; rewrite !mxE -expr2 ?sqr_ge0 //.
by rewrite sqrf_eq0 => /eqP.
Qed.
Lemma quadD n (A : 'M[F]_n) (x y : 'cV[F]_n) : A^T = A ->
  ((x + y)^T *m A *m (x + y)) 0 0 = (x^T *m A *m x) 0 0 + (y^T *m A *m y) 0 0 + 2%:R * (x^T *m A *m y) 0 0.
Proof.
move=> SA; have E : (y^T *m A *m x) 0 0 = (x^T *m A *m y) 0 0.
  have -> : y^T *m A *m x = (x^T *m A *m y)^T by rewrite !trmx_mul trmxK SA mulmxA.
  by rewrite mxE.
have -> : (x + y)^T = x^T + y^T by apply/matrixP => i j; rewrite !mxE.
rewrite !mulmxDl !mulmxDr.
have D (a b : 'M[F]_1) : (a + b) 0 0 = a 0 0 + b 0 0 by rewrite mxE.
rewrite !D E mulr_natl mulr2n; move: (_ 0 0) ((x^T *m A *m y) 0 0) ((y^T *m A *m y) 0 0) => a b c; rg F.
Qed.
Lemma quad0 n (A : 'M[F]_n) : A^T = A -> (forall x : 'cV[F]_n, (x^T *m A *m x) 0 0 = 0) -> A = 0.
Proof.
move=> SA H; have H2 (x y : 'cV[F]_n) : (x^T *m A *m y) 0 0 = 0.
  by have := quadD x y SA; rewrite !H !add0r => /esym /eqP; rewrite mulf_eq0 pnatr_eq0 /= => /eqP.
apply/matrixP => i j; have := H2 (delta_mx i 0) (delta_mx j 0).
by rewrite trmx_delta -rowE -colE !mxE.
Qed.
Lemma quad_conj m n (A : 'M[F]_m) (X : 'M[F]_(m, n)) (x : 'cV[F]_n) : (x^T *m (X^T *m A *m X) *m x) 0 0 = ((X *m x)^T *m A *m (X *m x)) 0 0.
Proof. by rewrite trmx_mul !mulmxA. Qed.
Lemma semidef_conj m n (A : 'M[F]_m) (X : 'M[F]_(m, n)) : semidef A -> semidef (X^T *m A *m X).
Proof. by move=> [SA PA]; split=> [|x]; rewrite ?quad_conj // !trmx_mul trmxK SA mulmxA. Qed.
Lemma semidef_diag n (d : 'rV[F]_n) : (forall k, 0 <= d 0 k) -> semidef (diag_mx d).
Proof.
move=> H; split=> [|x]; first by rewrite tr_diag_mx.
rewrite mxE sumr_ge0 // => k _; rewrite mul_mx_diag !mxE mulrAC mulr_ge0 // -expr2; exact: sqr_ge0.
Qed.

(** A positive semi-definite square root of a square of a diagonal matrix is the diagonal matrix *)
Lemma root_diag n (M : 'M[F]_n) (d : 'rV[F]_n) : semidef M -> (forall k, 0 <= d 0 k) -> M *m M = diag_mx d *m diag_mx d -> M = diag_mx d.
Proof.
move=> [SM PM] d0 E; set D := diag_mx d in E *.
have [SD PD] := semidef_diag d0.
have C : M *m D = D *m M.
  apply/matrixP => i j; rewrite mul_mx_diag mul_diag_mx !mxE.
  have /matrixP /(_ i j) : M *m (D *m D) = D *m D *m M by rewrite -E mulmxA.
  have -> : D *m D = diag_mx (\row_k (d 0 k ^+ 2)) by rewrite mulmx_diag; congr diag_mx; apply/rowP => k; rewrite !mxE expr2.
  rewrite mul_mx_diag mul_diag_mx !mxE => H.
  have : M i j * ((d 0 j - d 0 i) * (d 0 j + d 0 i)) = 0 by rewrite -subr_sqr mulrBr H mulrC subrr.
  move/eqP; rewrite !mulf_eq0 => /orP [/eqP ->|/orP [|]]; first by rewrite mul0r mulr0.
    by rewrite subr_eq0 => /eqP ->; rewrite mulrC.
  by rewrite paddr_eq0 // => /andP [/eqP -> /eqP ->]; rewrite mul0r mulr0.
set X := M - D; have SX : X^T = X by rewrite /X linearB /= SM SD.
have X0 : X *m (M + D) = 0 by rewrite /X mulmxDr !mulmxBl E C addrA addrNK subrr.
have X3 : X *m X *m X = 0.
  apply: quad0 => [|x]; first by rewrite !trmx_mul SX mulmxA.
  have Q (A : 'M[F]_n) : (x^T *m (X *m A *m X) *m x) 0 0 = ((X *m x)^T *m A *m (X *m x)) 0 0 by rewrite -quad_conj SX.
  have := Q (M + D); rewrite X0 mul0mx mulmx0 mul0mx mxE mulmxDr mulmxDl mxE => /esym/eqP.
  rewrite paddr_eq0 ?PM ?PD // => /andP [/eqP q1 /eqP q2].
  by rewrite Q {2}/X mulmxBr mulmxBl mxE [X in _ + X]mxE q1 q2 subrr.
have X2 : X *m X = 0 by apply: gram0; rewrite trmx_mul SX mulmxA X3 mul0mx.
have : X = 0 by apply: gram0; rewrite SX.
by move/eqP; rewrite subr_eq0 => /eqP.
Qed.

(** The singular value decomposition of a positive semi-definite matrix is an eigendecomposition *)
Lemma svd_semidef n (M : 'M[F]_n) US : semidef M -> svd_of M US -> M = US.1 *m diag_mx US.2 *m US.1^T.
Proof.
case: US => U d SM [V /= [UU VV EM d0 _]]; have UU' : U *m U^T = 1%:M := mulmx1C UU.
have E : U^T *m M *m U = diag_mx d.
  apply: root_diag => //; first exact: semidef_conj.
  have -> : U^T *m M *m U *m (U^T *m M *m U) = U^T *m (M *m M^T) *m U.
    by rewrite (proj1 SM) !mulmxA -[U^T *m M *m U *m U^T]mulmxA UU' mulmx1.
  rewrite EM !trmx_mul trmxK tr_diag_mx !mulmxA UU mul1mx -[_ *m V^T *m V]mulmxA VV mulmx1.
  by rewrite -[_ *m U^T *m U]mulmxA UU mulmx1.
by rewrite -E !mulmxA UU' mul1mx -mulmxA UU' mulmx1.
Qed.
End Svd.

Section Gamma.
Variables (F : realFieldType) (p l : nat) (lp : (l <= p)%N).
Variables (M U : 'M[F]_p) (d : 'rV[F]_p) (sqrt : F -> F).
Hypothesis SM : semidef M.
Hypothesis HS : svd_of M (U, d).
Hypothesis SQ : exact_sqrt sqrt d.
Let UU : U^T *m U = 1%:M. Proof. by case: HS => V []. Qed.
Let UU' : U *m U^T = 1%:M. Proof. exact: mulmx1C UU. Qed.
Let d0 k : 0 <= d 0 k. Proof. by case: HS => V []. Qed.
Let dS (j k : 'I_p) : (j <= k)%N -> d 0 k <= d 0 j. Proof. by case: HS => V [_ _ _ _]; apply. Qed.
Let EM : M = U *m diag_mx d *m U^T. Proof. exact: svd_semidef SM HS. Qed.
Local Notation wid := (widen_ord lp).
Definition top_rows : 'M[F]_(l, p) := \matrix_(i, j) (U j (wid i) * sqrt (d 0 (wid i))).
Local Notation g := top_rows.
Local Notation dl := (\row_(k < p) (if (k < l)%N then d 0 k else 0)).

Lemma gg a b : (g *m g^T) a b = if a == b then d 0 (wid a) else 0.
Proof.
rewrite mxE (eq_bigr (fun j => U^T (wid a) j * U j (wid b) * (sqrt (d 0 (wid a)) * sqrt (d 0 (wid b))))) => [|j _]; last by rewrite !mxE mulrACA.
rewrite -mulr_suml; have -> : \sum_j U^T (wid a) j * U j (wid b) = (U^T *m U) (wid a) (wid b) by rewrite mxE.
rewrite UU mxE -val_eqE /= -[(a : nat) == b]/(a == b); case: eqP => [->|_]; last by rewrite mul0r.
by rewrite mul1r -expr2 SQ.
Qed.
Lemma gTg : g^T *m g = U *m diag_mx dl *m U^T.
Proof.
apply/matrixP => i j; rewrite mxE mul_mx_diag mxE.
rewrite [RHS](eq_bigr (fun k : 'I_p => if (k < l)%N then U i k * d 0 k * U j k else 0)) => [|k _].
  rewrite -big_mkcond (big_ord_narrow lp); apply: eq_bigr => a _; rewrite !mxE mulrACA -expr2 SQ //.
  by rewrite -mulrA [U j _ * _]mulrC mulrA.
by rewrite !mxE; case: ifP => _; rewrite ?mulr0 ?mul0r.
Qed.
Lemma gamma_below : semidef (M - g^T *m g).
Proof.
rewrite gTg EM -mulmxBl -mulmxBr -linearB /= -{1}[U]trmxK; apply: semidef_conj; apply: semidef_diag => k.
by rewrite !mxE; case: ifP => _; rewrite ?subrr ?subr0.
Qed.
Lemma gamma_full : l = p -> g^T *m g = M.
Proof.
move=> E; rewrite gTg EM; congr (_ *m diag_mx _ *m _); apply/rowP => k; rewrite mxE.
by have -> : (k < l)%N by rewrite E.
Qed.
(** The latents explain as much variance as any l orthogonal directions *)
Lemma gamma_principal (Q : 'M[F]_(l, p)) : Q *m Q^T = 1%:M -> \tr (Q *m M *m Q^T) <= \tr (g *m g^T).
Proof.
move=> QQ; set R := Q *m U; have RR : R *m R^T = 1%:M by rewrite /R trmx_mul mulmxA -[Q *m U *m U^T]mulmxA UU' mulmx1.
pose P := R^T *m R; have PP : P *m P = P by rewrite /P mulmxA -[R^T *m R *m R^T]mulmxA RR mulmx1.
have SP : P^T = P by rewrite /P trmx_mul trmxK.
have P1 k : P k k <= 1.
  have E : P k k = \sum_i P k i ^+ 2.
    rewrite -{1}PP mxE; apply: eq_bigr => i _; have -> : P i k = P k i by rewrite -{1}SP mxE.
    by rewrite expr2.
  have P0 : 0 <= P k k by rewrite E; apply: sumr_ge0 => i _; exact: sqr_ge0.
  have : P k k ^+ 2 <= P k k.
    rewrite {2}E (bigD1 k) //= ler_addl; apply: sumr_ge0 => i _; exact: sqr_ge0.
  by rewrite leNgt => H; rewrite leNgt; apply: contra H => H; rewrite expr2 ltr_pmulr // (lt_trans ltr01 H).
have P0 k : 0 <= P k k.
  by rewrite mxE; apply: sumr_ge0 => i _; rewrite mxE -expr2 sqr_ge0.
have TP : \sum_k P k k = l%:R by rewrite -[LHS]/(\tr P) /P mxtrace_mulC RR mxtrace1.
have -> : \tr (Q *m M *m Q^T) = \sum_k d 0 k * P k k.
  have -> : Q *m M *m Q^T = R *m diag_mx d *m R^T by rewrite EM /R trmx_mul !mulmxA.
  rewrite mxtrace_mulC mulmxA /mxtrace; apply: eq_bigr => k _; by rewrite -/P mul_mx_diag mxE mulrC.
have -> : \tr (g *m g^T) = \sum_k d 0 k * (if (k < l)%N then 1 else 0).
  rewrite /mxtrace (eq_bigr (fun a => d 0 (wid a))) => [|a _]; last by rewrite gg eqxx.
  have <- : \sum_(k < p | (k < l)%N) d 0 k = \sum_a d 0 (wid a) by rewrite (big_ord_narrow lp).
  rewrite big_mkcond; apply: eq_bigr => k _.
  by case: ifP; rewrite ?mulr1 ?mulr0.
have [t T1 T2] : exists2 t, (forall k : 'I_p, (k < l)%N -> t <= d 0 k) & (forall k : 'I_p, (l <= k)%N -> d 0 k <= t).
  case: (ltnP l p) => H; last by exists 0 => // k Hk; move: (leq_trans H Hk); rewrite leqNgt ltn_ord.
  by exists (d 0 (Ordinal H)) => k Hk; apply: dS => //; exact: ltnW.
have TI : \sum_(k < p) (if (k < l)%N then 1 else 0 : F) = l%:R.
  by rewrite -big_mkcond (big_ord_narrow lp) sumr_const card_ord.
rewrite -subr_ge0 -sumrB.
have -> : \sum_(k < p) (d 0 k * (if (k < l)%N then 1 else 0) - d 0 k * P k k) =
  \sum_(k < p) (d 0 k - t) * ((if (k < l)%N then 1 else 0) - P k k).
  rewrite [RHS](eq_bigr (fun k : 'I_p => (d 0 k * (if (k < l)%N then 1 else 0) - d 0 k * P k k) - t * ((if (k < l)%N then 1 else 0) - P k k))) => [|k _].
    by rewrite [RHS]sumrB -mulr_sumr [X in t * X]sumrB TI TP subrr mulr0 subr0.
  by rewrite mulrBl mulrBr.
apply: sumr_ge0 => k _; case: ltnP => H; first by rewrite mulr_ge0 // subr_ge0 ?T1.
by rewrite sub0r mulrN -mulNr opprB mulr_ge0 // subr_ge0 T2.
Qed.
End Gamma.
