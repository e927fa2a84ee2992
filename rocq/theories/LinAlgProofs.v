(** Determinants and positive definiteness. *)
From Coq Require Import ZArith Relations.
From mathcomp Require Import all_ssreflect all_algebra all_fingroup.
From Verif Require Import Base GraphSpec NumSpec.
Set Implicit Arguments.
Unset Strict Implicit.
Unset Printing Implicit Defensive.
Import Order.Theory GRing.Theory Num.Theory.
Local Open Scope ring_scope.

Section LinAlg.
Variable F : realFieldType.

(** ** det(I - B^T) = 1 on a DAG *)
Lemma perm_cycle p (A : mat) (s : 'S_p) (i : 'I_p) :
  (forall k, s k != k -> edge A (s k) k) -> s i != i -> clos_trans nat (edge A) i i.
Proof.
move=> H Hi.
have Hk : forall k, (s ^+ k)%g i != s ((s ^+ k)%g i).
  by move=> k; rewrite -permM -expgSr expgS permM (inj_eq perm_inj) eq_sym.
have P : forall k, clos_trans nat (edge A) ((s ^+ k.+1)%g i) i.
  elim=> [|k IH]; first by rewrite expg1; apply: t_step; apply: H.
  apply: (@t_trans nat (edge A) _ ((s ^+ k.+1)%g i) _) => //.
  by rewrite expgSr permM; apply: t_step; apply: H; rewrite eq_sym.
have := P #[s]%g.-1; rewrite prednK ?order_gt0 // expg_order perm1.
done.
Qed.

Lemma det_sub_dag p (A : mat) (B : 'M[F]_p) : acyclic A -> supported A B -> \det (1%:M - B^T) = 1.
Proof.
move=> HA HB; rewrite /determinant (bigD1 1%g) //= [X in _ + X]big1 ?addr0.
  rewrite odd_perm1 expr0 mul1r big1 // => i _; rewrite perm1 !mxE eqxx.
  case: (altP (B i i =P 0)) => [->|Bi]; first by rewrite subr0.
  by case: (HA i); apply: t_step; apply: HB.
move=> s Hs.
case: (boolP [forall k, (s k != k) ==> (B (s k) k != 0)]) => [/forallP H|].
  have [i Hi] : exists i, s i != i.
    apply/existsP; rewrite -negb_forall; apply: contra Hs => /forallP E.
    by apply/eqP/permP => k; rewrite perm1; apply/eqP.
  case: (HA i); apply: (@perm_cycle p A s) => // k Hk; apply: HB.
  by have := H k; rewrite Hk.
rewrite negb_forall => /existsP [k]; rewrite negb_imply negbK => /andP [Hk /eqP Bk].
rewrite (bigD1 k) //= !mxE Bk eq_sym (negbTE Hk) subr0 mul0r mulr0 //.
Qed.

(** ** Positive definite matrices *)
Lemma posdef_unit n (M : 'M[F]_n) : posdef M -> M \in unitmx.
Proof.
case=> sM pM; apply: contraT => nU.
have : ~~ row_free M by rewrite row_free_unit.
rewrite -kermx_eq0 => K.
have [i Hi] : exists i, row i (kermx M) != 0.
  apply/existsP; rewrite -negb_forall; apply: contra K => /forallP E.
  by apply/eqP/row_matrixP => i; rewrite row0; apply/eqP.
have Z : row i (kermx M) *m M = 0 by apply/sub_kermxP; apply: row_sub.
have N0 : (row i (kermx M))^T != 0 by apply: contra Hi => /eqP E; rewrite -[row i _]trmxK E trmx0.
by have := pM _ N0; rewrite trmxK Z mul0mx mxE ltxx.
Qed.

Lemma posdef_congr n (M Q : 'M[F]_n) : Q \in unitmx -> posdef M -> posdef (Q *m M *m Q^T).
Proof.
move=> UQ [sM pM]; split; first by rewrite !trmx_mul trmxK sM mulmxA.
move=> x Nx; have -> : x^T *m (Q *m M *m Q^T) *m x = (Q^T *m x)^T *m M *m (Q^T *m x).
  by rewrite trmx_mul trmxK !mulmxA.
apply: pM; apply: contra Nx => /eqP E.
have : invmx Q^T *m (Q^T *m x) = 0 by rewrite E mulmx0.
by rewrite mulmxA mulVmx ?unitmx_tr // mul1mx => ->.
Qed.

Lemma sum_sqr_eq0 n (x : 'cV[F]_n) (w : 'I_n -> F) : (forall i, 0 < w i) -> x != 0 ->
  0 < \sum_i w i * x i 0 ^+ 2.
Proof.
move=> Hw Nx; have [i Hi] : exists i, x i 0 != 0.
  apply/existsP; rewrite -negb_forall; apply: contra Nx => /forallP E.
  by apply/eqP/matrixP => i j; rewrite !mxE ord1; apply/eqP.
rewrite (bigD1 i) //=; apply: ltr_paddr.
  by apply: sumr_ge0 => j _; apply: mulr_ge0; [apply: ltW | apply: sqr_ge0].
by apply: mulr_gt0 => //; rewrite exprn_even_gt0.
Qed.

Lemma quad_diag n (d : 'rV[F]_n) (x : 'cV[F]_n) : (x^T *m diag_mx d *m x) 0 0 = \sum_i d 0 i * x i 0 ^+ 2.
Proof.
rewrite mxE; apply: eq_bigr => i _.
rewrite mxE (bigD1 i) //= big1 ?addr0; last by move=> j Hj; rewrite !mxE (negbTE Hj) mulr0n mulr0.
by rewrite !mxE eqxx mulr1n expr2 mulrAC mulrA mulrC mulrA.
Qed.

Lemma posdef_noise l p (g : 'M[F]_(l, p)) (ps : 'rV[F]_l) (om : 'rV[F]_p) :
  (forall i, 0 <= ps 0 i) -> (forall i, 0 < om 0 i) ->
  posdef (g^T *m diag_mx ps *m g + diag_mx om).
Proof.
move=> Hp Ho; split.
  by rewrite linearD /= !trmx_mul trmxK !tr_diag_mx mulmxA.
move=> x Nx; rewrite mulmxDr mulmxDl mxE.
have -> : x^T *m (g^T *m diag_mx ps *m g) *m x = (g *m x)^T *m diag_mx ps *m (g *m x).
  by rewrite trmx_mul !mulmxA.
rewrite !quad_diag; apply: ltr_paddl; last exact: sum_sqr_eq0.
by apply: sumr_ge0 => i _; apply: mulr_ge0 => //; apply: sqr_ge0.
Qed.

(** The determinant of a positive definite matrix is positive: Schur complement. *)
Lemma posdef_det n (M : 'M[F]_n) : posdef M -> 0 < \det M.
Proof.
elim: n M => [|n IH] M pM; first by rewrite det_mx00 ltr01.
move: M pM; rewrite -add1n => M; rewrite -(submxK M).
set a := ulsubmx M; set b := ursubmx M; set c := dlsubmx M; set d := drsubmx M.
case=> sM qM.
have Ec : c = b^T by have := sM; rewrite tr_block_mx => /eq_block_mx [_ _ <- _].
have sd : d^T = d by have := sM; rewrite tr_block_mx => /eq_block_mx [_ _ _ ->].
have qa : 0 < a 0 0.
  have N0 : col_mx (1 : 'cV[F]_1) (0 : 'cV[F]_n) != 0.
    apply/eqP => E; have := congr1 (fun X : 'cV_(1 + n) => X (lshift n 0) 0) E.
    by rewrite col_mxEu !mxE eqxx => /eqP; rewrite oner_eq0.
  have := qM _ N0; rewrite tr_col_mx mul_row_block trmx0 !mul0mx !addr0 mul_row_col mulmx0 addr0.
  by rewrite trmx1 mul1mx mulmx1.
have ua : a \in unitmx by rewrite unitmxE det_mx11 unitfE gt_eqF.
have E : block_mx a b c d = block_mx 1%:M 0 (c *m invmx a) 1%:M *m block_mx a b 0 (d - c *m invmx a *m b).
  by rewrite mulmx_block !mul1mx !mul0mx !addr0 mulmxKV // addrC subrK.
rewrite E det_mulmx det_lblock !det1 !mul1r det_ublock det_mx11; apply: mulr_gt0 => //.
have ia : (invmx a)^T = invmx a.
  by rewrite trmx_inv (mx11_scalar a) tr_scalar_mx.
apply: IH; split.
  by rewrite linearB /= sd Ec !trmx_mul trmxK ia mulmxA.
move=> x Nx; have N0 : col_mx (- (invmx a *m b *m x)) x != 0.
  apply: contra Nx => /eqP E0; apply/eqP.
  by have := congr1 dsubmx E0; rewrite col_mxKd => ->; apply/matrixP => i j; rewrite !mxE.
have := qM _ N0; rewrite -mulmxA mul_block_col tr_col_mx mul_row_col.
have -> : a *m - (invmx a *m b *m x) + b *m x = 0.
  by rewrite mulmxN !mulmxA mulmxV // mul1mx addNr.
rewrite mulmx0 add0r; congr (_ < _ 0 0).
by rewrite mulmxN mulmxBr mulmxBl !mulmxA addrC mulmxDr mulmxN !mulmxA.
Qed.

Lemma posdef_inv n (M : 'M[F]_n) : posdef M -> posdef (invmx M).
Proof.
move=> pM; have U := posdef_unit pM.
have sI : (invmx M)^T = invmx M by rewrite trmx_inv (proj1 pM).
have := @posdef_congr n M (invmx M); rewrite unitmx_inv U sI mulVmx // mul1mx; exact.
Qed.
End LinAlg.
