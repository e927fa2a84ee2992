(** Concrete inputs that meet the hypotheses of the theorems of PropInit.v. *)
From Coq Require Import ZArith.
From mathcomp Require Import all_ssreflect all_algebra.
From Verif Require Import Base GraphModel GraphSpec TopoProofs ListModel NumModel NumSpec LinAlgProofs NumProofs ScoreModel GradSpec ScoreSpec.
From Verif Require Import GDProofs ScoreProofs NoErrProofs RunProofs Run2Proofs Lr0Proofs InitModel InitSpec InitProofs Init2Proofs PropInit FieldTac.
Set Implicit Arguments.
Unset Strict Implicit.
Unset Printing Implicit Defensive.
Import Order.Theory GRing.Theory Num.Theory.
Local Open Scope ring_scope.

Section Ex.
Variables (F : realFieldType) (log : F -> F) (h : hord).
Add Field fex : (fieldT F).

(** The graph 0 -> 1 and covariances with average (4 2; 2 2) *)
Definition sgi (k : 'I_2) : 'M[F]_2 := \matrix_(i, j) if (i == 0) && (j == 0) then (if k == 0 then 3%:R else 5%:R) else 2%:R.
Definition four (x : F) : F := if x == 4%:R then 2%:R else x.
Definition cfi (l : nat) : conf F 2 l 2 :=
  Conf log h id (fun=> None) (fun M => (1%:M, \row_k M k k)) four (fun=> true) sgi (fun=> 7%N) None false 1 0 0 1 0 0 Cvx 1.

Lemma sgi_posdef k : posdef (sgi k).
Proof.
split; first by apply/matrixP => i j; rewrite !mxE andbC.
move=> x x0; rewrite mxE !big_ord_recl big_ord0 !mxE !big_ord_recl !big_ord0 !mxE /= !addr0.
have : x 0 0 != 0 \/ x (lift 0 0) 0 != 0.
  case: (boolP (x 0 0 == 0)) => [/eqP a0|]; last by left.
  case: (boolP (x (lift 0 0) 0 == 0)) => [/eqP b0|]; last by right.
  case/eqP: x0; apply/matrixP => i j; rewrite ord1 mxE; case: (unliftP 0 i) => [i' ->|->] //; by rewrite ord1.
move: (x 0 0) (x (lift 0 0) 0) => a b ab; set c : F := if k == 0 then _ else _.
have -> : (a * c + b * 2%:R) * a + (a * 2%:R + b * 2%:R) * b = (c - 2%:R) * a ^+ 2 + 2%:R * (a + b) ^+ 2.
  rewrite !expr2; rg F.
have c2 : 0 < c - 2%:R by rewrite subr_gt0 /c; case: ifP => _; rewrite ltr_nat.
case: (boolP (a == 0)) => [/eqP a0|a0].
  have b0 : b != 0 by case: ab => //; rewrite a0 eqxx.
  by rewrite a0 expr0n mulr0 !add0r mulr_gt0 ?ltr0n // lt_neqAle sqr_ge0 andbT eq_sym sqrf_eq0.
apply: ltr_paddr; first by rewrite mulr_ge0 ?ler0n ?sqr_ge0.
by apply: mulr_gt0 => //; rewrite lt_neqAle sqr_ge0 andbT eq_sym sqrf_eq0.
Qed.
Lemma avg_sgi l : avg_cov (cfi l) = \matrix_(i, j) if (i == 0) && (j == 0) then 4%:R else 2%:R.
Proof.
apply/matrixP => i j; rewrite /avg_cov mxE summxE !big_ord_recl !big_ord0 !mxE addr0 /=; case: ifP => _.
  by rewrite -!natrM -natrD mulrC; apply: (canLR (mulfK _)); rewrite -?natrM ?pnatr_eq0.
by rewrite -!natrM -natrD mulrC; apply: (canLR (mulfK _)); rewrite -?natrM ?pnatr_eq0.
Qed.
Lemma avg_semidef l : semidef (avg_cov (cfi l)).
Proof.
have [S P] : posdef (avg_cov (cfi l)) by apply: avg_posdef => //; exact: sgi_posdef.
split=> // x; case: (boolP (x == 0)) => [/eqP ->|/P /ltW //]; by rewrite mulmx0 mxE.
Qed.

(** The initial model has weight 1/2 on the edge, and the residuals have variances 4 and 1 *)
Lemma cfi_B l B : initialize_B (cfi l) A2 = Ok B -> B = \matrix_(i, j) if (i == 0) && (j != 0) then 2%:R^-1 else 0.
Proof.
move=> E; have [SB NE] := initialize_B_normal (proj1 (avg_semidef l)) E.
have Z (i j : 'I_2) : ~ edge A2 i j -> B i j = 0 by move=> H; apply/eqP; apply: contraT => /SB.
apply/matrixP => i j; rewrite mxE; case: (unliftP 0 i) => [i' ->|->]; case: (unliftP 0 j) => [j' ->|->]; rewrite ?ord1 /=;
  try by apply: Z; case.
have E01 : edge A2 0 1 by [].
have := NE 0 (lift 0 0) E01; rewrite avg_sgi mxE !big_ord_recl big_ord0 !mxE /= (Z (lift 0 0) (lift 0 0)) ?mulr0 ?addr0; last by case.
move=> E2; apply: (@mulfI _ 4%:R); first by rewrite pnatr_eq0.
by rewrite E2 -[4%N]/((2 * 2)%N) natrM mulfK // pnatr_eq0.
Qed.
Lemma cfi_residual l B : initialize_B (cfi l) A2 = Ok B ->
  residual_cov B (avg_cov (cfi l)) = diag_mx (\row_k (if k == 0 then 4%:R else 1)).
Proof.
move=> /cfi_B ->; rewrite avg_sgi /residual_cov.
have -> : (1%:M - (\matrix_(i < 2, j < 2) if (i == 0) && (j != 0) then 2%:R^-1 else 0)^T) =
  \matrix_(i < 2, j < 2) if i == j then 1 else if i == 0 then 0 else - 2%:R^-1 :> 'M[F]_2.
  apply/matrixP => i j; rewrite !mxE; case: (unliftP 0 i) => [i' ->|->]; case: (unliftP 0 j) => [j' ->|->]; rewrite ?ord1 /= ?subr0 ?sub0r //.
apply/matrixP => i j; rewrite !mxE !big_ord_recl !big_ord0 !mxE !big_ord_recl !big_ord0 !mxE.
have N2 : 1 + 1 != 0 :> F by rewrite -(natrD _ 1 1) pnatr_eq0.
have E2 : 2%:R = 1 + 1 :> F by rewrite -(natrD _ 1 1).
have E4 : 4%:R = (1 + 1) * (1 + 1) :> F by rewrite -(natrD _ 1 1) -natrM.
case: (unliftP 0 i) => [i' ->|->]; case: (unliftP 0 j) => [j' ->|->]; rewrite ?ord1 /= ?mulr1n ?mulr0n ?E4 ?E2; fd F; exact/eqP.
Qed.
Lemma cfi_svd l B : initialize_B (cfi l) A2 = Ok B -> let M := residual_cov B (avg_cov (cfi l)) in
  svd_of M (cf_svd (cfi l) M) /\ exact_sqrt (cf_sqrt (cfi l)) (cf_svd (cfi l) M).2.
Proof.
move=> E M; have EM := cfi_residual E; split.
  exists 1%:M; rewrite /= trmx1 !mul1mx !mulmx1; split=> //.
  - rewrite /M EM; apply/matrixP => i j; rewrite !mxE eqxx mulr1n; by case: eqP => [->|].
  - by move=> k; rewrite /M EM !mxE eqxx mulr1n; case: ifP; rewrite ?ler0n ?ler01.
  move=> j k; rewrite /M EM !mxE !eqxx !mulr1n; case: (unliftP 0 j) => [j' ->|->]; case: (unliftP 0 k) => [k' ->|->];
    by rewrite ?ord1 //= ler1n.
move=> k; rewrite /M EM /= !mxE eqxx mulr1n /four; case: (k == 0); rewrite ?eqxx -?natrX //.
by rewrite -[X in X == _]/(1%:R) eqr_nat expr1n.
Qed.

(** One latent or two *)
Example C74_ls_ex l : (exists B, initialize_B (cfi l) A2 = Ok B) /\ semidef (avg_cov (cfi l)).
Proof.
split; last exact: avg_semidef.
exact: (@init_cols_ok F 2 l 2 (cfi l) A2 erefl sgi_posdef (fun=> erefl)).
Qed.
Example C113_ex l : (l <= 2)%N -> exists m, [/\ initial_model (cfi l) A2 [:: 0]%N = Ok m, mB m 0 1 = 2%:R^-1,
  init_cov (cfi l) InitAvg = Ok (avg_cov (cfi l)), init_gamma (cfi l) InitAvg (mB m) = Ok (mgamma m) & [/\ semidef (avg_cov (cfi l)),
  svd_of (residual_cov (mB m) (avg_cov (cfi l))) (cf_svd (cfi l) (residual_cov (mB m) (avg_cov (cfi l)))),
  exact_sqrt (cf_sqrt (cfi l)) (cf_svd (cfi l) (residual_cov (mB m) (avg_cov (cfi l)))).2 &
  (\sum_i cf_n_obs (cfi l) i)%N%:R != 0 :> F]].
Proof.
move=> l2; have [[B EB] SD] := C74_ls_ex l; have [HS SQ] := cfi_svd EB.
have [g EG] : exists g, initialize_gamma (cfi l) B = Ok g by rewrite /initialize_gamma l2; eexists.
have SB : supported A2 B := initialize_B_supported EB.
exists (MkModel A2 B g (initialize_omegas (cfi l) B [:: 0]%N) (initialize_psis F l 2) (1%:M - B^T)); split=> //; last first.
- by split=> //; rewrite !big_ord_recl big_ord0 pnatr_eq0.
- by rewrite /= (cfi_B EB) mxE.
transitivity (bind (initialize_gamma (cfi l) B) (fun g => new_model h A2 B g (initialize_omegas (cfi l) B [:: 0]%N) (initialize_psis F l 2))).
  by rewrite /initial_model EB.
by rewrite EG /= (newM_ok (cfi l) A2_sq A2_nonneg A2_acyclic).
Qed.
Example C114_ex : exists (i0 : 'I_2), i0 = 0%N :> nat /\ (\sum_i cf_n_obs (cfi 1) i)%N%:R != 0 :> F.
Proof. by exists 0; split=> //; rewrite !big_ord_recl big_ord0 pnatr_eq0. Qed.
End Ex.
