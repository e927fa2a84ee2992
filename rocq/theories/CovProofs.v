(** Sample covariances: positive definite for samples in general position (C107). *)
From Coq Require Import ZArith.
From mathcomp Require Import all_ssreflect all_algebra.
From Verif Require Import Base NumSpec CovSpec CovModel LinAlgProofs.
Set Implicit Arguments.
Unset Strict Implicit.
Unset Printing Implicit Defensive.
Import Order.Theory GRing.Theory Num.Theory.
Local Open Scope ring_scope.

Section Cov.
Variables (F : realFieldType) (p : nat).
Implicit Types (X : seq 'rV[F]_p) (v : 'cV[F]_p) (x : 'rV[F]_p).
Local Notation mean X := ((size X)%:R^-1 *: \sum_(x <- X) x).

Lemma combE v x : combination v x = (x *m v) 0 0.
Proof. by rewrite mxE. Qed.
Lemma combB v x y : combination v (x - y) = combination v x - combination v y.
Proof. by rewrite !combE mulmxBl !mxE. Qed.
Lemma cov_sym X : (np_cov X)^T = np_cov X.
Proof.
rewrite /np_cov linearZ linear_sum /=; congr (_ *: _); apply: eq_bigr => x _.
by rewrite trmx_mul trmxK.
Qed.
Lemma cov_quad X v : (v^T *m np_cov X *m v) 0 0 = (size X).-1%:R^-1 * \sum_(x <- X) (combination v x - combination v (mean X)) ^+ 2.
Proof.
rewrite /np_cov -scalemxAr -scalemxAl mxE; congr (_ * _).
rewrite mulmx_sumr mulmx_suml summxE; apply: eq_bigr => x _.
move: (mean X) => m; have -> : v^T *m ((x - m)^T *m (x - m)) *m v = (v^T *m (x - m)^T) *m ((x - m) *m v) by rewrite !mulmxA.
rewrite mxE big_ord1 expr2 -combB !combE; congr (_ * _).
by rewrite -trmx_mul mxE.
Qed.
Lemma cov_psd X v : 0 <= (v^T *m np_cov X *m v) 0 0.
Proof. by rewrite cov_quad mulr_ge0 ?invr_ge0 ?ler0n // sumr_ge0 // => x _; rewrite sqr_ge0. Qed.

Lemma comb_mean X v a : (0 < size X)%N -> (forall x, x \in X -> combination v x = a) -> combination v (mean X) = a.
Proof.
move=> n0 H; rewrite combE -scalemxAl mxE mulmx_suml summxE.
rewrite (eq_big_seq (fun=> a)); last by move=> x /H <-; rewrite combE.
by rewrite big_const_seq count_predT iter_addr_0 -[a *+ _]mulr_natl mulKf // pnatr_eq0 -lt0n.
Qed.
Lemma cov_flat X v : (1 < size X)%N ->
  ((v^T *m np_cov X *m v) 0 0 == 0) = all (fun x => combination v x == combination v (head 0 X)) X.
Proof.
move=> n1; have n0 : (0 < size X)%N by apply: ltnW.
rewrite cov_quad mulf_eq0 invr_eq0 pnatr_eq0 -subn1 subn_eq0 leqNgt n1 /=.
rewrite (big_nth 0) big_mkord psumr_eq0; last by move=> i _; rewrite sqr_ge0.
apply/allP/allP => [H x Hx|H i _].
  have E y : y \in X -> combination v y = combination v (mean X).
    move=> Hy; have Hi : (index y X < size X)%N by rewrite index_mem.
    have := H (Ordinal Hi) (mem_index_enum _); rewrite /= expf_eq0 /= subr_eq0 nth_index // => /eqP ->.
    by [].
  by rewrite (E x Hx) (E (head 0 X)) //; case: (X) n0 => //= y s _; rewrite mem_head.
apply/implyP => _; rewrite expf_eq0 /= subr_eq0; apply/eqP.
have E y : y \in X -> combination v y = combination v (head 0 X) by move=> /H /eqP.
by rewrite (comb_mean n0 E) E // mem_nth.
Qed.
Lemma cov_posdef X : (1 < size X)%N -> posdef (np_cov X) <-> varied X.
Proof.
move=> n1; split=> [[_ H] v v0|H].
  have := H v v0; rewrite lt_def (cov_flat v n1) => /andP[/allPn [x Hx /eqP N] _].
  by exists x, (head 0 X); split=> //; case: (X) n1 => //= y s _; rewrite mem_head.
split=> [|v v0]; first exact: cov_sym.
rewrite lt_def cov_psd andbT (cov_flat v n1); apply/negP => /allP E.
by have [x [y [/E /eqP -> /E /eqP -> /(_ erefl)]]] := H v v0.
Qed.
Lemma cov_singular X : (1 < size X)%N -> (size X <= p)%N -> ~ posdef (np_cov X).
Proof.
move=> n1 np /(cov_posdef n1) H.
pose D := \matrix_(i < (size X).-1) (nth 0 X i.+1 - head 0 X).
have K : kermx D^T != 0.
  rewrite kermx_eq0 /row_free mxrank_tr neq_ltn; apply/orP; left.
  by apply: leq_ltn_trans (rank_leq_row D) _; case: (X) n1 np.
have N0 : (nz_row (kermx D^T))^T != 0 by rewrite trmx_eq0 nz_row_eq0.
have E i : combination (nz_row (kermx D^T))^T (nth 0 X i.+1 - head 0 X) = 0 \/ (size X <= i.+1)%N.
  case: (leqP (size X) i.+1) => [|Hi]; [by right|left].
  have Hi' : (i < (size X).-1)%N by case: (X) Hi.
  have /sub_kermxP Z : (nz_row (kermx D^T) <= kermx D^T)%MS by exact: nz_row_sub.
  have := congr1 (fun M : 'M_(1, _) => M 0 (Ordinal Hi')) Z; rewrite !mxE => Z'.
  rewrite -[RHS]Z'; apply: eq_bigr => k _; by rewrite [(nz_row _)^T _ _]mxE [D^T _ _]mxE [D _ _]mxE mulrC.
have C x : x \in X -> combination (nz_row (kermx D^T))^T x = combination (nz_row (kermx D^T))^T (head 0 X).
  move=> /(nthP 0) [[|i] Hi <-]; first by rewrite nth0.
  by case: (E i) => [/eqP|]; [rewrite combB subr_eq0 => /eqP|rewrite leqNgt Hi].
by have [x [y [/C -> /C -> /(_ erefl)]]] := H _ N0.
Qed.

Lemma cov_perm X Y : perm_eq X Y -> np_cov X = np_cov Y.
Proof.
move=> P; rewrite /np_cov (perm_size P).
have -> : \sum_(x <- X) x = \sum_(x <- Y) x by exact: perm_big.
congr (_ *: _); exact: perm_big.
Qed.
Lemma cov_convert (c b : 'I_p -> F) X : (0 < size X)%N -> np_cov [seq convert c b x | x <- X] = convert_cov c (np_cov X).
Proof.
move=> n0; have EM j : (mean [seq convert c b x | x <- X]) 0 j = c j * (mean X) 0 j + b j.
  rewrite mxE summxE big_map size_map; under eq_bigr do rewrite mxE.
  rewrite big_split /= -mulr_sumr mulrDr mulrCA big_const_seq count_predT iter_addr_0 -[b j *+ _]mulr_natl.
  by rewrite mulKf ?pnatr_eq0 -?lt0n // [in RHS]mxE summxE.
rewrite /np_cov; apply/matrixP => i j; rewrite [in RHS]mxE [in LHS]mxE [in RHS]mxE size_map mulrCA; congr (_ * _).
rewrite !summxE big_map mulr_sumr; apply: eq_bigr => x _.
have E k : (convert c b x - mean [seq convert c b y | y <- X]) 0 k = c k * (x - mean X) 0 k.
  by rewrite [in LHS]mxE [in X in _ + X = _]mxE EM !mxE mulrDr mulrN opprD addrACA subrr addr0.
by rewrite size_map in E; rewrite !mxE !big_ord1 ![_^T _ _]mxE !E mulrACA.
Qed.
End Cov.
Lemma cov_positive : forall (F : realFieldType) (p : nat) (X : seq 'rV[F]_p), (1 < size X)%N ->
  (np_cov X)^T = np_cov X /\ (forall v : 'cV[F]_p, 0 <= (v^T *m np_cov X *m v) 0 0) /\ (posdef (np_cov X) <-> varied X).
Proof. move=> F p X n1; split; [exact (cov_sym X)|]. split; [exact (cov_psd X)|exact (cov_posdef n1)]. Qed.
