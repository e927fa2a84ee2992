(** Derivatives of determinants, inverses and of the likelihood. *)
From mathcomp Require Import all_ssreflect all_algebra all_fingroup.
From Verif Require Import Base FieldTac GradSpec DerivProofs.
Set Implicit Arguments.
Unset Strict Implicit.
Unset Printing Implicit Defensive.
Import Order.Theory GRing.Theory Num.Theory.
Local Open Scope ring_scope.

Section Deriv2.
Variable F : realFieldType.
Implicit Types (t : F).

Lemma deriv_prod (I : eqType) (r : seq I) (f : I -> F -> F) (d : I -> F) : uniq r ->
  (forall i, has_deriv (f i) (d i)) ->
  has_deriv (fun t => \prod_(i <- r) f i t) (\sum_(i <- r) d i * \prod_(j <- r | i != j) f j 0).
Proof.
move=> U H; elim: r U => [|i r IH] /=.
  by move=> _; apply: (@deriv_ext _ (fun=> 1)) => [t|]; rewrite big_nil //; apply: deriv_cst.
case/andP=> ir U; apply: (@deriv_ext _ (fun t => f i t * \prod_(j <- r) f j t)) => [t|]; first by rewrite big_cons.
apply: deriv_eq (deriv_mul (H i) (IH U)) _; rewrite big_cons big_cons eqxx /=; congr (_ * _ + _).
  by rewrite [RHS]big_seq_cond [LHS]big_seq; apply: eq_bigl => j; case J: (j \in r) => //=; apply/esym; apply: contraNneq ir => ->.
rewrite big_distrr /= [LHS]big_seq [RHS]big_seq; apply: eq_bigr => j J; rewrite big_cons.
have -> : j != i by apply: contraNneq ir => <-.
by rewrite mulrCA.
Qed.

Definition mderiv a b (f : F -> 'M[F]_(a, b)) (D : 'M[F]_(a, b)) : Prop :=
  forall i j, has_deriv (fun t => f t i j) (D i j).

Lemma mderiv_near a b (f g : F -> 'M[F]_(a, b)) D : near (fun t => f t = g t) -> mderiv f D -> mderiv g D.
Proof. by move=> E H i j; apply: deriv_near (H i j); apply: near_imp E => t ->. Qed.
Lemma mderiv_cst a b (X : 'M[F]_(a, b)) : mderiv (fun=> X) 0.
Proof. by move=> i j; rewrite mxE; apply: deriv_cst. Qed.
Lemma mderiv_line a b (X H : 'M[F]_(a, b)) : mderiv (fun t => X + t *: H) H.
Proof.
move=> i j; apply: (@deriv_ext _ (fun t => X i j + t * H i j)) => [t|]; first by rewrite !mxE.
apply: deriv_eq (deriv_add (deriv_cst _) (deriv_mul (@deriv_id F) (deriv_cst _))) _.
by rewrite add0r mul1r mulr0 addr0.
Qed.
Lemma mderiv_add a b (f g : F -> 'M[F]_(a, b)) D D' : mderiv f D -> mderiv g D' -> mderiv (fun t => f t + g t) (D + D').
Proof.
move=> H H' i j; rewrite mxE; apply: deriv_ext (deriv_add (H i j) (H' i j)) => t; by rewrite mxE.
Qed.
Lemma mderiv_mul a b c (f : F -> 'M[F]_(a, b)) (g : F -> 'M[F]_(b, c)) D D' : mderiv f D -> mderiv g D' ->
  mderiv (fun t => f t *m g t) (D *m g 0 + f 0 *m D').
Proof.
move=> H H' i j; rewrite !mxE -big_split /=.
apply: (@deriv_ext _ (fun t => \sum_k f t i k * g t k j)) => [t|]; first by rewrite mxE.
by apply: deriv_sum => k _; apply: deriv_mul (H i k) (H' k j).
Qed.
Lemma mderiv_tr a b (f : F -> 'M[F]_(a, b)) D : mderiv f D -> mderiv (fun t => (f t)^T) D^T.
Proof. by move=> H i j; rewrite mxE; apply: deriv_ext (H j i) => t; rewrite mxE. Qed.
Lemma mderiv_eq a b (f : F -> 'M[F]_(a, b)) D D' : mderiv f D -> D = D' -> mderiv f D'.
Proof. by move=> H <-. Qed.
Lemma mderiv_mull a b c (X : 'M[F]_(a, b)) (g : F -> 'M[F]_(b, c)) D : mderiv g D -> mderiv (fun t => X *m g t) (X *m D).
Proof. by move=> H; apply: mderiv_eq (mderiv_mul (mderiv_cst X) H) _; rewrite mul0mx add0r. Qed.
Lemma mderiv_mulr a b c (f : F -> 'M[F]_(a, b)) (X : 'M[F]_(b, c)) D : mderiv f D -> mderiv (fun t => f t *m X) (D *m X).
Proof. by move=> H; apply: mderiv_eq (mderiv_mul H (mderiv_cst X)) _; rewrite mulmx0 addr0. Qed.
Lemma deriv_trace n (f : F -> 'M[F]_n) D : mderiv f D -> has_deriv (fun t => \tr (f t)) (\tr D).
Proof. by move=> H; apply: deriv_sum => i _; apply: H. Qed.

Lemma deriv_det n (f : F -> 'M[F]_n) D : mderiv f D ->
  has_deriv (fun t => \det (f t)) (\sum_i \sum_j D i j * cofactor (f 0) i j).
Proof.
move=> H; have -> : \sum_i \sum_j D i j * cofactor (f 0) i j =
  \sum_(s : 'S_n) (-1) ^+ s * \sum_i D i (s i) * \prod_(j | i != j) f 0 j (s j).
  under [RHS]eq_bigr do rewrite big_distrr /=.
  rewrite [RHS]exchange_big /=; apply: eq_bigr => i _.
  rewrite (partition_big (fun s : 'S_n => s i) predT) //=; apply: eq_bigr => j _.
  rewrite expand_cofactor big_distrr /=; apply: eq_bigr => s /eqP <-.
  by rewrite mulrCA.
apply: deriv_sum => s _; apply: deriv_scale.
by apply: (deriv_prod (f := fun i t => f t i (s i)) (d := fun i => D i (s i))) => [|i]; [exact: index_enum_uniq | exact: H].
Qed.

Lemma cofactor_trace n (A D : 'M[F]_n) : \sum_i \sum_j D i j * cofactor A i j = \tr (\adj A *m D).
Proof.
rewrite /mxtrace exchange_big /=; apply: eq_bigr => j _; rewrite mxE; apply: eq_bigr => i _.
by rewrite mxE mulrC.
Qed.
Lemma deriv_det_unit n (f : F -> 'M[F]_n) D : mderiv f D -> f 0 \in unitmx ->
  has_deriv (fun t => \det (f t)) (\det (f 0) * \tr (invmx (f 0) *m D)).
Proof.
move=> H U; apply: deriv_eq (deriv_det H) _; rewrite cofactor_trace /invmx U -scalemxAl mxtraceZ mulrA mulfV ?mul1r //.
by rewrite -unitfE -unitmxE.
Qed.

Lemma near_unit n (f : F -> 'M[F]_n) D : mderiv f D -> f 0 \in unitmx -> near (fun t => f t \in unitmx).
Proof.
move=> H U; have N0 : 0 < `|\det (f 0)| by rewrite normr_gt0 -unitfE -unitmxE.
apply: near_imp (deriv_cont (deriv_det H) N0) => t Ht.
by rewrite unitmxE unitfE; apply: contraTneq Ht => ->; rewrite sub0r normrN ltxx.
Qed.

Lemma mderiv_minor n (f : F -> 'M[F]_n) D i j : mderiv f D -> mderiv (fun t => row' i (col' j (f t))) (row' i (col' j D)).
Proof. by move=> H a b; rewrite !mxE; apply: deriv_ext (H _ _) => t; rewrite !mxE. Qed.

Lemma mderiv_inv_ex n (f : F -> 'M[F]_n) D : mderiv f D -> f 0 \in unitmx -> exists E, mderiv (fun t => invmx (f t)) E.
Proof.
move=> H U.
have Dd := deriv_det H; have d0 : \det (f 0) != 0 by rewrite -unitfE -unitmxE.
have Di := deriv_inv Dd d0.
pose C i j := \sum_a \sum_b (row' j (col' i D)) a b * cofactor (row' j (col' i (f 0))) a b.
have Dc i j : has_deriv (fun t => cofactor (f t) j i) ((-1) ^+ (j + i) * C i j).
  by apply: deriv_scale; apply: deriv_det; apply: mderiv_minor.
exists (\matrix_(i, j) (- (\sum_i \sum_j D i j * cofactor (f 0) i j) / (\det (f 0) * \det (f 0)) * cofactor (f 0) j i +
   (\det (f 0))^-1 * ((-1) ^+ (j + i) * C i j))).
apply: (mderiv_near (f := fun t => (\det (f t))^-1 *: \adj (f t))).
  by apply: near_imp (near_unit H U) => t Ut; rewrite /invmx Ut.
move=> i j; rewrite mxE; apply: deriv_ext (deriv_mul Di (Dc i j)) => t; by rewrite !mxE.
Qed.

Lemma mderiv_inv n (f : F -> 'M[F]_n) D : mderiv f D -> f 0 \in unitmx ->
  mderiv (fun t => invmx (f t)) (- (invmx (f 0) *m D *m invmx (f 0))).
Proof.
move=> H U; have [E HE] := mderiv_inv_ex H U; apply: mderiv_eq (HE) _.
have H1 := mderiv_mul HE H.
have H2 : mderiv (fun t => invmx (f t) *m f t) 0.
  apply: mderiv_near (mderiv_cst 1%:M); apply: near_imp (near_unit H U) => t Ut; by rewrite mulVmx.
have : E *m f 0 + invmx (f 0) *m D = 0 by apply/matrixP => i j; apply: deriv_unique (H1 i j) (H2 i j).
move/eqP; rewrite addr_eq0 => /eqP Q.
by rewrite -[E]mulmx1 -(mulmxV U) mulmxA Q mulNmx.
Qed.

Lemma deriv_term (log : F -> F) n (S : F -> 'M[F]_n) (sigma D : 'M[F]_n) : mderiv S D -> S 0 \in unitmx ->
  log_at log (\det (S 0)) ->
  has_deriv (fun t => log (\det (S t)) + \tr (invmx (S t) *m sigma))
            (\tr (invmx (S 0) *m D) - \tr (invmx (S 0) *m D *m invmx (S 0) *m sigma)).
Proof.
move=> H U L; have d0 : \det (S 0) != 0 by rewrite -unitfE -unitmxE.
apply: deriv_add.
  by apply: deriv_eq (deriv_comp (deriv_det_unit H U) L) _; rewrite mulrA mulVf ?mul1r.
by apply: deriv_eq (deriv_trace (mderiv_mulr _ (mderiv_inv H U))) _; rewrite mulNmx raddfN.
Qed.

Lemma deriv_likelihood (log : F -> F) p e (S : F -> 'I_e -> 'M[F]_p) (D : 'I_e -> 'M[F]_p) sigmas n_obs :
  (forall i, mderiv (fun t => S t i) (D i)) -> (forall i, S 0 i \in unitmx) -> (forall i, log_at log (\det (S 0 i))) ->
  has_deriv (fun t => likelihood log (S t) sigmas n_obs)
    ((\sum_i (n_obs i)%:R * (\tr (invmx (S 0 i) *m D i) - \tr (invmx (S 0 i) *m D i *m invmx (S 0 i) *m sigmas i)))
     / (\sum_i n_obs i)%N%:R).
Proof.
move=> H U L; rewrite mulrC; apply: (@deriv_ext _ (fun t => (\sum_i n_obs i)%N%:R^-1 *
  \sum_i (n_obs i)%:R * (log (\det (S t i)) + \tr (invmx (S t i) *m sigmas i)))) => [t|]; first by rewrite mulrC.
apply: deriv_scale; apply: deriv_sum => i _; apply: deriv_scale; exact: deriv_term.
Qed.
End Deriv2.
