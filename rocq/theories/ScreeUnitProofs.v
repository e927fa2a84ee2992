(** The scree plot and the units of measurement (C136, C137). *)
From Coq Require Import ZArith Lia List.
From mathcomp Require Import all_ssreflect all_algebra.
From Verif Require Import Base ListModel CovModel CovSpec CovProofs MainModel MainSpec ScreeProofs ScreeUnitSpec FieldTac.
Set Implicit Arguments.
Unset Strict Implicit.
Unset Printing Implicit Defensive.
Import Order.Theory GRing.Theory Num.Theory.
Local Open Scope nat_scope.
Local Open Scope ring_scope.

Section Affine.
Variables (F : realFieldType) (log : F -> F) (pi : F).
Implicit Types (xs : seq F) (c d : F).
Local Notation aff c d := (map (fun x => c * x + d)).

Lemma avg_aff c d xs : (0 < size xs)%N -> avg (aff c d xs) = c * avg xs + d.
Proof.
move=> S; rewrite /avg size_map big_map big_split /= -mulr_sumr big_const_seq count_predT iter_addr_0 mulrDl -mulrA; congr (_ + _).
by rewrite -[d *+ _]mulr_natr mulfK // pnatr_eq0 -lt0n.
Qed.
Lemma scatter_aff c d xs : scatter (aff c d xs) = c ^+ 2 * scatter xs.
Proof.
case: (posnP (size xs)) => S; first by rewrite (size0nil S) /scatter !big_nil mulr0.
rewrite /scatter big_map mulr_sumr; apply: eq_bigr => x _; rewrite avg_aff //.
by rewrite opprD addrACA subrr addr0 -mulrBr exprMn.
Qed.
Lemma pooled_aff c d xs h : pooled (aff c d xs) h = c ^+ 2 * pooled xs h.
Proof. by rewrite /pooled -map_take -map_drop !scatter_aff size_map -mulrDr mulrA. Qed.

Lemma scree_aff c d xs : increasing_log log -> 0 < c -> (2 < size xs)%N -> (forall h, (0 < h < size xs)%N -> 0 < pooled xs h) ->
  scree_selection log pi (aff c d xs) = scree_selection log pi xs.
Proof.
move=> IL c0 S P; have c2 : 0 < c ^+ 2 by rewrite exprn_gt0.
have [h [-> Hh L1 L2]] := scree_pooled pi IL S P.
have [||h' [-> Hh' L1' L2']] := @scree_pooled _ _ pi (aff c d xs) IL; rewrite ?size_map //.
  by move=> k Hk; rewrite pooled_aff mulr_gt0 ?P.
rewrite size_map in Hh'; congr Ok.
case: (ltngtP h' h) => // H.
  have /L2 : (0 < h' < h)%N by case/andP: Hh' => -> _.
  by rewrite ltNge; have := L1' h; rewrite size_map !pooled_aff ler_pmul2l // => ->.
have /L2' : (0 < h < h')%N by case/andP: Hh => -> _.
by rewrite !pooled_aff ltr_pmul2l // ltNge L1.
Qed.
End Affine.

Lemma numbers_units (F : realFieldType) (p e : nat) (w : world F p e) (a : args F) c b X training :
  increasing_log (w_log w) -> (forall X, w_cov w X = np_cov X) -> svd_homogeneous w -> a_nums_latent a = None -> (2 < p)%N -> (0 < size X)%N ->
  0 < c -> (forall h, (0 < h < p)%N -> 0 < pooled (singular_values w (np_cov X)) h) ->
  numbers w a ([seq convert (fun=> c) b x | x <- X] :: training) = numbers w a (X :: training).
Proof.
move=> IL WC SH NL p2 SX c0 P; rewrite /numbers NL !WC cov_convert //.
have -> : convert_cov (fun=> c) (np_cov X) = c ^+ 2 *: np_cov X by apply/matrixP => i j; rewrite !mxE expr2.
have c2 : 0 < c ^+ 2 by rewrite exprn_gt0.
have SS : size (singular_values w (np_cov X)) = p by rewrite size_map size_enum_ord.
rewrite -[[seq _ | j <- _]]/(singular_values w (c ^+ 2 *: np_cov X)) -[X in _ = bind (scree_selection _ _ X) _]/(singular_values w (np_cov X)).
congr bind; rewrite SH // -[RHS](@scree_aff _ _ _ (c ^+ 2) 0) ?SS //.
by rewrite (eq_map (fun x => addr0 (c ^+ 2 * x))).
Qed.

Section Axes.
Variables (F : realFieldType) (p : nat).
Implicit Types d : 'rV[F]_p.
(** One observation on each side of the origin along each axis *)
Definition axes d : seq 'rV[F]_p := flatten [seq [:: d 0 j *: delta_mx 0 j; - (d 0 j *: delta_mx 0 j)] | j <- enum 'I_p].

Lemma size_axes d : size (axes d) = p.*2.
Proof. by rewrite size_flatten /shape -map_comp (eq_map (f2 := fun=> 2%N)) // sumnE big_map big_enum /= sum_nat_const card_ord muln2. Qed.
Lemma axes_cov d : np_cov (axes d) = diag_mx (\row_j ((p.*2).-1%:R^-1 * (2%:R * d 0 j ^+ 2))).
Proof.
rewrite /np_cov size_axes.
have -> : \sum_(x <- axes d) x = 0.
  by rewrite big_flatten big_map bigop.big1 // => j _; rewrite !big_cons big_nil /= addr0 subrr.
rewrite scaler0; apply/matrixP => i k; rewrite mxE summxE big_flatten big_map.
under eq_bigr do rewrite !big_cons big_nil.
rewrite big_enum (bigD1 i) //= bigop.big1 ?addr0 => [|j ji]; rewrite ?addr0 !subr0.
  rewrite !mxE !big_ord1 !mxE !eqxx /= [k == i]eq_sym; case: (i == k); rewrite ?mulr0n ?mulr1n ?mulr1 ?mulr0 ?oppr0 ?mulr0 ?addr0 ?mulr0 //.
  by congr (_ * _); rewrite mulrNN -mulr2n mulr_natl expr2.
by rewrite !mxE !big_ord1 !mxE [i == j]eq_sym (negbTE ji) !mulr0 oppr0 !mul0r addr0.
Qed.
Lemma axes_convert (c : 'I_p -> F) d : [seq convert c (fun=> 0) x | x <- axes d] = axes (\row_j (c j * d 0 j)).
Proof.
rewrite map_flatten -map_comp; congr flatten; apply: eq_map => j /=; congr [:: _; _]; apply/rowP => k; rewrite !mxE addr0; rewrite ?mulrN eqxx /= mulrA; case: (k =P j) => [->|_] //; by rewrite !mulr0.
Qed.
End Axes.

Section Three.
Variables (F : realFieldType) (log : F -> F) (pi : F).
Add Field ff : (fieldT F).
Lemma scatter1 (x : F) : scatter [:: x] = 0.
Proof. by rewrite /scatter /avg !big_seq1 divr1 subrr expr0n. Qed.
Lemma scatter2 (x y : F) : scatter [:: x; y] = (x - y) ^+ 2 / 2%:R.
Proof.
rewrite /scatter /avg !big_cons !big_nil /= !addr0 -[2%:R]/(1 + 1) !expr2.
have N2 : (1 + 1 : F) != 0 by rewrite -[1 + 1]/(2%:R) pnatr_eq0.
by fd F; exact/eqP.
Qed.
Lemma pooled3_1 (a b c : F) : pooled [:: a; b; c] 1 = (b - c) ^+ 2 / 2%:R.
Proof. by rewrite /pooled /= scatter1 scatter2 add0r invr1 mulr1. Qed.
Lemma pooled3_2 (a b c : F) : pooled [:: a; b; c] 2 = (a - b) ^+ 2 / 2%:R.
Proof. by rewrite /pooled /= scatter1 scatter2 addr0 invr1 mulr1. Qed.
Lemma scree3 (a b c : F) : increasing_log log -> a != b -> b != c ->
  scree_selection log pi [:: a; b; c] = Ok (if (b - c) ^+ 2 <= (a - b) ^+ 2 then 1%N else 2%N).
Proof.
move=> IL ab bc; have P x y : x != y -> 0 < (x - y) ^+ 2 / 2%:R :> F.
  by move=> xy; rewrite divr_gt0 ?ltr0n // lt_def sqr_ge0 andbT sqrf_eq0 subr_eq0.
have [||[|[|[|h]]] [-> // _ L1 L2]] := @scree_pooled _ _ pi [:: a; b; c] IL => //.
- by case=> [|[|[|k]]] // _; rewrite ?pooled3_1 ?pooled3_2; exact: P.
- by have := L1 2%N erefl; rewrite pooled3_1 pooled3_2 ler_pmul2r ?invr_gt0 ?ltr0n // => ->.
- by have := L2 1%N erefl; rewrite pooled3_1 pooled3_2 ltr_pmul2r ?invr_gt0 ?ltr0n // ltNge => /negbTE ->.
Qed.
End Three.

Section Refuted.
Variables (F : realFieldType) (e : nat) (w : world F 3 e) (a : args F) (training : seq (seq 'rV[F]_3)).
Hypotheses (IL : increasing_log (w_log w)) (WC : forall X, w_cov w X = np_cov X) (SD : svd_diagonal w) (NL : a_nums_latent a = None).

Definition row3 (x y z : F) : 'rV[F]_3 := \row_j nth 0 [:: x; y; z] j.
Lemma enum3 : enum 'I_3 = [:: ord0; lift ord0 ord0; lift ord0 (lift ord0 ord0)].
Proof. by apply: (inj_map val_inj); rewrite val_enum_ord. Qed.

Lemma axes_values (x y z : F) : z ^+ 2 < y ^+ 2 -> y ^+ 2 < x ^+ 2 ->
  exists2 t, 0 < t & singular_values w (np_cov (axes (row3 x y z))) = [:: t * x ^+ 2; t * y ^+ 2; t * z ^+ 2].
Proof.
move=> zy yx; rewrite axes_cov.
set k : F := (_.-1)%:R^-1; have k0 : 0 < k by rewrite invr_gt0 ltr0n.
set d := \row_j _; have d0 j : 0 <= d 0 j by rewrite mxE mulr_ge0 ?(ltW k0) // mulr_ge0 ?ler0n ?sqr_ge0.
have [S P] := SD d0; exists (k * 2%:R); first by rewrite mulr_gt0 ?ltr0n.
have t0 : 0 < k * 2%:R by rewrite mulr_gt0 ?ltr0n.
apply: (sorted_eq (leT := fun u v : F => v <= u)) => //.
- by move=> u v r /[swap]; exact: le_trans.
- by move=> u v /andP[L1 L2]; apply/eqP; rewrite eq_le L1 L2.
- by rewrite /= !ler_pmul2l // !ltW.
by apply: (perm_trans P); rewrite enum3 /= !mxE /= !mulrA.
Qed.
Lemma numbers3 (x y z : F) : z ^+ 2 < y ^+ 2 -> y ^+ 2 < x ^+ 2 ->
  numbers w a (axes (row3 x y z) :: training) = Ok (iota 1 (if y ^+ 2 - z ^+ 2 <= x ^+ 2 - y ^+ 2 then 1%N else 2%N)).
Proof.
move=> zy yx; have [t t0 E] := axes_values zy yx; rewrite /numbers NL WC -/(singular_values w _) E scree3 //; last 2 first.
- by rewrite gt_eqF // ltr_pmul2l.
- by rewrite gt_eqF // ltr_pmul2l.
rewrite /= -!mulrBr !exprMn ler_pmul2l ?exprn_gt0 // ler_sqr //; by rewrite nnegrE subr_ge0 ltW.
Qed.

Lemma units_refuted : exists X (c : 'I_3 -> F),
  [/\ forall j, 0 < c j, numbers w a (X :: training) = Ok [:: 1%N; 2%N]
    & numbers w a ([seq convert c (fun=> 0) x | x <- X] :: training) = Ok [:: 1%N]].
Proof.
exists (axes (row3 7%:R 6%:R 1)), (fun j => if (j == 1%N :> nat) then 3%:R^-1 else 1); split.
- by move=> j; case: ifP => _; rewrite ?invr_gt0 ?ltr0n ?ltr01.
- rewrite numbers3 -?natrX ?expr1n ?ltr_nat // ?ltr1n //.
  by rewrite -[X in _ - X]/(1%:R) -!natrB // ler_nat.
rewrite axes_convert.
have -> : \row_j ((if j == 1%N :> nat then 3%:R^-1 else 1) * row3 7%:R 6%:R 1 0 j) = row3 7%:R 2%:R 1.
  apply/rowP => -[[|[|[|j]]] L]; rewrite !mxE //= ?mul1r //.
  by rewrite -[6%N]/(3 * 2)%N natrM mulKf // pnatr_eq0.
rewrite numbers3 -?natrX ?expr1n ?ltr_nat // ?ltr1n //.
by rewrite -[X in _ - X <= _]/(1%:R) -!natrB // ler_nat.
Qed.
End Refuted.
