(** Instances of C106-C109 and of C69. *)
From Coq Require Import ZArith QArith_base List Permutation.
From mathcomp Require Import all_ssreflect all_algebra.
From Verif Require Import Base GraphModel GraphSpec NumSpec GradSpec CovSpec MainSpec ListModel CovModel NumModel ScoreModel MainModel UtilNumModel.
From Verif Require Import FieldTac Run2Proofs Bsolve3Proofs LinAlgProofs NumProofs TopoProofs FoldProofs FoldRunProofs CovProofs UnitProofs Units2Proofs SeedProofs ExMainDefs ScreeProofs PropFold PropCov PropMain ExMain ExGen.
Set Implicit Arguments.
Unset Strict Implicit.
Unset Printing Implicit Defensive.
Import Order.Theory GRing.Theory Num.Theory.
Local Open Scope nat_scope.
Local Open Scope ring_scope.

(** Nine and eight observations; the samples of the folds have 4, 2 and 2 *)
Example C106_enough_ex : split_data (fun _ (l : list nat) => List.rev l) [:: List.seq 0 9; List.seq 20 8] thirds =
  Ok [:: [:: [:: 8; 7; 6; 5]; [:: 27; 26; 25; 24]]; [:: [:: 4; 3]; [:: 23; 22]]; [:: [:: 2; 1]; [:: 21; 20]]]%N.
Proof. by vm_compute. Qed.
Example C106_small_ex : split_data (fun _ (l : list nat) => l) [:: List.seq 0 7] thirds =
  Ok [:: [:: [:: 0; 1; 2; 3]]; [:: [:: 4; 5]]; [:: [:: 6]]]%N.
Proof. by vm_compute. Qed.

Section Ex.
Variables (F : realFieldType) (log : F -> F) (pi : F) (h : hord).
Definition args3 : args F := Args (Some [:: 0%N]) thirds None false 1 0 0 1 0 0 Cvx.
Lemma seed_shuffle seed k (xs : seq 'rV[F]_2) : Permutation (w_shuffle (seed_world log pi h) seed k xs) xs.
Proof. by rewrite /=; case: ifP => // _; apply: perm_Permutation; rewrite perm_rev. Qed.
Example C106_single_ex prune seed : equivalence_class (seed_world log pi h) args3 [::] (fun=> [:: 0]) prune seed = Err IndexError.
Proof. by have [_ H] := @C106_single_refuted F 2 1 (seed_world log pi h) args3 erefl seed_shuffle (fun=> [:: 0]) (fun=> erefl); apply: H. Qed.
Example C106_two_ex prune seed : equivalence_class (seed_world log pi h) args3 [:: A2] (fun=> [:: 0; 0]) prune seed = Err ValueError.
Proof. by apply: (@C106_two_refuted F 2 1 _ args3 erefl seed_shuffle _ _ _ (fun=> [:: 0; 0]) _ _ ord0 erefl). Qed.

(** Three points that are not on a line *)
Definition corners : seq 'rV[F]_2 := [:: 0; \row_j (j == 0)%:R; \row_j (j == 1)%:R].
Lemma corner_comb (v : 'cV[F]_2) : [seq combination v x | x <- corners] = [:: 0; v 0 0; v 1 0].
Proof.
rewrite /= /combination !big_ord_recl !big_ord0 !mxE /= !mul0r !mul1r !addr0 add0r.
by congr [:: _; _; v _ _]; apply: val_inj.
Qed.
Lemma corners_varied : varied corners.
Proof.
move=> v v0; have [E0 E1 E2] := corner_comb v.
have [H|H] := boolP (v 0 0 == 0).
  exists 0, (\row_j (j == 1)%:R); split; rewrite ?inE ?eqxx ?orbT // E0 E2 => H1.
  case/negP: v0; apply/eqP/matrixP => i j; rewrite (ord1 j) mxE.
  by case: i => -[|[|//]] Hi; [rewrite -[RHS](eqP H) | rewrite [RHS]H1]; congr (v _ _); apply: val_inj.
by exists 0, (\row_j (j == 0)%:R); split; rewrite ?inE ?eqxx ?orbT // E0 E1 => H1; rewrite -H1 eqxx in H.
Qed.
Example C107_ex : posdef (np_cov corners).
Proof. by have [_ [_ H]] := @C107_positive_definite F 2 corners erefl; apply/H; exact: corners_varied. Qed.
Example C107_few_ex : ~ posdef (np_cov (behead corners)).
Proof. exact: C107_too_few. Qed.
Example C107_order_ex : np_cov (rev corners) = np_cov corners.
Proof. by apply: C107_order; rewrite perm_rev. Qed.
(** Lengths in millimetres, temperatures in degrees Fahrenheit *)
Example C108_covariance_ex :
  np_cov [seq convert (fun j => if j == 0 then 1000%:R else 9%:R / 5%:R) (fun j => if j == 0 then 0 else 32%:R) x | x <- corners] =
  convert_cov (fun j => if j == 0 then 1000%:R else 9%:R / 5%:R) (np_cov corners).
Proof. exact: C108_covariance. Qed.

(** Two edges into variable 2 *)
Definition fork : 'M[F]_3 := \matrix_(i, j) (if (i < j)%N && (j == 2%N :> nat) then (i + 1)%N%:R else 0).
Example C109_edges_ex : exists c, (forall k, 0 < c k) /\ weakest_edge (weights_in c fork) <> weakest_edge fork.
Proof.
apply: (@C109_edges_refuted F 3 fork ord0 ord_max (inord 1) ord_max) => [k|||].
- by rewrite mxE ltnn.
- by move=> [/(congr1 val)]; rewrite /= inordK.
- by rewrite mxE /= pnatr_eq0.
- by rewrite mxE inordK //= pnatr_eq0.
Qed.
(** 1 -> 2 has the greater of the weights 1 and 2. *)
Example C109_any_edge_ex : exists c, (forall k, 0 < c k) /\ weakest_edge (weights_in c fork) = Ok (1%N, 2%N).
Proof.
have [||||c [c0 E]] := @C109_any_edge_refuted F 3 ExGen.vee fork (inord 1) ord_max.
- by split; [exact: ExGen.vee_square | exact: ExGen.vee_nonneg].
- exact: ExGen.vee_acyclic.
- move=> i j; rewrite mxE; case: ifP; rewrite ?eqxx // => /andP [H /eqP E] _; rewrite /edge /get E.
  by move: H; rewrite E; case: i => -[|[|i]] Hi //= _.
- by rewrite mxE inordK //= pnatr_eq0.
by exists c; split=> //; rewrite E inordK.
Qed.
(** Two environments *)
Definition two_vars : 'M[F]_(2, 2) := \matrix_(k, j) (if k == 0 then 1 else (j + 2)%N%:R).
Example C109_targets_ex (A : mat) : exists c, (forall k, 0 < c k) /\
  forall m' : model F 2 0 2, momegas m' = variances_in c two_vars ->
    np_argsort (variances m') <> np_argsort (variances (@MkModel F 2 0 2 A 0 0 two_vars 0 1%:M)).
Proof.
have D (j : 'I_2) : exists a b, two_vars a j <> two_vars b j.
  exists 0, 1; rewrite !mxE /= -[1]/(1%:R) => /eqP; rewrite eqr_nat.
  by rewrite addn2.
exact: (@C109_targets_refuted F 2 2 0 _ (@MkModel F 2 0 2 A 0 0 two_vars 0 1%:M) 0 1 (@argsort_sorts F) _ (D 0) (D 1)).
Qed.
Example C109_any_order_ex (A : mat) (js : seq nat) : js = [:: 0%N; 1%N] \/ js = [:: 1%N; 0%N] -> exists c, (forall k, 0 < c k) /\
  forall m' : model F 2 0 2, momegas m' = variances_in c two_vars -> np_argsort (variances m') = js.
Proof.
move=> HJ; apply: (@C109_any_order_refuted F 2 2 0 _ (@MkModel F 2 0 2 A 0 0 two_vars 0 1%:M) js (@argsort_sorts F)).
  by case: HJ => ->; [exact: Permutation_refl | exact: perm_swap].
move=> j; exists 0, 1; rewrite !mxE /= -[1]/(1%:R) => /eqP; rewrite eqr_nat.
by rewrite addn2.
Qed.
Example C109_common_ex : weakest_edge (weights_in (fun=> 7%:R) fork) = weakest_edge fork.
Proof. by apply: (proj1 (@C109_common_partial F 3 7%:R _)); rewrite pnatr_eq0. Qed.
Example C109_normalized_ex : normalized_var (variances_in (fun j => (j + 3)%N%:R) two_vars) (Some Z0) = normalized_var two_vars (Some Z0).
Proof. by apply: C109_normalized_partial => j; rewrite pnatr_eq0 addn3. Qed.
End Ex.

(** C108: a function on the rational numbers with log (x y) = log x + log y, and a model of 0 -> 1 with a latent variable *)
Definition valuation (x : rat) : rat := (logn 2 `|numq x|)%:R - (logn 2 `|denq x|)%:R.
Section Val.
Variable F : realFieldType.
Add Field ffv : (fieldT F).
Lemma ratM (nx ny nxy dx dy dxy x y : F) : nx = x * dx -> ny = y * dy -> nxy = x * y * dxy -> nxy * (dx * dy) = nx * ny * dxy.
Proof. by move=> -> -> ->; rg F. Qed.
Lemma ratD (a b c d f g : F) : a + (b + c) = d + f + g -> a - g = d - b + (f - c).
Proof. move=> E; rewrite (_ : a = d + f + g - (b + c)); first by rg F. by rewrite -E; symmetry; rg F. Qed.
End Val.
Lemma valuationM (x y : rat) : 0 < x -> 0 < y -> valuation (x * y) = valuation x + valuation y.
Proof.
move=> x0 y0; have xy0 : 0 < x * y by rewrite mulr_gt0.
have nz (z : rat) : 0 < z -> (0 < `|numq z|)%N by move=> z0; rewrite absz_gt0 numq_eq0 gt_eqF.
have dz (z : rat) : (0 < `|denq z|)%N by rewrite absz_gt0 denq_eq0.
have R (z : rat) : (numq z)%:~R = z * (denq z)%:~R :> rat by rewrite -[X in _ = X * _](divq_num_den z) divfK // intr_eq0 denq_eq0.
have E : (`|numq (x * y)| * (`|denq x| * `|denq y|) = `|numq x| * `|numq y| * `|denq (x * y)|)%N.
  rewrite -!abszM; congr absz; apply: (@intr_inj [numDomainType of rat]); rewrite !rmorphM /=.
  exact: (@ratM [realFieldType of rat]) (R x) (R y) (R (x * y)).
have /(congr1 (logn 2)) := E; rewrite !lognM ?muln_gt0 ?nz ?dz // => /(congr1 (fun n : nat => n%:R : rat)).
by rewrite !natrD; exact: (@ratD [realFieldType of rat]).
Qed.
Definition half_B : 'M[rat]_2 := \matrix_(i, j) (if (i < j)%N then 2%:R^-1 else 0).
Definition un (j : 'I_2) : rat := (j + 2)%N%:R.
Lemma un0 j : un j != 0. Proof. by rewrite pnatr_eq0 addn2. Qed.
Example C108_score_ex : exists m m' : model [realFieldType of rat] 2 1 2, [/\ new_model ho_id A2 half_B (const_mx 1 : 'M_(1, 2)) (const_mx 1 : 'M_(2, 2)) (const_mx 1) = Ok m,
  new_model ho_rev A2 (weights_in un half_B) (loadings_in un (const_mx 1)) (variances_in un (const_mx 1)) (const_mx 1) = Ok m' &
  exists x, score valuation m (fun=> np_cov (corners _)) (fun=> 3%N) = Ok x /\
    score valuation m' (fun=> np_cov [seq convert un (fun=> 1) y | y <- corners _]) (fun=> 3%N) =
    Ok (x + \sum_(k < 2) 3%:R / (\sum_(i < 2) 3)%N%:R ^+ (2 - k) * valuation ((\prod_j un j) ^+ 2))].
Proof.
have S : supported A2 half_B.
  by move=> [[|[|//]] Hi] [[|[|//]] Hj]; rewrite !mxE //= eqxx.
have P : positive (const_mx 1 : 'M[rat]_(2, 2)) by move=> i j; rewrite mxE.
have P' a b : 0 <= (const_mx 1 : 'M[rat]_(2, 1)) a b by rewrite mxE.
set mm := MkModel A2 half_B (const_mx 1 : 'M_(1, 2)) (const_mx 1 : 'M_(2, 2)) (const_mx 1) (1%:M - half_B^T).
have E : new_model ho_id A2 half_B (const_mx 1 : 'M_(1, 2)) (const_mx 1 : 'M_(2, 2)) (const_mx 1) = Ok mm.
  case: (new_model_spec ho_id half_B (const_mx 1 : 'M_(1, 2)) (const_mx 1 : 'M_(2, 2)) (const_mx 1) A2_sq A2_nonneg) => [[_ [_ ->]]|[H _]] //.
  by case: H; split=> //; exact: A2_acyclic.
have [m' E' _] := @C108_entailed _ ho_id ho_rev 2 1 2 un un0 A2 half_B (const_mx 1) (const_mx 1) (const_mx 1) mm A2_sq A2_nonneg E P P'.
have [x Ex] : exists x, score valuation mm (fun=> np_cov (corners _)) (fun=> 3%N) = Ok x.
  by eexists; apply: score_value.
exists mm, m'; split=> //; exists x; split=> //.
exact: (@C108_score _ valuation ho_id ho_rev 2 1 2 un un0 valuationM A2 half_B (const_mx 1) (const_mx 1) (const_mx 1) mm m' (fun=> 1) (fun=> corners _) x A2_sq A2_nonneg E P P' E' (fun=> erefl) Ex).
Qed.

(** C69: four variables; the svd gives the singular values of ExMain.v *)
Definition world4 : world [realFieldType of rat] 4 1 :=
  World id 3%:R ho_id id (fun l m => None) (fun=> (0, \row_j nth 0 [:: 9%:R; 8%:R; 1; 0] j)) id (fun=> true) (@np_argsort _) (@np_cov _ 4)
    (fun _ _ => nil) (fun _ _ xs => xs) (fun _ _ _ => (0, 0)) 0.
Example C69_numbers_ex X : exists hs, numbers world4 (Args None thirds None false 1 0 0 1 0 0 Cvx) [:: X] = Ok hs /\ (forall h, h \in hs <-> (0 < h <= 2)%N).
Proof.
have ES : [seq (w_svd world4 (w_cov world4 X)).2 0 j | j <- enum 'I_4] = ex_svds.
  by rewrite /= (eq_map (f2 := (fun i => nth 0 ex_svds i) \o val)) => [|j]; rewrite ?mxE // map_comp val_enum_ord.
have [P1 P2 P3] := ex_pooled.
have H : forall k, (0 < k < 4)%N -> 0 < pooled ex_svds k by case=> [|[|[|[|k]]]] // _; rewrite ?P1 ?P2 ?P3.
have IL : increasing_log (@id rat) by move=> x y _.
have := @C69_numbers _ 4 1 world4 (Args None thirds None false 1 0 0 1 0 0 Cvx) X [::] IL erefl erefl.
cbv zeta; rewrite ES => /(_ H) [k [hs [E Hk Hh _ [H1 _]]]].
exists hs; split=> // h; rewrite Hh; suff -> : k = 2%N by [].
by case: k Hk H1 {E Hh} => [|[|[|[|k]]]] // _ /(_ 2%N erefl); rewrite ?P1 ?P3 P2.
Qed.
