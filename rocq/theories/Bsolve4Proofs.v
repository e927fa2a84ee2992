(** Runs of the gradient solvers for B with two variables and an edge 0 -> 1. *)
From Coq Require Import ZArith.
From mathcomp Require Import all_ssreflect all_algebra all_fingroup.
From Verif Require Import Base FieldTac GraphModel GraphSpec NumModel NumSpec LinAlgProofs NumProofs ScoreModel ScoreSpec ScoreProofs.
From Verif Require Import NoErrProofs Run2Proofs GradSpec DerivProofs Deriv2Proofs GradProofs BsolveProofs Bsolve2Proofs Bsolve3Proofs.
Set Implicit Arguments.
Unset Strict Implicit.
Unset Printing Implicit Defensive.
Import Order.Theory GRing.Theory Num.Theory.
Local Open Scope ring_scope.

(** Numerals become sums of ones. *)
Ltac nums := rewrite ?expr2 /GRing.natmul /=.

Section Unfold.
Variables (F : realFieldType) (p l e : nat) (cf : conf F p l e) (Ms : 'I_e -> 'M[F]_p) (A : mat).
Lemma grad_loop_stop k init lr B X d : amax (B - X) = Ok d -> ((10%:R ^+ 10)^-1 < d) = false ->
  grad_loop cf k Ms A init lr B X = Ok (X, lr).
Proof. by case: k => [|k] /= -> /= ->. Qed.
Lemma grad_loop_out init lr B X d : amax (B - X) = Ok d -> ((10%:R ^+ 10)^-1 < d) = true ->
  grad_loop cf 0 Ms A init lr B X = Err OutOfFuel.
Proof. by move=> /= -> /= ->. Qed.
Lemma grad_loop_go k init lr B X d : amax (B - X) = Ok d -> ((10%:R ^+ 10)^-1 < d) = true -> (forall Y, cf_finite cf Y) ->
  (lr == 0) = false ->
  grad_loop cf k.+1 Ms A init lr B X = grad_loop cf k Ms A init lr X (pattern A (X - lr *: Nmul cf Ms X)).
Proof. by move=> /= -> /= -> -> ->. Qed.
End Unfold.

Section Edge.
Variables (F : realFieldType) (e : nat) (cf : conf F 2 0 e).
Add Field ff : (fieldT F).
Local Notation sg := (cf_sigmas cf).
Hypothesis RS : forall k, sqrt_of (cf_sqrtm cf (sg k)) (sg k).
Hypothesis R1 : cf_sqrtm cf 1%:M = 1%:M.

Definition one_o : 'M[F]_(e, 2) := const_mx 1.
Definition no_g : 'M[F]_(0, 2) := 0.
Definition no_s : 'M[F]_(e, 0) := 0.
Lemma one_o_pos : positive one_o. Proof. by move=> i j; rewrite mxE ltr01. Qed.
Lemma no_s_pos : positive no_s. Proof. by move=> i []. Qed.
Lemma no_s_ge0 a b : 0 <= no_s a b. Proof. by case: b. Qed.
Lemma noise_one k : noise_cov no_g one_o no_s k = 1%:M.
Proof.
by apply/matrixP => i j; rewrite /noise_cov trmx0 mul0mx mul0mx ?addr0 ?add0r !mxE.
Qed.
Lemma noise_one' k : noise no_g one_o no_s k = 1%:M.
Proof. by rewrite noiseE noise_one. Qed.

Definition em (B : 'M[F]_2) : model F 2 0 e := MkModel A2 B no_g one_o no_s (1%:M - B^T).
Lemma em_new B : supported A2 B -> new_model (cf_h cf) A2 B no_g one_o no_s = Ok (em B).
Proof.
move=> SB; case: (new_model_spec (cf_h cf) B no_g one_o no_s A2_sq A2_nonneg) => [[_ [_ ->]]//|[]].
by case; split; first exact: A2_acyclic.
Qed.
Definition Ms1 : 'I_e -> 'M[F]_2 := fun=> 1%:M.
Lemma em_inv B : exists2 Ms, inv_noise (em B) = Ok Ms & forall k, Ms k = 1%:M.
Proof.
eexists; first exact: (inv_noise_ok (m := em B) one_o_pos no_s_ge0).
by move=> k /=; rewrite /mnoise /= noise_one invmx1.
Qed.

(** [[1, 0], [x, 1]] *)
Definition tri (x : F) : 'M[F]_2 := \matrix_(i, j) (if i == j then 1 else if i == 0 then 0 else x).
Lemma tri10 x : tri x 1 0 = x. Proof. by rewrite mxE. Qed.
Lemma pattern_tri (X : 'M[F]_2) : pattern A2 X = tri (X 1 0).
Proof.
apply/matrixP => -[[|[|i]] Hi] [[|[|j]] Hj] //; rewrite !mxE //=.
by congr (X _ _); apply: val_inj.
Qed.
Lemma supported_tri x : supported A2 (1%:M - tri x)^T.
Proof. by have := @pattern_supported F 2 A2 (tri x); rewrite pattern_tri tri10. Qed.

Variable Ms : 'I_e -> 'M[F]_2.
Hypothesis HMs : forall k, Ms k = 1%:M.
Lemma RM k : sqrt_of (cf_sqrtm cf (Ms k)) (Ms k).
Proof. by rewrite HMs R1; split; rewrite ?trmx1 ?mulmx1. Qed.

Definition slope10 (x y : F) : F := \sum_k (x * sg k 0 0 + y * sg k 1 0).
Lemma Nmul10 X : Nmul cf Ms X 1 0 = slope10 (X 1 0) (X 1 1).
Proof.
rewrite (NmulE RS RM) summxE; apply: eq_bigr => k _; rewrite HMs mul1mx mxE !big_ord_recl big_ord0 addr0.
by congr (_ * sg k _ _ + _ _ _ * sg k _ _); apply: val_inj.
Qed.
Lemma step10 lr X : pattern A2 (X - lr *: Nmul cf Ms X) = tri (X 1 0 - lr * slope10 (X 1 0) (X 1 1)).
Proof.
rewrite pattern_tri; congr tri.
by rewrite -Nmul10 [LHS]mxE [fun_of_matrix (- _) _ _]mxE [fun_of_matrix (_ *: _) _ _]mxE.
Qed.
Lemma step_tri lr x : pattern A2 (tri x - lr *: Nmul cf Ms (tri x)) = tri (x - lr * slope10 x 1).
Proof. by rewrite step10 tri10 [tri x 1 1]mxE. Qed.

Definition qd (x : F) (S : 'M[F]_2) : F := S 0 0 + (x * x * S 0 0 + 2%:R * x * S 1 0 + S 1 1).
Lemma trace_tri x k : \tr (tri x *m sg k *m (tri x)^T) = qd x (sg k).
Proof.
have sym : sg k 0 1 = sg k 1 0.
  by have [St SS] := RS k; rewrite -{2}SS -[in RHS]St -trmx_mul SS mxE.
have E1 : lift ord0 ord0 = 1 :> 'I_2 by apply: val_inj.
rewrite /mxtrace !big_ord_recl big_ord0 mxE [in X in _ + X]mxE !big_ord_recl !big_ord0.
rewrite ![(tri x *m _) _ _]mxE !big_ord_recl !big_ord0 !E1 ![(tri x)^T _ _]mxE ![tri x _ _]mxE /= sym /qd.
by move: (sg k 0 0) (sg k 1 0) (sg k 1 1) => a b c; nums; rg F.
Qed.

Lemma lik_tri (x : F) : (bind (new_model (cf_h cf) A2 (1%:M - tri x)^T no_g one_o no_s) (mscore cf)) =
  Ok (\sum_(i < e) (cf_n_obs cf i)%:R * (- cf_log cf 1 + qd x (sg i)) / (\sum_i cf_n_obs cf i)%N%:R ^+ (e - i)).
Proof.
rewrite (em_new (supported_tri (x := x))) /= /mscore (score_value (m := em (1%:M - tri x)^T) _ _ _ one_o_pos no_s_ge0); congr Ok.
by apply: eq_bigr => i _; rewrite /mnoise /= noise_one invmx1 det1 mul1mx IB_inv trace_tri.
Qed.
Lemma res_tri w x : residuals w (fun k => invmx (noise no_g one_o no_s k)) sg (1%:M - tri x)^T = \sum_k w k * qd x (sg k).
Proof. by apply: eq_bigr => k _; rewrite noise_one' invmx1 mul1mx IB_inv trace_tri. Qed.
End Edge.

(** ** A run that never ends (C93) *)
Section Alternate.
Variables (F : realFieldType) (log : F -> F) (h : hord).
Add Field ff2 : (fieldT F).
Definition dg (a b : F) : 'M[F]_2 := \matrix_(i, j) (if i == j then if i == 0 then a else b else 0).
Definition root400 (X : 'M[F]_2) : 'M[F]_2 := if X == dg 400%:R 1 then dg 20%:R 1 else X.
Definition cf400 : conf F 2 0 1 :=
  Conf log h root400 (fun=> None) (fun X => (X, 0)) id (fun=> true) (fun=> dg 400%:R 1) (fun=> 1%N) None false 1 0 0 1 0 1 Grad 1.
Lemma dg_sq a b : dg a b *m dg a b = dg (a * a) (b * b).
Proof.
by apply/matrixP => -[[|[|i]] Hi] [[|[|j]] Hj] //; rewrite mxE !big_ord_recl big_ord0 !mxE /= ?mulr0 ?mul0r ?addr0 ?add0r.
Qed.
Lemma dg_tr a b : (dg a b)^T = dg a b.
Proof. by apply/matrixP => -[[|[|i]] Hi] [[|[|j]] Hj] //; rewrite !mxE. Qed.
Lemma dg1 : dg 1 1 = 1%:M.
Proof. by apply/matrixP => -[[|[|i]] Hi] [[|[|j]] Hj] //; rewrite !mxE. Qed.
Lemma dg_posdef a b : 0 < a -> 0 < b -> posdef (dg a b).
Proof.
move=> a0 b0; rewrite (_ : dg a b = diag_mx (\row_j (if j == 0 then a else b))).
  apply: diag_posdef => j; rewrite mxE; by case: ifP.
by apply/matrixP => -[[|[|i]] Hi] [[|[|j]] Hj] //; rewrite !mxE.
Qed.
Lemma root400_root : sqrt_of (root400 (dg 400%:R 1)) (dg 400%:R 1).
Proof. by rewrite /root400 eqxx; split; rewrite ?dg_tr // dg_sq mulr1 -natrM. Qed.
Lemma root400_one : root400 1%:M = 1%:M.
Proof.
rewrite /root400; case: eqP => // /matrixP /(_ 0 0); rewrite !mxE /= => /eqP.
by rewrite -[1]/(1%N%:R) eqr_nat.
Qed.
Lemma slope400 (x y : F) : slope10 (e := 1) cf400 x y = x * 400%:R.
Proof. by rewrite /slope10 big_ord1 /= !mxE /= mulr0 addr0. Qed.
Lemma flip (x : F) : x - 5%:R / 1000%:R * (x * 400%:R) = - x.
Proof.
have -> : 5%:R / 1000%:R * (x * 400%:R) = x * 2%:R.
  rewrite mulrCA; congr (_ * _); rewrite mulrAC -natrM.
  by rewrite -[(5 * 400)%N]/(2 * 1000)%N natrM mulfK // pnatr_eq0.
by nums; rg F.
Qed.

Lemma alternate (rnd rnd' : 'M[F]_2) : (10%:R ^+ 10)^-1 < `|rnd 1 0| -> forall fuel,
  solve_B_grad (with_fuel cf400 fuel) (em 1 0) rnd rnd' = Err OutOfFuel.
Proof.
move=> Hr fuel; rewrite /solve_B_grad; have [Ms -> HM] /= := em_inv 1 (0 : 'M[F]_2).
set lr := 5%:R / 1000%:R; rewrite grad_loop_with.
have del0 : 0 <= (10%:R ^+ 10)^-1 :> F by rewrite invr_ge0 exprn_ge0 ?ler0n.
have lr0 : (lr == 0) = false by rewrite gt_eqF // divr_gt0 ?ltr0n.
have step X : pattern A2 (X - lr *: Nmul cf400 Ms X) = tri (- X 1 0).
  by rewrite (step10 (cf := cf400) (fun=> root400_root) root400_one HM) slope400 flip.
have gt x (B X : 'M[F]_2) d : amax (B - X) = Ok d -> B 1 0 - X 1 0 = x -> (10%:R ^+ 10)^-1 < `|x| -> ((10%:R ^+ 10)^-1 < d) = true.
  by move=> E <- Hx; apply/(amax_gt E del0); exists 1, 0; rewrite !mxE.
have x2 (x : F) : x - - x = x + x by rewrite opprK.
have gt2 (x : F) : (10%:R ^+ 10)^-1 < `|x| -> (10%:R ^+ 10)^-1 < `|x + x|.
  by rewrite -mulr2n normrMn => Hx; apply: lt_le_trans Hx _; rewrite mulr2n ler_addl.
have loop k : forall x : F, (10%:R ^+ 10)^-1 < `|x| -> forall B : 'M[F]_2, B 1 0 = x ->
    grad_loop cf400 k Ms A2 rnd lr B (tri (- x)) = Err OutOfFuel.
  elim: k => [|k IH] x Hx B EB; have [//|d E] := amax_ok (_ : 0 < 2)%N (B - tri (- x));
    have G : ((10%:R ^+ 10)^-1 < d) = true by rewrite (gt (x + x) _ _ _ E) ?tri10 ?EB ?x2 ?gt2.
    exact: grad_loop_out E G.
  by rewrite (grad_loop_go _ _ _ _ E G) // step tri10; apply: IH; rewrite ?normrN // tri10.
have [//|d E] := amax_ok (_ : 0 < 2)%N (0 - rnd).
have G : ((10%:R ^+ 10)^-1 < d) = true by rewrite (gt (- rnd 1 0) _ _ _ E) ?mxE ?sub0r ?normrN.
case: fuel => [|k]; first by rewrite (grad_loop_out _ _ _ _ _ E G).
by rewrite (grad_loop_go _ _ _ _ E G) // step loop.
Qed.
End Alternate.

(** ** Two environments *)
Section TwoEnv.
Variables (F : realFieldType) (log : F -> F) (h : hord).
Add Field ff3 : (fieldT F).
Local Notation toF := (map_mx (intr : int -> F)).
Definition rZ (k : 'I_2) : 'M[int]_2 := if k == 0 then mk2 3 4 4 7 else mk2 3 (- 4%:Z) (- 4%:Z) 12.
Definition sZ (k : 'I_2) : 'M[int]_2 := if k == 0 then mk2 25 40 40 65 else mk2 25 (- 60%:Z) (- 60%:Z) 160.
Definition sgm (k : 'I_2) : 'M[F]_2 := toF (sZ k).
Definition root2 (X : 'M[F]_2) : 'M[F]_2 :=
  if X == sgm 0 then toF (rZ 0) else if X == sgm 1 then toF (rZ 1) else X.
Definition cfn (n : 'I_2 -> nat) : conf F 2 0 2 :=
  Conf log h root2 (fun=> None) (fun X => (X, 0)) id (fun=> true) sgm n None false 1 0 0 1 0 1 Grad 1.
Lemma rZ_sq k : rZ k *m rZ k = sZ k.
Proof.
rewrite /rZ /sZ; case: ifP => _; apply/matrixP => -[[|[|i]] Hi] [[|[|j]] Hj] //; by rewrite mxE !big_ord_recl big_ord0 !mxE.
Qed.
Lemma rZ_tr k : (rZ k)^T = rZ k.
Proof. by rewrite /rZ; case: ifP => _; apply/matrixP => -[[|[|i]] Hi] [[|[|j]] Hj] //; rewrite !mxE. Qed.
Lemma two (k : 'I_2) : k = 0 \/ k = 1.
Proof. by case: k => [[|[|k]] Hk] //; [left|right]; apply: val_inj. Qed.
Lemma intF (a b : int) : (a%:~R == b%:~R :> F) = (a == b). Proof. exact: eqr_int. Qed.
Lemma sgm_ne : sgm 1 != sgm 0.
Proof. by apply/eqP => /matrixP /(_ 1 0); rewrite !mxE /= => /eqP; rewrite eqr_int. Qed.
Lemma root2_sgm k : root2 (sgm k) = toF (rZ k).
Proof. by rewrite /root2; case: (two k) => ->; rewrite ?eqxx // (negbTE sgm_ne). Qed.
Lemma root2_root k : sqrt_of (root2 (sgm k)) (sgm k).
Proof. by rewrite root2_sgm; split; rewrite ?map_trmx ?rZ_tr // -map_mxM rZ_sq. Qed.
Lemma root2_one : root2 1%:M = 1%:M.
Proof.
rewrite /root2; case: eqP => [/matrixP /(_ 1 0)|_]; first by rewrite !mxE /= => /eqP; rewrite eq_sym intr_eq0.
by case: eqP => [/matrixP /(_ 1 0)|//]; rewrite !mxE /= => /eqP; rewrite eq_sym intr_eq0.
Qed.
Lemma sgm_posdef k : posdef (sgm k).
Proof.
have [Rt RR] := root2_root k; rewrite -RR -{2}Rt -[X in X *m _]mulmx1; apply: posdef_congr; last by rewrite -dg1; apply: dg_posdef; rewrite ltr01.
pose q : 'M[int]_2 := if k == 0 then mk2 7 (- 4%:Z) (- 4%:Z) 3 else mk2 12 4 4 3.
pose c : nat := if k == 0 then 5%N else 20%N.
have E : rZ k *m q = (c%:Z)%:M.
  rewrite /rZ /q /c; case: ifP => _; apply/matrixP => -[[|[|i]] Hi] [[|[|j]] Hj] //; by rewrite mxE !big_ord_recl big_ord0 !mxE.
rewrite root2_sgm; suff /mulmx1_unit [] : toF (rZ k) *m (c%:R^-1 *: toF q) = 1%:M by [].
rewrite -scalemxAr -map_mxM E map_scalar_mx scale_scalar_mx; congr (_ %:M).
by rewrite /= -pmulrn mulVf // pnatr_eq0 /c; case: ifP.
Qed.
Lemma sgm_a k : sgm k 0 0 = 25%:R. Proof. by case: (two k) => ->; rewrite !mxE. Qed.
Lemma sgm_b0 : sgm 0 1 0 = 40%:R. Proof. by rewrite !mxE. Qed.
Lemma sgm_b1 : sgm 1 1 0 = - 60%:R. Proof. by rewrite !mxE. Qed.
Lemma sgm_c0 : sgm 0 1 1 = 65%:R. Proof. by rewrite !mxE. Qed.
Lemma sgm_c1 : sgm 1 1 1 = 160%:R. Proof. by rewrite !mxE. Qed.
Lemma sum2 (f : 'I_2 -> F) : \sum_k f k = f 0 + f 1.
Proof. by rewrite !big_ord_recl big_ord0 addr0; congr (_ + f _); apply: val_inj. Qed.
Lemma slope2E n (x y : F) : slope10 (cfn n) x y = 50%:R * x - 20%:R * y.
Proof.
rewrite /slope10 sum2 /= !sgm_a sgm_b0 sgm_b1.
have -> : 60%:R = 40%:R + 20%:R :> F by rewrite -natrD.
have -> : 50%:R = 25%:R + 25%:R :> F by rewrite -natrD.
move: (25%:R : F) (40%:R : F) (20%:R : F) => a b c; by rg F.
Qed.
Lemma qd0 (x : F) : qd x (sgm 0) = 25%:R + (25%:R * (x * x) + 80%:R * x + 65%:R).
Proof.
rewrite /qd sgm_a sgm_b0 sgm_c0; have -> : 80%:R = 2%:R * 40%:R :> F by rewrite -natrM.
move: (2%:R : F) (25%:R : F) (40%:R : F) (65%:R : F) => d a b c; by rg F.
Qed.
Lemma qd1 (x : F) : qd x (sgm 1) = 25%:R + (25%:R * (x * x) - 120%:R * x + 160%:R).
Proof.
rewrite /qd sgm_a sgm_b1 sgm_c1; have -> : 120%:R = 2%:R * 60%:R :> F by rewrite -natrM.
move: (2%:R : F) (25%:R : F) (60%:R : F) (160%:R : F) => d a b c; by rg F.
Qed.

(** ** The result is not optimal for unequal sample sizes (C92) *)
Definition n13 (k : 'I_2) : nat := if k == 0 then 1%N else 3%N.
Definition resid13 (x : F) := residuals (fun k => (n13 k)%:R / (\sum_i n13 i)%N%:R)
  (fun k => invmx (noise (no_g F) (one_o F 2) (no_s F 2) k)) sgm (1%:M - tri x)^T.
Lemma tot13 : (\sum_i n13 i)%N = 4%N. Proof. by rewrite !big_ord_recl big_ord0. Qed.
Lemma resid13E x : 100%:R * (resid13 x - resid13 (7%:R / 5%:R)) = (50%:R * x - 70%:R) ^+ 2.
Proof.
have R x' : 4%:R * resid13 x' = qd x' (sgm 0) + 3%:R * qd x' (sgm 1).
  rewrite /resid13 (res_tri (cf := cfn n13) root2_root) sum2 tot13 /=.
  have N4 : 4%:R != 0 :> F by rewrite pnatr_eq0.
  by rewrite /n13 /= mulrDr mul1r ![_ * (_ * qd _ _)]mulrA mulfV // mulrCA mulfV // mulr1 mul1r.
have -> : 100%:R = 25%:R * 4%:R :> F by rewrite -natrM.
have Q x' : 25%:R * (qd x' (sgm 0) + 3%:R * qd x' (sgm 1)) =
    (50%:R * x' - 70%:R) ^+ 2 + (25%:R * (25%:R + 65%:R + 3%:R * (25%:R + 160%:R)) - 70%:R * 70%:R).
  rewrite qd0 qd1.
  have -> : 25%:R = 5%:R * 5%:R :> F by rewrite -natrM.
  have -> : 80%:R = 10%:R * 8%:R :> F by rewrite -natrM.
  have -> : 120%:R = 10%:R * 12%:R :> F by rewrite -natrM.
  have -> : 50%:R = 5%:R * 10%:R :> F by rewrite -natrM.
  have -> : 70%:R = 10%:R * 7%:R :> F by rewrite -natrM.
  move: (65%:R : F) (160%:R : F) => c d; nums; by rg F.
rewrite -mulrA mulrBr !R mulrBr !Q.
have -> : 50%:R * (7%:R / 5%:R) - 70%:R = 0 :> F.
  by rewrite mulrCA -[50%N]/(10 * 5)%N natrM mulfK ?pnatr_eq0 // -natrM subrr.
by rewrite expr0n /= add0r addrK.
Qed.

Lemma not_optimal rnd rnd' B n fuel : nontrivial rnd -> solve_B_grad (with_fuel (cfn n) fuel) (em 2 0) rnd rnd' = Ok B ->
  exists2 x, B = (1%:M - tri x)^T & 1 <= resid13 x - resid13 (7%:R / 5%:R).
Proof.
move=> NT; rewrite /solve_B_grad; have [Ms -> HM] /= := em_inv 2 (0 : 'M[F]_2).
rewrite grad_loop_with; set lr := 5%:R / 1000%:R; case E: grad_loop => [r|] //=.
have lr0 : 0 < lr by rewrite divr_gt0 ?ltr0n.
have lrE : lr * 200%:R = 1.
  by rewrite mulrAC -natrM -[(5 * 200)%N]/1000%N mulfV // pnatr_eq0.
have fin X : cf_finite (cfn n) X by [].
have del0 : 0 < (10%:R ^+ 10)^-1 :> F := del_gt0 F.
have [d Ed] := amax_ok (isT : 0 < 2)%N (0 - rnd).
have G : ((10%:R ^+ 10)^-1 < d) = true.
  by apply/(amax_gt Ed (ltW del0)); case: NT => i [j Hij]; exists i, j; rewrite sub0r mxE normrN.
case: fuel E => [|k]; first by rewrite (grad_loop_out _ _ _ _ _ Ed G).
rewrite (grad_loop_go _ _ _ _ Ed G) ?gt_eqF // => E.
have [-> [B' [R1 H]]] := grad_loop_last fin (lt0r_neq0 lr0) erefl E.
rewrite lr0 => -[<-]; move: R1 H; rewrite /stepB (step10 (cf := cfn n) root2_root root2_one HM) slope2E.
set x := B' 1 0 - _ => -> H; exists x => //.
have := H 1 0; have := H 1 1; rewrite !Bsolve2Proofs.subE tri10 [tri x 1 1]mxE eqxx {r E H}.
move: (B' 1 0) (B' 1 1) @x => a b x H1 H0.
have Ea : 50%:R * a - 20%:R * b = 200%:R * (a - x).
  rewrite /x opprB addrCA subrr addr0 mulrA [200%:R * _]mulrC lrE mul1r //.
have Ex : 50%:R * x - 20%:R = 150%:R * (a - x) + 20%:R * (b - 1).
  have -> : 150%:R * (a - x) = 200%:R * (a - x) - 50%:R * (a - x).
    by rewrite -mulrBl -natrB.
  rewrite -Ea; move: x (50%:R : F) (20%:R : F) {Ea H0} => x c c'; by rg F.
have S : 50%:R * x - 20%:R <= 1.
  rewrite Ex; apply: le_trans (ler_norm _) _; apply: le_trans (ler_norm_add _ _) _.
  rewrite !normrM !normr_nat; apply: le_trans (ler_add (ler_wpmul2l _ H0) (ler_wpmul2l _ H1)) _; rewrite ?ler0n //.
  rewrite -mulrDl -natrD ler_pdivr_mulr ?exprn_gt0 ?ltr0n // mul1r -natrX ler_nat.
  by rewrite -[10%N]/(3 + 7)%N expnD; apply: leq_trans (leq_pmulr _ _).
have P100 : 0 < 100%:R :> F by rewrite ltr0n.
rewrite -(ler_pmul2l P100) mulr1 resid13E.
have S' : 10%:R <= 70%:R - 50%:R * x.
  rewrite ler_subr_addl -ler_subr_addr; apply: le_trans (_ : 21%:R <= _).
    by rewrite -[21%N]/(1 + 20)%N natrD -ler_subl_addr.
  by rewrite -natrB ?ler_nat.
rewrite -sqrrN opprB -[100%N]/(10 * 10)%N natrM expr2; apply: ler_pmul; rewrite ?ler0n //.
Qed.

Definition draw : 'M[F]_2 := \matrix_(i, j) (if i == 0 then 0 else if j == 0 then 2%:R^-1 else 4%:R^-1).
Lemma draw_nontrivial : nontrivial draw.
Proof.
exists 1, 0; rewrite mxE /= gtr0_norm ?invr_gt0 ?ltr0n // ltf_pinv ?posrE ?ltr0n ?exprn_gt0 ?ltr0n //.
by rewrite -natrX ltr_nat; apply: leq_trans (_ : 10 ^ 1 <= _)%N => //; rewrite leq_pexp2l.
Qed.
Lemma draw_run n rnd' fuel : (2 <= fuel)%N -> solve_B_grad (with_fuel (cfn n) fuel) (em 2 0) draw rnd' = Ok (1%:M - tri (2%:R / 5%:R))^T.
Proof.
move=> Hf; rewrite /solve_B_grad; have [Ms -> HM] /= := em_inv 2 (0 : 'M[F]_2).
rewrite grad_loop_with; set lr := 5%:R / 1000%:R; case: fuel Hf => [|[|fuel]] // _.
have lr0 : 0 < lr by rewrite divr_gt0 ?ltr0n.
have lrE : lr * 20%:R = 10%:R^-1.
  rewrite mulrAC -natrM -[(5 * 20)%N]/100%N -[1000%N]/(100 * 10)%N natrM invfM mulrA mulfV ?mul1r // pnatr_eq0 //.
have fin X : cf_finite (cfn n) X by [].
have del0 : 0 < (10%:R ^+ 10)^-1 :> F := del_gt0 F.
have [d Ed] := amax_ok (isT : 0 < 2)%N (0 - draw).
have G : ((10%:R ^+ 10)^-1 < d) = true.
  by apply/(amax_gt Ed (ltW del0)); case: draw_nontrivial => i [j Hij]; exists i, j; rewrite sub0r mxE normrN.
rewrite (grad_loop_go _ _ _ _ Ed G) ?gt_eqF //.
rewrite (step10 (cf := cfn n) root2_root root2_one HM) slope2E.
have -> : draw 1 0 - lr * (50%:R * draw 1 0 - 20%:R * draw 1 1) = 2%:R / 5%:R.
  rewrite !mxE /=; have -> : 50%:R / 2%:R - 20%:R / 4%:R = 20%:R :> F.
    rewrite -[50%N]/(25 * 2)%N -[X in X / 4%:R]/((5 * 4)%N%:R) !natrM !mulfK ?pnatr_eq0 // -natrB // -natrM //.
  rewrite lrE; have N2 : 2%:R != 0 :> F by rewrite pnatr_eq0. have N5 : 5%:R != 0 :> F by rewrite pnatr_eq0.
  have -> : 10%:R^-1 = 2%:R^-1 * 5%:R^-1 :> F by rewrite -invfM -natrM.
  apply: (mulIf N5); rewrite mulrBl !mulfVK //; apply: (mulIf N2).
  rewrite mulrBl mulrAC mulVf // mul1r -natrM -[1]/(1%N%:R) -natrB //.
have [d1 E1] := amax_ok (isT : 0 < 2)%N (draw - tri (2%:R / 5%:R)).
have z : 2%:R / 5%:R - lr * slope10 (cfn n) (2%:R / 5%:R) 1 = 2%:R / 5%:R.
  by rewrite slope2E mulr1 mulrCA -[50%N]/(10 * 5)%N natrM mulfK ?pnatr_eq0 // -natrM subrr mulr0 subr0.
case G1: ((10%:R ^+ 10)^-1 < d1); last by rewrite (grad_loop_stop _ _ _ _ _ _ E1 G1) /= lr0.
rewrite (grad_loop_go _ _ _ _ E1 G1) ?gt_eqF // (step_tri (cf := cfn n) root2_root root2_one HM) z.
have [d2 E2] := amax_ok (isT : 0 < 2)%N (tri (2%:R / 5%:R : F) - tri (2%:R / 5%:R)).
rewrite (grad_loop_stop _ _ _ _ _ _ E2) /= ?lr0 //.
apply/negbTE/negP => /(amax_gt E2 (ltW del0)) [i [j]]; rewrite subrr mxE normr0 ltNge => /negP; apply; exact: ltW.
Qed.

(** ** The adaptive solver does not accept a step (C94) *)
Definition score11 (x : F) : F :=
  \sum_(i < 2) 1%N%:R * (- log 1 + qd x (sgm i)) / (\sum_(i < 2) 1)%N%:R ^+ (2 - i).
Lemma score11_lt x y : x < y -> y < 1 -> score11 y < score11 x.
Proof.
move=> xy y1; have P4 : 0 < 4%:R :> F by rewrite ltr0n.
have N2 : 2%:R != 0 :> F by rewrite pnatr_eq0.
have E z : 4%:R * score11 z = (- log 1 + qd z (sgm 0)) + 2%:R * (- log 1 + qd z (sgm 1)).
  rewrite /score11 sum2 /= !mul1r (_ : (\sum_(i < 2) 1)%N = 2%N) ?big_ord_recl ?big_ord0 //.
  have -> : 4%:R = 2%:R * 2%:R :> F by rewrite -natrM.
  rewrite mulrDr [(2 - 0)%N]/= [(2 - 1)%N]/= expr1 expr2 mulrCA mulfV ?mulr1 ?mulf_neq0 //.
  by rewrite -[2%:R * 2%:R * _]mulrA [2%:R * (_ / 2%:R)]mulrC divfK.
rewrite -(ltr_pmul2l P4) !E -subr_gt0 !qd0 !qd1.
set D := (X in 0 < X).
have -> : D = 5%:R * (y - x) * (32%:R - 15%:R * (x + y)).
  rewrite /D; have -> : 25%:R = 5%:R * 5%:R :> F by rewrite -natrM.
  have -> : 80%:R = 5%:R * 16%:R :> F by rewrite -natrM.
  have -> : 120%:R = 5%:R * 24%:R :> F by rewrite -natrM.
  move: (log 1) (65%:R : F) (160%:R : F) => a b c; nums; by rg F.
rewrite mulr_gt0 ?mulr_gt0 ?ltr0n ?subr_gt0 //.
apply: lt_trans (_ : 15%:R * (1 + 1) < _); last by rewrite -[1 + 1]/(2%:R) -natrM ltr_nat.
by rewrite ltr_pmul2l ?ltr0n // ltr_add // (lt_trans xy).
Qed.

Lemma adaptive_never (rnd : 'M[F]_2) : 2%:R / 5%:R < rnd 1 0 -> rnd 1 0 < 1 -> forall fuel,
  solve_B_adaptive (with_fuel (cfn (fun=> 1%N)) fuel) (em 2 0) rnd = Err OutOfFuel.
Proof.
move=> H0 H1 fuel; set cf := cfn _; rewrite /solve_B_adaptive.
have [Ms -> HM] /= := em_inv 2 (0 : 'M[F]_2).
have likE x : bind (new_model h A2 (1%:M - tri x)^T (no_g F) (one_o F 2) (no_s F 2)) (mscore (with_fuel cf fuel)) = Ok (score11 x).
  exact: (lik_tri (cf := with_fuel cf fuel) root2_root).
rewrite pattern_tri (likE (rnd 1 0)) /=.
suff L : forall lik, (forall x, lik (tri x) = Ok (score11 x)) -> forall k lr, 0 < lr ->
    adaptive_loop (with_fuel cf fuel) k lik Ms A2 lr (tri (rnd 1 0)) (score11 (rnd 1 0)) = Err OutOfFuel.
  by rewrite L ?ltr01.
move=> lik {}likE; elim=> [|k IH] lr lr0 //=.
rewrite (step_tri (cf := with_fuel cf fuel) root2_root root2_one HM) likE /= (_ : slope10 _ _ _ = slope10 cf (rnd 1 0) 1) // slope2E.
rewrite score11_lt //; first by rewrite IH // divr_gt0 ?ltr0n.
rewrite gtr_addl oppr_lt0 mulr_gt0 // mulr1 subr_gt0.
move: H0; rewrite ltr_pdivr_mulr ?ltr0n // => H0.
have : 10%:R * 2%:R < 10%:R * (rnd 1 0 * 5%:R) by rewrite ltr_pmul2l ?ltr0n.
by rewrite -natrM mulrCA -natrM [rnd 1 0 * _]mulrC.
Qed.
End TwoEnv.
