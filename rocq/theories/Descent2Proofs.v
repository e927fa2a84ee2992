(** A run of score_dag that worsens the score, although the convex problem is solved exactly (C105). *)
From Coq Require Import ZArith List.
From mathcomp Require Import all_ssreflect all_algebra.
From Verif Require Import Base FieldTac GraphModel GraphSpec TopoProofs NumModel NumSpec LinAlgProofs NumProofs ScoreModel ScoreSpec GDProofs ScoreProofs.
From Verif Require Import LoopProofs Lr0Proofs NoErrProofs Run2Proofs GradSpec DerivProofs Deriv2Proofs GradProofs BsolveProofs Bsolve2Proofs Bsolve3Proofs Bsolve4Proofs DescentSpec.
Set Implicit Arguments.
Unset Strict Implicit.
Unset Printing Implicit Defensive.
Import Order.Theory GRing.Theory Num.Theory.
Local Open Scope ring_scope.

(** Where the gradient is zero, gradient descent stays. *)
Section Stay.
Variables (F : realFieldType) (X : Type) (sub : X -> F -> X -> X) (flat : X -> seq (seq F)) (loss : X -> res F) (grad : X -> res X).
Variables (thr lr kz : F) (bounds : option (seq (F * option F))) (x0 g : X) (l0 : F).
Hypothesis I0 : inside_opt (flat x0) bounds.
Hypothesis L0 : loss x0 = Ok l0.
Hypothesis G0 : grad x0 = Ok g.
Hypothesis S0 : forall c, sub x0 c g = x0.
Lemma gd_step k kappa o : o = None \/ o = Some g -> gd_loop sub flat loss grad thr lr kz bounds k.+1 x0 l0 kappa o =
  if kappa * lr <= kz then Ok (x0, l0) else gd_loop sub flat loss grad thr lr kz bounds k x0 l0 (kappa / 2%:R) (Some g).
Proof.
have B0 : in_bounds flat bounds x0 = Ok true by case: (in_bounds_spec flat bounds x0) => [[->]|[/(_ I0)]].
by case=> -> /=; rewrite ?G0 /= S0 B0 /= L0 /= ltxx.
Qed.
Lemma gd_stay_loop n kappa o : o = None \/ o = Some g -> kappa * lr / 2%:R ^+ n <= kz ->
  gd_loop sub flat loss grad thr lr kz bounds n.+1 x0 l0 kappa o = Ok (x0, l0).
Proof.
elim: n kappa o => [|n IH] kappa o Ho H; rewrite gd_step //; first by move: H; rewrite expr0 divr1 => ->.
case: ifP => // _; apply: IH; first by right.
by move: H; rewrite exprS invfM mulrA -[_ / 2%:R * lr]mulrAC.
Qed.
Lemma gd_start f : gd sub flat loss grad thr lr kz bounds f x0 = gd_loop sub flat loss grad thr lr kz bounds f x0 l0 1 None.
Proof. by rewrite /gd; case: (in_bounds_spec flat bounds x0) => [[-> _]|[/(_ I0)]] //=; rewrite L0. Qed.
Lemma gd_stay n : lr / 2%:R ^+ n <= kz -> gd sub flat loss grad thr lr kz bounds n.+1 x0 = Ok (x0, l0).
Proof. by move=> H; rewrite gd_start; apply: gd_stay_loop; [left|rewrite mul1r]. Qed.
End Stay.

Lemma small_step (F : realFieldType) : 1 / 2%:R ^+ 170 <= kz F.
Proof.
rewrite /kz mul1r ler_pinv ?inE ?unitfE ?expf_neq0 ?pnatr_eq0 ?exprn_gt0 ?ltr0n //=.
have -> : (170 = 10 * 17)%N by [].
rewrite exprM; apply: le_trans (_ : 10%:R ^+ 3 ^+ 17 <= _).
  rewrite -exprM -[(3 * 17)%N]/(1 + 50)%N exprD expr1 ler_pemull ?exprn_ge0 ?ler0n //; by rewrite ler1n.
by rewrite ler_expn2r ?nnegrE ?exprn_ge0 ?ler0n // -!natrX ler_nat.
Qed.

Section Run.
Variables (F : realFieldType) (log : F -> F) (h : hord).
Add Field ff : (fieldT F).
Local Notation half := (2%:R^-1 : F).

(** Unit variances, correlations 1/2 and -1/2 *)
Definition cor (k : 'I_2) : F := if (k : nat) == 0%N then half else - half.
Definition sg5 (k : 'I_2) : 'M[F]_2 := \matrix_(i, j) (if i == j then 1 else cor k).
(** The solution of the convex problem: - B[0, 1] *)
Definition opt5 (o : 'M[F]_(2, 2)) : F := - (\sum_k cor k / o k 1) / (\sum_k (o k 1)^-1).
Definition conf5 : conf F 2 0 2 :=
  Conf log h id (fun m => Some (1%:M - tri (opt5 (momegas m)))^T) (fun=> (0, 0)) id (fun=> true) sg5 (fun=> 1%N) None false
    1000 (10%:R ^+ 3)^-1 (10%:R ^+ 5)^-1 5 (10%:R ^+ 5)^-1 1 Cvx 171.

Lemma tri_inv (x : F) : tri x *m tri (- x) = 1%:M.
Proof.
apply/matrixP => -[[|[|i]] Hi] [[|[|j]] Hj] //; rewrite !mxE !big_ord_recl big_ord0 !mxE //=;
  rewrite ?mulr0 ?mul0r ?mulr1 ?mul1r ?addr0 ?add0r ?subrr //.
Qed.
Lemma sg5_posdef k : posdef (sg5 k).
Proof.
have c2 : cor k * cor k = half * half by rewrite /cor; case: ifP => _; rewrite ?mulrNN.
set d : 'rV[F]_2 := \row_j (if (j : nat) == 0%N then 1 else 1 - half * half).
have -> : sg5 k = tri (cor k) *m diag_mx d *m (tri (cor k))^T.
  rewrite mul_mx_diag; apply/matrixP => -[[|[|i]] Hi] [[|[|j]] Hj] //; rewrite !mxE !big_ord_recl big_ord0 !mxE //= -c2;
  by move: (cor k) => c; symmetry; rg F.
apply: posdef_congr; first by have [] := mulmx1_unit (tri_inv (cor k)).
apply: diag_posdef => i; rewrite mxE; case: ifP => _; first exact: ltr01.
by rewrite subr_gt0 -invfM -natrM invf_lt1 ?ltr0n // ltr1n.
Qed.

Lemma noise5 e (g : 'M[F]_(0, 2)) (o : 'M[F]_(e, 2)) (s : 'M[F]_(e, 0)) k : positive o ->
  invmx (noise g o s k) = diag_mx (\row_j (o k j)^-1).
Proof.
move=> P; have -> : noise g o s k = diag_mx (row k o).
  by apply/matrixP => u v; rewrite !mxE big_ord0 add0r mulrb.
have D : diag_mx (row k o) *m diag_mx (\row_j (o k j)^-1) = 1%:M.
  by apply/matrixP => i j; rewrite mul_diag_mx !mxE mulrnAr mulfV // gt_eqF.
have [U _] := mulmx1_unit D; by rewrite -[RHS](mulKmx U) D mulmx1.
Qed.
Lemma N5 x k : tri x *m sg5 k *m (tri x)^T = \matrix_(i, j) (if i == j then (if (i : nat) == 0%N then 1 else x * x + 2%:R * x * cor k + 1) else x + cor k).
Proof.
apply/matrixP => -[[|[|i]] Hi] [[|[|j]] Hj] //; rewrite !mxE !big_ord_recl big_ord0 !mxE !big_ord_recl !big_ord0 !mxE //=;
move: (cor k) => c; nums; by rg F.
Qed.
Lemma tr5 (d : 'rV[F]_2) x k : \tr (diag_mx d *m (tri x *m sg5 k *m (tri x)^T)) = d 0 0 + d 0 1 * (x * x + 2%:R * x * cor k + 1).
Proof.
have E1 : lift ord0 ord0 = 1 :> 'I_2 by apply: val_inj.
rewrite N5 /mxtrace !big_ord_recl big_ord0 E1 !mul_diag_mx ![(\matrix_(_, _) _) _ _]mxE /= mulr1 addr0; by [].
Qed.
Lemma supported_triE (B : 'M[F]_2) : supported A2 B -> 1%:M - B^T = tri (- B 0 1).
Proof.
move=> SB; apply/matrixP => -[[|[|i]] Hi] [[|[|j]] Hj] //; rewrite !mxE /=.
- by rewrite (supported_B2 SB) ?subr0 //; right.
- by rewrite (supported_B2 SB) ?subr0 //; left.
- by rewrite sub0r; congr (- B _ _); apply: val_inj.
- by rewrite (supported_B2 SB) ?subr0 //; left.
Qed.
Lemma res5 (g : 'M[F]_(0, 2)) (o : 'M[F]_2) (s : 'M[F]_(2, 0)) (B : 'M[F]_2) x : positive o -> 1%:M - B^T = tri x ->
  residuals (fun=> 1) (fun k => invmx (noise g o s k)) sg5 B = \sum_k ((o k 0)^-1 + (o k 1)^-1 * (x * x + 2%:R * x * cor k + 1)).
Proof.
move=> P E; apply: eq_bigr => k _; rewrite mul1r E noise5 // -!mulmxA [tri x *m _]mulmxA tr5; by rewrite !mxE.
Qed.
Lemma exact5 : exact_cvx conf5 A2.
Proof.
move=> B g o s m B1 EN Po Ps /= [<-]; have [_ _ ->] := new_model_ok A2_sq A2_nonneg EN; rewrite /=.
split=> [|B' SB']; first exact: supported_tri.
rewrite (res5 g s Po (supported_triE SB')) (res5 g s Po (IB_inv (tri (opt5 o)))).
rewrite -subr_ge0 -sumrB; move: (- B' 0 1) => y; rewrite /opt5.
have E1 : lift ord0 ord0 = 1 :> 'I_2 by apply: val_inj.
have u0 k : 0 < (o k 1)^-1 by rewrite invr_gt0.
rewrite !big_ord_recl !big_ord0 !addr0 !E1; move: (u0 0) (u0 1).
move: (o 0 0)^-1 (o 1 0)^-1 (o 0 1)^-1 (o 1 1)^-1 (cor 0) (cor 1) => a b u v c d up vp.
have w0 : u + v != 0 by rewrite gt_eqF // addr_gt0.
set x := - _ / _; have Ex : x * (u + v) = - (c * u + d * v) by rewrite /x mulfVK.
suff -> : a + u * (y * y + 2%:R * y * c + 1) - (a + u * (x * x + 2%:R * x * c + 1)) +
  (b + v * (y * y + 2%:R * y * d + 1) - (b + v * (x * x + 2%:R * x * d + 1))) = (u + v) * (y - x) ^+ 2.
  by rewrite mulr_ge0 ?sqr_ge0 // addr_ge0 // ltW.
have -> : a + u * (y * y + 2%:R * y * c + 1) - (a + u * (x * x + 2%:R * x * c + 1)) +
  (b + v * (y * y + 2%:R * y * d + 1) - (b + v * (x * x + 2%:R * x * d + 1))) =
  (u + v) * (y * y - x * x) - 2%:R * (y - x) * (- (c * u + d * v)) by nums; rg F.
rewrite -Ex; nums; by rg F.
Qed.

Local Notation g5 := (no_g F).
Local Notation o5 := (one_o F 2).
Local Notation s5 := (no_s F 2).
Lemma opt5_one : opt5 o5 = 0.
Proof.
by rewrite /opt5 !big_ord_recl big_ord0 /cor /= !mxE !invr1 !mulr1 addr0 subrr oppr0 mul0r.
Qed.
Definition Bn : 'M[F]_2 := (1%:M - tri 0)^T.
Lemma Bn_supp : supported A2 Bn. Proof. exact: supported_tri. Qed.
Lemma Bn_IB : 1%:M - Bn^T = tri 0. Proof. exact: IB_inv. Qed.
Lemma solve_B5 I_B (B : 'M[F]_2) r r' : solve_B conf5 (MkModel A2 B g5 o5 s5 I_B) r r' = Ok Bn.
Proof.
rewrite /solve_B /= /solve_B_cvx inv_noise_ok /=; [|exact: one_o_pos|exact: no_s_ge0].
rewrite opt5_one -/Bn; have Z (i j : 'I_2) : Z.eqb (get A2 i j) Z0 -> Bn i j = 0.
  by move=> /Z.eqb_eq H; apply/eqP; apply: contraT => /Bn_supp E; case: (E H).
case: ifP => [_|/negP[]].
  by congr Ok; apply/matrixP => i j; rewrite mxE; case: ifP => // /Z.
apply/forallP => i; apply/forallP => j; apply/implyP => /Z ->.
by rewrite normr0 invr_ge0 exprn_ge0 ?ler0n.
Qed.
Lemma gamma5 I_B : solve_gamma conf5 (MkModel A2 Bn g5 o5 s5 I_B) = Ok g5.
Proof.
set m := MkModel _ _ _ _ _ _.
have [ls Els] := @gamma_loss_ok F 2 0 2 conf5 A2 A2_sq A2_nonneg A2_acyclic m g5 erefl Bn_supp (@one_o_pos F 2) (@no_s_ge0 F 2).
have [gr Egr] := @gamma_gradient_ok F 2 0 2 conf5 A2 A2_sq A2_nonneg A2_acyclic m g5 erefl Bn_supp (@one_o_pos F 2) (@no_s_ge0 F 2).
rewrite /solve_gamma (@gd_stay _ _ _ _ _ _ _ _ _ _ _ gr ls _ Els Egr _ 170) //=; last exact: small_step.
by move=> c; apply/matrixP => -[].
Qed.
Lemma rest5 I_B I : solve_rest conf5 (MkModel A2 Bn g5 o5 s5 I_B) I = Ok (o5, s5).
Proof.
set m := MkModel _ _ _ _ _ _.
have [ls Els] := @rest_loss_ok F 2 0 2 conf5 A2 A2_sq A2_nonneg A2_acyclic m (o5, s5) erefl Bn_supp (@one_o_pos F 2) (@no_s_ge0 F 2).
have [gr Egr] := @rest_gradient_ok F 2 0 2 conf5 A2 A2_sq A2_nonneg A2_acyclic m I (o5, s5) erefl Bn_supp (@one_o_pos F 2) (@no_s_ge0 F 2).
have Z : gr.1 = 0.
  move: Egr; rewrite /rest_gradient newM_ok //=; [|exact: A2_sq|exact: A2_nonneg|exact: A2_acyclic|exact: Bn_supp].
  rewrite inv_noise_ok //=; [|exact: one_o_pos|exact: no_s_ge0]; case=> <- /=.
  have E y j : (invmx (mnoise (MkModel A2 Bn g5 o5 s5 (1%:M - Bn^T)) y) - invmx (mnoise (MkModel A2 Bn g5 o5 s5 (1%:M - Bn^T)) y)
      *m Ns conf5 Bn y *m invmx (mnoise (MkModel A2 Bn g5 o5 s5 (1%:M - Bn^T)) y)) j j = 0.
    rewrite /mnoise /= noise_one invmx1 mul1mx mulmx1 /Ns Bn_IB N5 !mxE eqxx; case: ifP => _; first by rewrite subrr.
    by rewrite mul0r mulr0 mul0r add0r add0r subrr.
  set G := (X in average_cols _ X); have -> : G = 0.
    by apply/matrixP => i j; rewrite /G mxE E mulr0 mxE.
  by apply/matrixP => i j; rewrite !mxE; case: ifP => // _; rewrite big1 ?mul0r // => k _; rewrite mxE.
rewrite /solve_rest (@gd_stay _ _ _ _ _ _ _ _ _ _ _ gr ls _ Els Egr _ 170) //=; last exact: small_step.
- by case: (@inside_rest F 2 0 2 conf5 m) => // [|[u []]] //; split=> //; [exact: one_o_pos|exact: no_s_pos].
- by move=> c; rewrite /sub2 Z scaler0 subr0; congr pair; apply/matrixP => i [].
Qed.
Lemma round5 I rnd (pm : model F 2 0 2) : mA pm = A2 -> supported A2 (mB pm) -> mgamma pm = g5 -> momegas pm = o5 -> mpsis pm = s5 ->
  exists s d, [/\ round conf5 I rnd pm = Ok (MkModel A2 Bn g5 o5 s5 (1%:M - (mB pm)^T), s, d) & amax (mB pm - Bn) = Ok d].
Proof.
move=> EA SB Eg Eo Es; have [d Ed] := @amax_ok F 2 erefl (mB pm - Bn).
have [s ES] := @mscore_ok F 2 0 2 conf5 (MkModel A2 Bn g5 o5 s5 (1%:M - (mB pm)^T)) (@one_o_pos F 2) (@no_s_ge0 F 2).
have bo T U (x : T) (f : T -> res U) : bind (Ok x) f = f x by [].
exists s, d; split=> //; rewrite /round /copy_model EA Eg Eo Es (newM_ok _ A2_sq A2_nonneg A2_acyclic) // bo.
rewrite solve_B5 bo; rewrite [solve_gamma _ _]gamma5 bo; rewrite [solve_rest _ _ _]rest5 bo.
by rewrite [amax _]Ed bo [mscore _ _]ES.
Qed.
Definition B5 : 'M[F]_2 := (1%:M - tri 6%:R^-1)^T.
Lemma alt_loopS k I rnd i dist flucs (pm : model F 2 0 2) ps cur cm cs d : continue conf5 i dist flucs ->
  round conf5 I (rnd i) pm = Ok (cm, cs, d) ->
  alt_loop conf5 k.+1 I rnd i dist flucs pm ps cur =
  alt_loop conf5 k I rnd i.+1 (Some d) (if cf_threshold_fluctuation conf5 < cs - ps then flucs.+1 else flucs) cm cs (Some (cm, cs)).
Proof. by move=> /= -> ->. Qed.
Lemma alt_loopN k I rnd i dist flucs (pm : model F 2 0 2) ps cur : continue conf5 i dist flucs = false ->
  alt_loop conf5 k I rnd i dist flucs pm ps cur = Ok cur.
Proof. by case: k => [|k] /= ->. Qed.
Lemma fit5 I rnd : exists m0 m s, [/\ new_model h A2 B5 g5 o5 s5 = Ok m0, fit conf5 A2 I (Some m0) rnd = Ok (m, s),
  mA m = A2, mB m = Bn & mgamma m = g5 /\ momegas m = o5 /\ mpsis m = s5].
Proof.
have EN := @newM_ok F 2 0 2 conf5 A2 A2_sq A2_nonneg A2_acyclic B5 g5 o5 s5 (supported_tri (x := 6%:R^-1)).
set m0 := MkModel _ _ _ _ _ _ in EN.
have [s0 E0] := @mscore_ok F 2 0 2 conf5 m0 (@one_o_pos F 2) (@no_s_ge0 F 2).
have [s1 [d1 [R1 D1]]] := @round5 I (rnd 0%N) m0 erefl (supported_tri (x := 6%:R^-1)) erefl erefl erefl.
have [s2 [d2 [R2 D2]]] := @round5 I (rnd 1%N) (MkModel A2 Bn g5 o5 s5 (1%:M - (mB m0)^T)) erefl Bn_supp erefl erefl erefl.
exists m0, (MkModel A2 Bn g5 o5 s5 (1%:M - Bn^T)), s2; split=> //.
rewrite /fit; case: (is_dag_spec (cf_h conf5) 2 A2 A2_sq A2_nonneg) => b [-> Hb]; have Eb : b by apply/Hb; exact: A2_acyclic.
have T : (10%:R ^+ 3)^-1 < 6%:R^-1 :> F.
  by rewrite ltf_pinv ?posrE ?exprn_gt0 ?ltr0n // -natrX ltr_nat.
have C0 : (10%:R ^+ 3)^-1 < d1.
  have c0 : 0 <= (10%:R ^+ 3)^-1 :> F by rewrite invr_ge0 exprn_ge0 ?ler0n.
  apply/(amax_gt D1 c0); exists 0, 1; rewrite /m0 /= /B5 /Bn !mxE /=.
  by rewrite opprD addrACA addrN opprK addr0 add0r normrN ger0_norm // invr_ge0 ler0n.
have C2 : ((10%:R ^+ 3)^-1 < d2) = false.
  apply/negP => H; have c0 : 0 <= (10%:R ^+ 3)^-1 :> F by rewrite invr_ge0 exprn_ge0 ?ler0n.
  by move/(amax_gt D2 c0): H => [i [j]]; rewrite subrr mxE normr0 ltNge c0.
have -> : mateqb (mA m0) A2 by apply/(mateqb_eq A2_sq A2_sq).
have bo V U (x : V) (f : V -> res U) : bind (Ok x) f = f x by [].
have iff V (c : bool) (x y : V) : c -> (if ~~ c then x else y) = y by move=> ->.
rewrite bo (iff _ _ _ _ Eb) bo E0 bo (_ : cf_max_iter conf5 = 998.+2) // (alt_loopS _ _ _ _ R1) //.
rewrite (alt_loopS _ _ _ _ R2); last by rewrite /continue /= C0; case: ifP.
by rewrite alt_loopN // /continue /= C2.
Qed.
Lemma score5 B x : supported A2 B -> 1%:M - B^T = tri x -> scores conf5 A2 B g5 o5 s5
  (\sum_(k < 2) (- log 1 + (1 + (x * x + 2%:R * x * cor k + 1))) / 2%:R ^+ (2 - k)).
Proof.
move=> SB E; exists (MkModel A2 B g5 o5 s5 (1%:M - B^T)).
  by apply: newM_ok => //; [exact: A2_sq|exact: A2_nonneg|exact: A2_acyclic].
rewrite score_value; [|exact: one_o_pos|exact: no_s_ge0]; congr Ok; apply: eq_bigr => k _.
have -> : (\sum_(i < 2) cf_n_obs conf5 i = 2)%N by rewrite !big_ord_recl big_ord0.
rewrite mul1r /mnoise /= noise_one invmx1 det1 E; congr ((_ + _) / _).
have -> : (1%:M : 'M[F]_2) = diag_mx (const_mx 1) by rewrite diag_const_mx.
by rewrite tr5 !mxE mul1r.
Qed.
Lemma worse5 : \sum_(k < 2) (- log 1 + (1 + (6%:R^-1 * 6%:R^-1 + 2%:R * 6%:R^-1 * cor k + 1))) / 2%:R ^+ (2 - k) <
  \sum_(k < 2) (- log 1 + (1 + (0 * 0 + 2%:R * 0 * cor k + 1))) / 2%:R ^+ (2 - k).
Proof.
rewrite -subr_gt0 -sumrB !big_ord_recl big_ord0 addr0 /cor /=.
set t := (X in 0 < X); have -> : t = 48%:R^-1.
  have n2 : 2%:R != 0 :> F by rewrite pnatr_eq0.
  have n3 : 3%:R != 0 :> F by rewrite pnatr_eq0.
  have -> : 48%:R = 3%:R * 2%:R * (2%:R * 2%:R * 2%:R) :> F by rewrite -!natrM.
  have E6 : 6%:R = 3%:R * 2%:R :> F by rewrite -natrM.
  have E3 : 3%:R = 2%:R + 1 :> F by rewrite -(natrD F 2 1).
  have E2 : 2%:R = 1 + 1 :> F by rewrite -(natrD F 1 1).
  rewrite /t (_ : (2 - 0 = 2)%N) // (_ : (2 - bump 0 0 = 1)%N) // expr1 !exprS expr0 E6.
  move: n2 n3; rewrite !E3 !E2; move: (log 1) => u n2 n3; have n3' : 1 + (1 + 1) != 0 :> F by rewrite addrC.
  fd F; repeat split; do 5?[exact: (elimN eqP n2) | exact: (elimN eqP n3') | apply: (elimN eqP); apply: mulf_neq0; first exact: n2; apply: (introN eqP)].
by rewrite invr_gt0 ltr0n.
Qed.
Lemma fit5_worse I rnd : exists m0 m s x y, [/\ new_model h A2 B5 g5 o5 s5 = Ok m0, fit conf5 A2 I (Some m0) rnd = Ok (m, s),
  scores conf5 (mA m0) (mB m0) (mgamma m0) (momegas m0) (mpsis m0) x, scores conf5 (mA m) (mB m) (mgamma m) (momegas m) (mpsis m) y & x < y].
Proof.
have [m0 [m [s [E0 E EA EB [Eg [Eo Es]]]]]] := fit5 I rnd; exists m0, m, s; have [_ _ Em] := new_model_ok A2_sq A2_nonneg E0.
have S0 := score5 (supported_tri (x := 6%:R^-1)) (IB_inv (tri 6%:R^-1)); have S1 := score5 Bn_supp Bn_IB.
eexists; eexists; split; [exact: E0|exact: E| | |exact: worse5].
- by rewrite Em.
- by rewrite EA EB Eg Eo Es.
Qed.
End Run.

Lemma descent_refuted (F : realFieldType) (log : F -> F) h rnd : exists (cf : conf F 2 0 2) A B g o s m0 m r x y,
  [/\ cf_log cf = log /\ cf_h cf = h, square 2 A /\ nonneg A, cf_solver cf = Cvx /\ exact_cvx cf A,
    (forall k, posdef (cf_sigmas cf k)) /\ (forall k, (0 < cf_n_obs cf k)%N) & positive o /\ positive s] /\
  [/\ new_model h A B g o s = Ok m0, fit cf A [::] (Some m0) rnd = Ok (m, r),
    scores cf (mA m0) (mB m0) (mgamma m0) (momegas m0) (mpsis m0) x, scores cf (mA m) (mB m) (mgamma m) (momegas m) (mpsis m) y & x < y].
Proof.
have [m0 [m [r [x [y H]]]]] := fit5_worse log h [::] rnd.
exists (conf5 log h), A2, (B5 F), (no_g F), (one_o F 2), (no_s F 2), m0, m, r, x, y; split=> //; split=> //.
- by split; [exact: A2_sq|exact: A2_nonneg].
- by split=> //; exact: exact5.
- by split=> // k; exact: sg5_posdef.
- by split; [exact: one_o_pos|exact: no_s_pos].
Qed.
