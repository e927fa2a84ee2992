(** psi_fixed does not make the variances of different latents equal (C141). *)
From Coq Require Import ZArith List Lia.
From mathcomp Require Import all_ssreflect all_algebra.
From Verif Require Import Base GraphModel GraphSpec TopoProofs NumModel NumSpec LinAlgProofs NumProofs ScoreModel CacheSpec ScoreSpec OptSpec InitSpec DescentSpec FixedSpec.
From Verif Require Import HistProofs FieldTac GradProofs GDProofs ScoreProofs NoErrProofs ConsistProofs Run2Proofs StatProofs.
Set Implicit Arguments.
Unset Strict Implicit.
Unset Printing Implicit Defensive.
Import Order.Theory GRing.Theory Num.Theory.
Local Open Scope ring_scope.

(** Diagonal matrices *)
Lemma inv_diag (F : realFieldType) n (d : 'rV[F]_n) : (forall j, d 0 j != 0) -> invmx (diag_mx d) = diag_mx (\row_j (d 0 j)^-1).
Proof.
move=> H; have E : diag_mx d *m diag_mx (\row_j (d 0 j)^-1) = 1%:M.
  rewrite mulmx_diag -diag_const_mx; congr diag_mx; apply/rowP => j; rewrite !mxE mulfV //.
have [U _] := mulmx1_unit E; by rewrite -[RHS](mulKmx U) E mulmx1.
Qed.
Lemma tr_diag (F : realFieldType) n (d : 'rV[F]_n) (X : 'M[F]_n) : \tr (diag_mx d *m X) = \sum_j d 0 j * X j j.
Proof. by rewrite mul_diag_mx; apply: eq_bigr => j _; rewrite mxE. Qed.

Lemma diag_unit (F : realFieldType) n (d : 'rV[F]_n) : (forall j, d 0 j != 0) -> diag_mx d \in unitmx.
Proof. by move=> H; rewrite unitmxE det_diag unitfE; apply/prodf_neq0 => j _. Qed.

Section Diag.
Variables (F : realFieldType) (n : nat).
Definition nv (g o s : 'rV[F]_n) : 'rV[F]_n := \row_j (g 0 j ^+ 2 * s 0 j + o 0 j).
Lemma noise_diag (g o s : 'rV[F]_n) (i : 'I_1) : noise_cov (diag_mx g) o s i = diag_mx (nv g o s).
Proof.
rewrite /noise_cov tr_diag_mx (ord1 i) !rowE; have -> : delta_mx 0 0 = 1%:M :> 'M[F]_1 by apply/matrixP => a b; rewrite !mxE !ord1.
rewrite !mul1mx !mulmx_diag -raddfD; congr diag_mx; apply/rowP => j; rewrite !mxE expr2 mulrAC //.
Qed.
End Diag.

Section Run.
Variables (F : realFieldType) (log sqrt : F -> F) (h : hord) (N : nat) (thr : F).
Hypothesis L : log_like log.
Hypothesis N0 : (0 < N)%N.
Add Field ff : (fieldT F).

(** Two independent variables with variances 4 and 1 *)
Definition A00 : mat := cons (cons Z0 (cons Z0 nil)) (cons (cons Z0 (cons Z0 nil)) nil).
Definition vars : 'rV[F]_2 := \row_j (if j == 0 then 4%:R else 1).
Definition fx_conf : conf F 2 2 1 :=
  Conf log h id (fun=> Some 0) (fun=> (1%:M, vars)) sqrt (fun=> true) (fun=> diag_mx vars) (fun=> N) None true
    1 0 0 1 thr 1 Cvx 1.
Local Notation cf := fx_conf.

Lemma A00_sq : square 2 A00. Proof. by split=> //; do 3 constructor. Qed.
Lemma A00_get i j : get A00 i j = Z0. Proof. by move: i j => [|[|[|i]]] [|[|[|j]]]. Qed.
Lemma A00_edge i j : ~ edge A00 i j. Proof. by rewrite /edge A00_get. Qed.
Lemma A00_acyclic : acyclic A00.
Proof.
have P : forall i j, Relation_Operators.clos_trans nat (edge A00) i j -> False.
  by move=> i j; elim=> [x y /A00_edge|x y z _ H _ _].
by move=> i /P.
Qed.
Lemma A00_nonneg : nonneg A00. Proof. by move=> i j; rewrite A00_get. Qed.
Lemma zero_supported : supported A00 (0 : 'M[F]_2). Proof. by move=> i j; rewrite mxE eqxx. Qed.
Lemma new00 (g : 'M[F]_(2, 2)) (o s : 'M[F]_(1, 2)) : new_model h A00 0 g o s = Ok (MkModel A00 0 g o s (1%:M - 0^T)).
Proof.
case: (new_model_spec h 0 g o s A00_sq A00_nonneg) => [[_ [_ E]]|[[]]] //; split; [exact: A00_acyclic|exact: zero_supported].
Qed.
Lemma vars_gt0 j : 0 < vars 0 j. Proof. by rewrite mxE; case: ifP => _; rewrite ?ltr0n ?ltr01. Qed.
Lemma tot0 : (\sum_(i < 1) cf_n_obs cf i)%N = N. Proof. by rewrite big_ord1. Qed.
Lemma NN : N%:R / N%:R = 1 :> F. Proof. by rewrite mulfV // pnatr_eq0 -lt0n. Qed.

(** The likelihood of variances d *)
Definition lik (d : 'rV[F]_2) : F := - log (\prod_j (d 0 j)^-1) + \sum_j (d 0 j)^-1 * vars 0 j.
Definition pos (d : 'rV[F]_2) : Prop := forall j, 0 < d 0 j.
Lemma lik_lt (d d' : 'rV[F]_2) : (forall j, vars 0 j < d' 0 j < d 0 j) -> lik d' < lik d.
Proof.
move=> H; have P' j : 0 < d' 0 j by case/andP: (H j) => /(lt_trans (vars_gt0 j)).
have P j : 0 < d 0 j by case/andP: (H j) => _; exact: lt_trans.
have PV' : 0 < \prod_j (d' 0 j)^-1 by apply: prodr_gt0 => j _; rewrite invr_gt0.
have E : \prod_j (d 0 j)^-1 = \prod_j (d' 0 j)^-1 * \prod_j (d' 0 j / d 0 j).
  by rewrite -big_split; apply: eq_bigr => j _ /=; rewrite mulrA mulVf ?mul1r // gt_eqF.
rewrite /lik E (log_prod L) //; last by move=> j; rewrite divr_gt0.
rewrite -subr_gt0.
have -> : - (log (\prod_j (d' 0 j)^-1) + \sum_i log (d' 0 i / d 0 i)) + \sum_j (d 0 j)^-1 * vars 0 j -
    (- log (\prod_j (d' 0 j)^-1) + \sum_j (d' 0 j)^-1 * vars 0 j) =
  \sum_j ((d 0 j)^-1 * vars 0 j - (d' 0 j)^-1 * vars 0 j - log (d' 0 j / d 0 j)).
  rewrite !sumrB; move: (log _) (\sum_i log _) (\sum_i _ * _) (\sum_i _ * _) => a b c e; rg F.
apply: sum_gt0 => // j; case/andP: (H j) => H1 H2; rewrite subr_gt0.
apply: (le_lt_trans (L.2 _ (divr_gt0 (P' j) (P j)))).
have n1 : d 0 j != 0 by rewrite gt_eqF.
have n2 : d' 0 j != 0 by rewrite gt_eqF.
rewrite -subr_gt0; have -> : (d 0 j)^-1 * vars 0 j - (d' 0 j)^-1 * vars 0 j - (d' 0 j / d 0 j - 1) =
  (d 0 j - d' 0 j) * (d' 0 j - vars 0 j) / (d 0 j * d' 0 j).
  by move: (d 0 j) (d' 0 j) (vars 0 j) n1 n2 => x y v /eqP n1 /eqP n2; fd F; split.
by rewrite divr_gt0 // mulr_gt0 // subr_gt0.
Qed.

(** Scores of models with a diagonal gamma *)
Lemma mscore_diag (g : 'rV[F]_2) (o s : 'M[F]_(1, 2)) : pos (nv g o s) ->
  mscore cf (MkModel A00 0 (diag_mx g) o s (1%:M - 0^T)) = Ok (lik (nv g o s)).
Proof.
move=> P; rewrite score_value_unit; last first.
  by move=> i; rewrite /mnoise /= noise_diag; apply: diag_unit => j; rewrite gt_eqF.
congr Ok; rewrite big_ord1 /= /mnoise /= noise_diag inv_diag; last by move=> j; rewrite gt_eqF.
rewrite tr_diag det_diag subn0 expr1 big_ord1 mulrAC NN mul1r trmx0 subr0 trmx1 mul1mx mulmx1 /lik.
congr (- log _ + _); apply: eq_bigr => j _; rewrite !mxE ?eqxx ?mulr1n //.
Qed.

(** The two gradients, with a = 1/n - S/n^2 *)
Definition dd (d : 'rV[F]_2) : 'rV[F]_2 := \row_j ((d 0 j)^-1 - (d 0 j)^-1 * vars 0 j * (d 0 j)^-1).
Lemma inv00 g (o s : 'M[F]_(1, 2)) : pos (nv g o s) ->
  exists Ms, inv_noise (MkModel A00 0 (diag_mx g) o s (1%:M - 0^T)) = Ok Ms /\ forall i, Ms i = diag_mx (\row_j ((nv g o s) 0 j)^-1).
Proof.
move=> P; have U i : mnoise (MkModel A00 0 (diag_mx g) o s (1%:M - 0^T)) i = diag_mx (nv g o s) by rewrite /mnoise /= noise_diag.
rewrite /inv_noise; have -> : [forall i, mnoise (MkModel A00 0 (diag_mx g) o s (1%:M - 0^T)) i \in unitmx].
  by apply/forallP => i; rewrite U; apply: diag_unit => j; rewrite gt_eqF.
eexists; split; first by [].
by move=> i /=; rewrite U inv_diag // => j; rewrite gt_eqF.
Qed.
Lemma Ns00 k : Ns cf 0 k = diag_mx vars.
Proof. by rewrite /Ns trmx0 subr0 trmx1 mul1mx mulmx1. Qed.
Lemma MM (d : 'rV[F]_2) : diag_mx (\row_j (d 0 j)^-1) - diag_mx (\row_j (d 0 j)^-1) *m diag_mx vars *m diag_mx (\row_j (d 0 j)^-1) = diag_mx (dd d).
Proof. by rewrite !mulmx_diag -raddfB; congr diag_mx; apply/rowP => j; rewrite !mxE. Qed.
Lemma gamma_grad g0 g (o s : 'M[F]_(1, 2)) : pos (nv g o s) ->
  gamma_gradient cf (MkModel A00 0 g0 o s (1%:M - 0^T)) (diag_mx g) = Ok (diag_mx (\row_j (2%:R * g 0 j * s 0 j * dd (nv g o s) 0 j))).
Proof.
move=> P; rewrite /gamma_gradient /= new00 /=; have [Ms [-> EM]] := inv00 P; rewrite /=; congr Ok.
apply/matrixP => a k; rewrite [LHS]mxE big_ord1 big_ord1 !EM Ns00 mulrAC NN mul1r -raddfB -mulmxBl MM.
rewrite -[LHS]/(\tr (diag_mx (dd (nv g o s)) *m T_gamma (diag_mx g) s 0 a k)) tr_diag (bigD1 k) //= bigop.big1 ?addr0.
  rewrite /T_gamma !mxE eqxx; case: (altP (a =P k)) => [<-|_]; rewrite ?mulr0n ?mul0r ?addr0 ?mulr0 // !mulr1n.
  by rewrite [LHS]mulrC; congr (_ * _); rewrite -mulrA mulrDl !mul1r.
move=> j /negbTE jk; by rewrite /T_gamma !mxE jk addr0 mulr0.
Qed.
Lemma rest_grad g (o0 s0 : 'M[F]_(1, 2)) (o s : 'M[F]_(1, 2)) I : pos (nv g o s) ->
  rest_gradient cf (MkModel A00 0 (diag_mx g) o0 s0 (1%:M - 0^T)) I (o, s) = Ok (dd (nv g o s), \row_j (g 0 j ^+ 2 * dd (nv g o s) 0 j)).
Proof.
move=> P; rewrite /rest_gradient /= new00 /=; have [Ms [-> EM]] := inv00 P; rewrite /= !average_one //; congr (Ok (_, _)).
  apply/matrixP => y j; rewrite [LHS]mxE big_ord1 !EM Ns00 MM !(ord1 y) NN mul1r [LHS]mxE eqxx mulr1n //.
apply/matrixP => y k; rewrite [LHS]mxE big_ord1 !EM Ns00 (ord1 y) NN mul1r -raddfB -mulmxBl MM.
rewrite -[LHS]/(\tr (diag_mx (dd (nv g o s)) *m (\matrix_(i, j) (diag_mx g k i * diag_mx g k j)))) tr_diag (bigD1 k) //= bigop.big1 ?addr0.
  by rewrite ![in LHS]mxE eqxx !mulr1n ![in RHS]mxE mulrC expr2.
by move=> j; rewrite eq_sym => /negbTE jk; rewrite [X in _ * X]mxE !mxE jk mulr0n mul0r mulr0.
Qed.

(** The initial model *)
Hypothesis SQ : exact_sqrt sqrt vars.
Lemma unit0 n (X : 'M[F]_n) : n = 0%N -> X \in unitmx.
Proof. by move=> E; subst n; rewrite unitmxE det_mx00 unitr1. Qed.
Lemma init_B00 : initialize_B cf A00 = Ok 0.
Proof.
rewrite /initialize_B; elim: (enum 'I_2) => [|j js IH] //=; rewrite /regress.
have -> : pa_of A00 j = [::] by rewrite /pa_of; elim: (enum _) => [|i q E] //=; rewrite A00_get.
rewrite (@unit0 _ (\matrix_(a, b) _)) //.
rewrite /=; set X := set_col _ _ _; have -> // : X = 0.
by apply/matrixP => a b; rewrite mxE in_nil andbF.
Qed.
Definition g0 : 'rV[F]_2 := \row_j sqrt (vars 0 j).
Definition one2 : 'M[F]_(1, 2) := const_mx 1.
Lemma init_g00 : initialize_gamma cf 0 = Ok (diag_mx g0).
Proof.
rewrite /initialize_gamma leqnn; congr Ok; apply/matrixP => i j; rewrite 2!mxE valK /=.
by rewrite mxE eq_sym; case: (altP (i =P j)) => [->|_]; rewrite ?mul1r ?mulr1n ?mul0r ?mulr0n ?mxE.
Qed.
Lemma init_o00 : initialize_omegas cf 0 [::] = vars.
Proof.
apply/matrixP => i j; rewrite [LHS]mxE /= !big_ord1 -mulrA NN mulr1 [LHS]mxE trmx0 subr0 trmx1 mul1mx mulmx1 [LHS]mxE eqxx mulr1n (ord1 i) //.
Qed.
Lemma init00 : initial_model cf A00 [::] = Ok (MkModel A00 0 (diag_mx g0) vars one2 (1%:M - 0^T)).
Proof. by rewrite /initial_model init_B00 /bind init_g00 init_o00 new00. Qed.

(** The steps of the descent *)
Definition n0 := nv g0 vars one2.
Definition g1 : 'rV[F]_2 := g0 - \row_j (2%:R * g0 0 j * one2 0 j * dd n0 0 j).
Definition n1 := nv g1 vars one2.
Definition o1 : 'M[F]_(1, 2) := vars - dd n1.
Definition s1 : 'M[F]_(1, 2) := one2 - \row_j (g1 0 j ^+ 2 * dd n1 0 j).
Definition n2 := nv g1 o1 s1.
Lemma g0_sq j : g0 0 j ^+ 2 = vars 0 j. Proof. by rewrite mxE. Qed.
Lemma n0E j : n0 0 j = vars 0 j + vars 0 j. Proof. by rewrite [LHS]mxE g0_sq [one2 _ _]mxE mulr1. Qed.
Definition kk j : F := 1 - (vars 0 j + vars 0 j)^-1.
Lemma vars_ge1 j : 1 <= vars 0 j. Proof. by rewrite mxE; case: ifP => _; rewrite ?ler1n. Qed.
Lemma kk_bounds j : 0 < kk j < 1.
Proof.
have V := vars_gt0 j; have V2 : 0 < vars 0 j + vars 0 j by rewrite addr_gt0.
rewrite /kk subr_gt0 invf_lt1 // ltr_subl_addr ltr_addl invr_gt0 V2 andbT.
by apply: (le_lt_trans (vars_ge1 j)); rewrite ltr_addl.
Qed.
Lemma scal_step (x g : F) : x != 0 -> g - 2%:R * g * ((x + x)^-1 - (x + x)^-1 * x * (x + x)^-1) = g * (1 - (x + x)^-1).
Proof.
move=> /eqP nx; have t : (1 + 1 : F) <> 0 by apply/eqP; rewrite (_ : 1 + 1 = 2%:R) // pnatr_eq0.
rewrite -[2%:R]/(1 + 1).
have t2 : x + x <> 0 by apply/eqP; rewrite -mulr2n mulrn_eq0 /=; apply/eqP.
fd F; exact: t2.
Qed.
Lemma g1E j : g1 0 j = g0 0 j * kk j.
Proof.
rewrite [LHS]mxE [X in _ + X]mxE [X in _ - X]mxE [one2 _ _]mxE mulr1 [dd _ _ _]mxE n0E /kk.
by apply: scal_step; rewrite gt_eqF // vars_gt0.
Qed.
Lemma g1_sq j : g1 0 j ^+ 2 = vars 0 j * kk j ^+ 2. Proof. by rewrite g1E exprMn g0_sq. Qed.
Definition uu j : F := vars 0 j * kk j ^+ 2.
Lemma uu_bounds j : 0 < uu j < vars 0 j.
Proof.
have V := vars_gt0 j; have /andP[k0 k1] := kk_bounds j.
by rewrite /uu mulr_gt0 ?exprn_gt0 //= gtr_pmulr // expr_lt1 // ltW.
Qed.
Lemma n1E j : n1 0 j = uu j + vars 0 j. Proof. by rewrite [LHS]mxE g1_sq [one2 _ _]mxE mulr1. Qed.
Lemma dd1E j : dd n1 0 j = uu j / n1 0 j ^+ 2.
Proof.
rewrite [LHS]mxE n1E; have /andP[] := uu_bounds j; have := vars_gt0 j.
move: (uu j) (vars 0 j) => u v v0 u0 _; have /lt0r_neq0/eqP : 0 < u + v by rewrite addr_gt0.
by rewrite expr2 => n; fd F.
Qed.
Lemma o1E j : o1 0 j = vars 0 j - uu j / n1 0 j ^+ 2. Proof. by rewrite [LHS]mxE [X in _ + X]mxE dd1E. Qed.
Lemma s1E j : s1 0 j = 1 - (uu j / n1 0 j) ^+ 2.
Proof.
by rewrite [LHS]mxE [X in _ + X = _]mxE [X in _ - X = _]mxE [one2 _ _]mxE dd1E g1_sq -/(uu j) mulrA -expr2 -exprVn -exprMn.
Qed.
Lemma n2E j : n2 0 j = uu j * s1 0 j + o1 0 j. Proof. by rewrite [LHS]mxE g1_sq. Qed.

Lemma scal_bounds (u v : F) : 1 <= v -> 0 < u < v ->
  [/\ 0 < v - u / (u + v) ^+ 2, 0 < 1 - (u / (u + v)) ^+ 2
    & v < u * (1 - (u / (u + v)) ^+ 2) + (v - u / (u + v) ^+ 2) < u + v].
Proof.
move=> v1 /andP[u0 uv]; have v0 : 0 < v := lt_le_trans ltr01 v1; have n0' : 0 < u + v by rewrite addr_gt0.
have n1' : 1 < u + v by rewrite (le_lt_trans v1) // ltr_addr.
have n2' : 1 < (u + v) ^+ 2 by rewrite exprn_egt1.
have q : 0 < u / (u + v) ^+ 2 by rewrite divr_gt0 // exprn_gt0.
have q2 : 0 < u * (u / (u + v)) ^+ 2 by rewrite mulr_gt0 // exprn_gt0 // divr_gt0.
split.
- by rewrite subr_gt0 (lt_trans _ uv) // gtr_pmulr // invf_lt1 // exprn_gt0.
- rewrite subr_gt0 expr_lt1 //; first by rewrite ltr_pdivr_mulr // mul1r ltr_addl.
  by rewrite ltW // divr_gt0.
have K : u * (1 - (u / (u + v)) ^+ 2) + (v - u / (u + v) ^+ 2) = u + v - (u * (u / (u + v)) ^+ 2 + u / (u + v) ^+ 2).
  by rewrite mulrBr mulr1 addrACA -opprD.
rewrite K; apply/andP; split; last by rewrite ltr_subl_addr ltr_addl addr_gt0.
have -> : u * (u / (u + v)) ^+ 2 + u / (u + v) ^+ 2 = u * ((u ^+ 2 + 1) / (u + v) ^+ 2).
  by rewrite exprMn exprVn mulrDl mulrDr mul1r.
rewrite ltr_subr_addr addrC ltr_add2r gtr_pmulr // ltr_pdivr_mulr ?exprn_gt0 // mul1r sqrrD -addrA ltr_add2l.
rewrite addrC (le_lt_trans (y := v ^+ 2)) ?exprn_ege1 // ltr_addl mulrn_wgt0 ?mulr_gt0 //.
Qed.

Lemma n1_bounds j : vars 0 j < n1 0 j < n0 0 j.
Proof. by rewrite n1E n0E ltr_addr ltr_add2r uu_bounds. Qed.
Lemma rest_bounds1 j : [/\ 0 < o1 0 j, 0 < s1 0 j & vars 0 j < n2 0 j < n1 0 j].
Proof. by have := scal_bounds (vars_ge1 j) (uu_bounds j); rewrite n2E s1E o1E n1E. Qed.
Lemma pos0 : pos n0. Proof. by move=> j; rewrite n0E addr_gt0 ?vars_gt0. Qed.
Lemma pos1 : pos n1. Proof. by move=> j; case/andP: (n1_bounds j) => /(lt_trans (vars_gt0 j)). Qed.
Lemma pos2 : pos n2. Proof. by move=> j; case: (rest_bounds1 j) => _ _ /andP[/(lt_trans (vars_gt0 j))]. Qed.
Lemma loss1 : lik n1 < lik n0. Proof. exact: lik_lt n1_bounds. Qed.
Lemma loss2 : lik n2 < lik n1. Proof. by apply: lik_lt => j; case: (rest_bounds1 j). Qed.

(** The variances of the two latents differ. *)
Lemma latents_differ : s1 0 0 != s1 0 1.
Proof.
apply/negP; rewrite !s1E => /eqP/addrI/oppr_inj/eqP.
have Q j : 0 <= uu j / n1 0 j by rewrite divr_ge0 // ltW //; [case/andP: (uu_bounds j)|exact: pos1].
rewrite eqr_expn2 // eqr_div ?(gt_eqF (pos1 _)) // !n1E !mulrDr [uu 1 * uu 0]mulrC => /eqP/addrI/eqP.
have -> : uu 0 * vars 0 1 = vars 0 0 * vars 0 1 * kk 0 ^+ 2 by rewrite /uu mulrAC.
have -> : uu 1 * vars 0 0 = vars 0 0 * vars 0 1 * kk 1 ^+ 2 by rewrite /uu mulrAC [vars 0 1 * _]mulrC.
have V : vars 0 0 * vars 0 1 != 0 by rewrite gt_eqF // mulr_gt0 ?vars_gt0.
move=> /eqP/(mulfI V)/eqP; rewrite eqr_expn2 //; [|by rewrite ltW //; case/andP: (kk_bounds 0)|by rewrite ltW //; case/andP: (kk_bounds 1)].
rewrite /kk => /eqP/addrI/oppr_inj/invr_inj; rewrite !mxE /= -natrD -[1 + 1]/(2%:R) => /eqP.
by rewrite eqr_nat.
Qed.

(** The descents take one step each. *)
Lemma gd_one (X : Type) (sub : X -> F -> X -> X) flat loss grad th lr kz bounds x0 cl g nl :
  in_bounds flat bounds x0 = Ok true -> loss x0 = Ok cl -> grad x0 = Ok g -> in_bounds flat bounds (sub x0 lr g) = Ok true ->
  loss (sub x0 lr g) = Ok nl -> nl < cl -> `|nl - cl| < th ->
  gd sub flat loss grad th lr kz bounds 1 x0 = Ok (sub x0 lr g, nl).
Proof. by move=> b0 l0 gr b1 l1 lt ab; rewrite /gd b0 /= l0 /= gr /= mul1r b1 /= l1 /= lt ab. Qed.
Hypothesis T1 : `|lik n1 - lik n0| < thr.
Hypothesis T2 : `|lik n2 - lik n1| < thr.
Lemma gamma_run : solve_gamma cf (MkModel A00 0 (diag_mx g0) vars one2 (1%:M - 0^T)) = Ok (diag_mx g1).
Proof.
have E : diag_mx g0 - 1 *: diag_mx (\row_j (2%:R * g0 0 j * one2 0 j * dd n0 0 j)) = diag_mx g1 by rewrite scale1r -raddfB.
rewrite /solve_gamma /= (@gd_one _ _ _ _ _ _ _ _ _ _ (lik n0) (diag_mx (\row_j (2%:R * g0 0 j * one2 0 j * dd n0 0 j))) (lik n1)) ?E //.
- by rewrite /gamma_loss /= new00 /=; apply: mscore_diag pos0.
- exact: gamma_grad pos0.
- by rewrite /gamma_loss /= new00 /=; apply: mscore_diag pos1.
- exact: loss1.
Qed.
Lemma entries_gt0 a b (X : 'M[F]_(a, b)) v : (forall i j, 0 < X i j) -> v \in entries X -> 0 < v.
Proof. by move=> H /allpairsP [[i j] [_ _ ->]]. Qed.
Lemma within0 (o s : 'M[F]_(1, 2)) : (forall j, 0 < o 0 j) -> (forall j, 0 < s 0 j) ->
  in_bounds (fun x : 'M[F]_(1, 2) * 'M[F]_(1, 2) => [:: entries x.1; entries x.2]) (Some (rest_bounds cf)) (o, s) = Ok true.
Proof.
move=> Ho Hs; case: (in_bounds_spec (fun x : 'M[F]_(1, 2) * 'M[F]_(1, 2) => [:: entries x.1; entries x.2]) (Some (rest_bounds cf)) (o, s)) => [[]|[[]]] //.
move=> b [<-]; rewrite /rest_bounds; apply/inside_cons; split=> // [v /entries_gt0 H|].
  by split=> //; apply: H => i j; rewrite (ord1 i).
apply/inside_cons; split=> // [v /entries_gt0 H|]; last by case.
by split=> //; apply: H => i j; rewrite (ord1 i).
Qed.
Lemma rest_run : solve_rest cf (MkModel A00 0 (diag_mx g1) vars one2 (1%:M - 0^T)) [::] = Ok (o1, s1).
Proof.
have E : sub2 (vars, one2) 1 (dd n1, \row_j (g1 0 j ^+ 2 * dd n1 0 j)) = (o1, s1) by rewrite /sub2 /= !scale1r.
rewrite /solve_rest /= (@gd_one _ _ _ _ _ _ _ _ _ _ (lik n1) (dd n1, \row_j (g1 0 j ^+ 2 * dd n1 0 j)) (lik n2)) ?E //.
- by apply: within0 => j; rewrite ?vars_gt0 // mxE ltr01.
- by rewrite /rest_loss /= new00 /=; apply: mscore_diag pos1.
- exact: rest_grad pos1.
- by apply: within0 => j; case: (rest_bounds1 j).
- by rewrite /rest_loss /= new00 /=; apply: mscore_diag pos2.
- exact: loss2.
Qed.
Lemma bind1 (T U : Type) (x : T) (f : T -> res U) : bind (Ok x) f = f x. Proof. by []. Qed.
Lemma B_run r r' : solve_B cf (MkModel A00 0 (diag_mx g0) vars one2 (1%:M - 0^T)) r r' = Ok 0.
Proof.
have [Ms [E _]] := inv00 pos0; rewrite -[LHS]/(solve_B_cvx cf _) /solve_B_cvx E bind1.
rewrite -[cf_cvx _ _]/(Some (0 : 'M[F]_2)).
have -> : [forall i : 'I_2, forall j : 'I_2, Z.eqb (get A00 i j) Z0 ==> (`|(0 : 'M[F]_2) i j| <= (10%:R ^+ 8)^-1)].
  by apply/forallP => i; apply/forallP => j; apply/implyP => _; rewrite mxE normr0 invr_ge0 exprn_ge0 // ler0n.
by congr Ok; apply/matrixP => i j; rewrite !mxE; case: ifP.
Qed.
Lemma round_run rnd : exists r,
  round cf [::] rnd (MkModel A00 0 (diag_mx g0) vars one2 (1%:M - 0^T)) =
  Ok (MkModel A00 0 (diag_mx g1) o1 s1 (1%:M - 0^T), lik n2, r).
Proof.
have [r Er] : exists r, amax (0 - 0 : 'M[F]_2) = Ok r by eexists.
exists r; rewrite /round /copy_model new00 bind1 B_run bind1.
rewrite -[set_B _ _]/(MkModel A00 0 (diag_mx g0) vars one2 (1%:M - 0^T)) gamma_run bind1.
rewrite -[set_gamma _ _]/(MkModel A00 0 (diag_mx g1) vars one2 (1%:M - 0^T)) rest_run bind1.
rewrite -[set_rest _ _]/(MkModel A00 0 (diag_mx g1) o1 s1 (1%:M - 0^T)) Er bind1 (mscore_diag pos2) //.
Qed.
Lemma fx_run rnd : fit cf A00 [::] None rnd = Ok (MkModel A00 0 (diag_mx g1) o1 s1 (1%:M - 0^T), lik n2).
Proof.
rewrite /fit; have [d [-> Hd]] := is_dag_spec h 2 A00 A00_sq A00_nonneg; have -> : d = true by apply/Hd; exact: A00_acyclic.
rewrite init00 [bind (Ok true) _]/= (mscore_diag pos0) [bind (Ok _) _]/=.
have [r ->] := round_run (rnd 0%N); rewrite [bind (Ok _) _]/=.
by rewrite /continue /= ltnn andbF.
Qed.
End Run.

Section Final.
Variables (F : realFieldType) (log sqrt : F -> F) (h : hord) (N : nat).
Hypothesis L : log_like log.
Hypothesis N0 : (0 < N)%N.
Hypothesis S4 : sqrt 4%:R ^+ 2 = 4%:R.
Hypothesis S1 : sqrt 1 ^+ 2 = 1.
Lemma sq_vars : exact_sqrt sqrt (vars F).
Proof. by move=> k; rewrite mxE; case: ifP. Qed.
Definition enough : F := 1 + `|lik log (n1 sqrt) - lik log (n0 sqrt)| + `|lik log (n2 sqrt) - lik log (n1 sqrt)|.
Local Notation cf := (fx_conf log sqrt h N enough).
Lemma vars_posdef : posdef (diag_mx (vars F)).
Proof.
split=> [|x x0]; first by rewrite tr_diag_mx.
rewrite -mulmxA mul_diag_mx mxE.
have [i xi] : exists i, x i 0 != 0.
  by apply/existsP; apply: contraNT x0; rewrite negb_exists => /forallP H; apply/eqP/colP => i; move: (H i); rewrite negbK mxE => /eqP.
have T j : x^T 0 j * (\matrix_(i, j) (vars F 0 i * x i j)) j 0 = vars F 0 j * x j 0 ^+ 2.
  by rewrite [x^T _ _]mxE [X in _ * X = _]mxE mulrCA expr2.
rewrite (bigD1 i) //= T; apply: ltr_paddr.
  by apply: sumr_ge0 => j _; rewrite T mulr_ge0 ?(ltW (vars_gt0 _ _)) // sqr_ge0.
by rewrite mulr_gt0 ?vars_gt0 // exprn_even_gt0.
Qed.
Lemma avg00 : avg_cov cf = diag_mx (vars F).
Proof. by rewrite /avg_cov !big_ord1 scalerA mulVf ?scale1r // pnatr_eq0 -lt0n. Qed.
Lemma fx_svd : svd_of (diag_mx (vars F)) (1%:M, vars F).
Proof.
exists 1%:M; split; rewrite /= ?trmx1 ?mulmx1 ?mul1mx //; first by move=> k; rewrite ltW ?vars_gt0.
move=> j k jk; rewrite !mxE; case: eqP jk => [->|_]; first by rewrite leqn0 => /eqP E; rewrite -(inj_eq val_inj) /= E.
by case: ifP => _ _ //; rewrite ler1n.
Qed.
Lemma fx_exact : exact_cvx cf A00.
Proof.
move=> B g o s m B1 _ _ _ [<-]; split=> [i j|B' SB]; first by rewrite mxE eqxx.
suff -> : B' = 0 by [].
by apply/matrixP => i j; rewrite mxE; apply/eqP; apply: contraT => /SB /A00_edge.
Qed.
Lemma not_equal : exists cf : conf F 2 2 1, exists A : mat,
  [/\ cf_log cf = log /\ cf_h cf = h, cf_sqrt cf = sqrt, (forall k, posdef (cf_sigmas cf k) /\ cf_n_obs cf k = N),
    svd_of (avg_cov cf) (cf_svd cf (avg_cov cf)) /\ exact_cvx cf A & cf_solver cf = Cvx /\ cf_psi_fixed cf = true] /\
  [/\ square 2 A, nonneg A, acyclic A & forall rnd, exists m s, fit cf A [::] None rnd = Ok (m, s) /\ ~ equal_variances (mpsis m)].
Proof.
exists cf, A00; split; split=> //.
- by move=> k; split=> //; exact: vars_posdef.
- by split; [rewrite avg00; exact: fx_svd|exact: fx_exact].
- exact: A00_sq.
- exact: A00_nonneg.
- exact: A00_acyclic.
move=> rnd; eexists; eexists; split; first apply: fx_run => //; first exact: sq_vars.
- by rewrite /enough addrAC ltr_addr ltr_paddr ?normr_ge0 ?ltr01.
- by rewrite /enough ltr_addr ltr_paddr ?normr_ge0 ?ltr01.
by move=> /(_ 0 0 0 1) /eqP; apply/negP; apply: latents_differ sq_vars.
Qed.
End Final.

(** With one latent the constraint over environments is the documented one. *)
Lemma one_latent_equal (F : realFieldType) (p e : nat) (cf : conf F p 1 e) caching cs (c : call F p 1 e) m s :
  Forall (@proper F p 1 e) cs -> Forall (fun d => cl_init d = None) cs -> proper c -> cl_init c = None -> cf_psi_fixed cf = true ->
  (do_call cf (run cf (fresh F p 1 e caching) cs) c).2 = Ok (m, s) -> equal_variances (mpsis m).
Proof.
move=> H1 H2 H3 H4 H5 H; have [_ K] := constrained H1 H2 H3 H4 H.
by move=> i j a b; rewrite (ord1 a) (ord1 b); apply: K.
Qed.
