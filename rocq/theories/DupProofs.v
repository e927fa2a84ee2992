(** A candidate that is given twice can change the result of equivalence_class (C126). *)
From Coq Require Import ZArith QArith Lia List Permutation.
From mathcomp Require Import all_ssreflect all_algebra.
From Verif Require Import Base GraphModel GraphSpec TopoProofs MeekProofs ListModel NumModel NumSpec LinAlgProofs NumProofs ScoreModel CacheSpec CacheProofs.
From Verif Require Import ScoreSpec GDProofs ScoreProofs HistProofs LoopProofs Lr0Proofs NoErrProofs RunProofs Run2Proofs CovModel MainModel MainSpec PruneProofs.
From Verif Require Import SelectProofs FitProofs TotalProofs MainRunProofs SeedProofs ClassProofs ExMainDefs QFieldProofs CandSpec CandProofs FieldTac GradSpec DescentSpec ExactSpec.
Set Implicit Arguments.
Unset Strict Implicit.
Unset Printing Implicit Defensive.
Import Order.Theory GRing.Theory Num.Theory.
Local Open Scope nat_scope.
Local Open Scope ring_scope.
Local Notation "a ## b" := (Qmake (Zpos a) b) (at level 30).

Lemma new_model_fields (F : realFieldType) p l e h A (B : 'M[F]_p) (gamma : 'M[F]_(l, p)) (omegas : 'M[F]_(e, p)) psis m :
  new_model h A B gamma omegas psis = Ok m -> mA m = A /\ momegas m = omegas.
Proof.
by rewrite /new_model; case: ifP => // _; case: (is_dag h A) => [[]|x] //=; case: ifP => // _ [<-].
Qed.
(** The directed acyclic graphs over two variables *)
Lemma acyclic2 A : acyclic A ->
  (exists u v : 'I_2, u != v /\ forall i j : 'I_2, edge A i j <-> i = u /\ j = v) \/ (forall i j : 'I_2, ~ edge A i j).
Proof.
move=> AA; have L i : ~ edge A i i by move=> E; apply: (AA i); apply: Relation_Operators.t_step.
have N i j : edge A i j -> ~ edge A j i.
  by move=> E E'; apply: (AA i); apply: (Relation_Operators.t_trans _ _ _ j); apply: Relation_Operators.t_step.
have V (x : 'I_2) : x = 0 \/ x = 1 by case: x => [[|[|x]] Hx]; [left|right|]; try exact: ord_inj.
have [E|E] := Z.eq_dec (get A (0 : 'I_2) (1 : 'I_2)) Z0; last first.
  left; exists 0, 1; split=> // i j; split=> [|[-> ->]] //.
  by case: (V i) => ->; case: (V j) => -> //; [move=> /L|move=> /(N _ _ E)|move=> /L].
have [E'|E'] := Z.eq_dec (get A (1 : 'I_2) (0 : 'I_2)) Z0; last first.
  left; exists 1, 0; split=> // i j; split=> [|[-> ->]] //.
  by case: (V i) => ->; case: (V j) => -> //; move=> /L.
right=> i j; by case: (V i) => ->; case: (V j) => ->; [exact: L|rewrite /edge E|rewrite /edge E'|exact: L].
Qed.

Section Dup.
Variables (F : realFieldType) (log : F -> F) (pi : F) (h : hord).
Add Field ff : (fieldT F).
Local Notation sample := (seq 'rV[F]_2).
Local Notation qF := (@qF F).
Local Notation full := (iota 0 2).

(** The graphs 0 -> 1 and 1 -> 0 *)
Definition back2 : mat := cons (cons Z0 (cons Z0 nil)) (cons (cons (Zpos xH) (cons Z0 nil)) nil).
Definition dup_args : args F := Args (Some [:: 0%N]) [:: third; third; third] None false 1 0 0 1 0 0 Cvx.
Definition row2 (x y : Q) : 'rV[F]_2 := \row_k (if k == 0 then qF x else qF y).
Definition four (x y : 'rV[F]_2) : sample := [:: x; - x; y; - y].
Definition axes (a b : Q) : sample := four (row2 a (Qmake Z0 1)) (row2 (Qmake Z0 1) b).
Definition mixed : sample := four (row2 (2 ## 1) (1 ## 1)) (row2 (1 ## 1) (2 ## 1)).
(** The minimiser of the convex problem for the training data below *)
Definition solution (S : 'I_2 -> 'M[F]_2) (O : 'M[F]_2) (i j : 'I_2) : F :=
  (\sum_k 4%:R * (S k i j / O k j)) / (\sum_k 4%:R * (S k i i / O k j)).
Definition new_weight (A : mat) (O : 'M[F]_2) : 'M[F]_2 :=
  \matrix_(i, j) (if Z.eqb (get A i j) Z0 then 0 else solution (fun k => np_cov (nth [::] [:: axes (3 ## 1) (3 ## 1); mixed] k)) O i j).
Definition dup_world : world F 2 2 :=
  World log pi h id (fun l m => Some (new_weight (mA m) (momegas m))) (fun=> (0, 0)) id (fun=> true) (@np_argsort F) (@np_cov F 2)
    (fun _ _ => no_edge2) (fun seed k xs => xs) (fun _ _ _ => (0, 0)) 4.
Definition dup_data (k : 'I_2) : sample :=
  if k == 0 then axes (3 ## 1) (3 ## 1) ++ axes (2 ## 1) (3 ## 1) ++ axes (3 ## 1) (3 ## 1) else mixed ++ mixed ++ mixed.
Local Notation tr := [:: axes (3 ## 1) (3 ## 1); mixed].
Local Notation te := [:: axes (2 ## 1) (3 ## 1); mixed].
Local Notation cf := (train_conf dup_world dup_args tr 0).

Lemma dup_split : split_data (w_shuffle dup_world 42) [seq dup_data k | k <- enum 'I_2] (a_folds dup_args) = Ok [:: tr; te; tr].
Proof.
have -> : [seq dup_data k | k <- enum 'I_2] = [:: dup_data 0; dup_data 1].
  by rewrite enum_ordSl enum_ordSl /= (size0nil (size_enum_ord 0)).
by [].
Qed.

Lemma cov_four x y i j : np_cov (four x y) i j = qF (2 ## 3) * (x 0 i * x 0 j + y 0 i * y 0 j).
Proof.
rewrite /four cov4 !mxE !big_ord1 !mxE mulrA; congr (_ * _).
by rewrite [qF _]/QFieldProofs.qF /= /pF mulrC.
Qed.
Definition trq (k i j : nat) : Q :=
  if Nat.eqb k 0 then if Nat.eqb i j then 6 ## 1 else Qmake Z0 1 else if Nat.eqb i j then 10 ## 3 else 8 ## 3.
Definition teq (k i j : nat) : Q :=
  if Nat.eqb k 0 then if Nat.eqb i j then if Nat.eqb i 0 then 8 ## 3 else 6 ## 1 else Qmake Z0 1 else if Nat.eqb i j then 10 ## 3 else 8 ## 3.
Lemma tr_cov (k i j : 'I_2) : covs dup_world tr k i j = qF (trq k i j).
Proof.
rewrite /covs; case: k => [[|[|k]] Hk] //; rewrite /= cov_four !mxE; case: i => [[|[|i]] Hi] //; case: j => [[|[|j]] Hj] //; cbn; qfeq.
Qed.
Lemma te_cov (k i j : 'I_2) : covs dup_world te k i j = qF (teq k i j).
Proof.
rewrite /covs; case: k => [[|[|k]] Hk] //; rewrite /= cov_four !mxE; case: i => [[|[|i]] Hi] //; case: j => [[|[|j]] Hj] //; cbn; qfeq.
Qed.
Lemma sum2 (u v : 'I_2) (f : 'I_2 -> F) : u != v -> \sum_i f i = f u + f v.
Proof.
rewrite !big_ord_recl big_ord0 addr0; have -> : lift ord0 ord0 = 1 :> 'I_2 by exact: ord_inj.
have V (i : 'I_2) : i = 0 \/ i = 1 by case: i => [[|[|i]] Hi]; [left|right|]; try exact: ord_inj.
by case: (V u) => ->; case: (V v) => -> // _; exact: addrC.
Qed.
Lemma dup_posdef (k : 'I_2) : posdef (covs dup_world tr k).
Proof.
split; first by apply/matrixP => i j; rewrite mxE !tr_cov /trq (Nat.eqb_sym j i).
move=> x Nx; set r := qF (trq k 0 1); set q := qF (trq k 0 0).
have E : (x^T *m covs dup_world tr k *m x) 0 0 = (q - r) * (x 0 0 ^+ 2 + x 1 0 ^+ 2) + r * (x 0 0 + x 1 0) ^+ 2.
  move: (covs dup_world tr k) (tr_cov k) => S ES; rewrite mxE (@sum2 0 1) // !mxE !(@sum2 0 1) // !mxE !ES.
  have -> : trq k (1 : 'I_2) (1 : 'I_2) = trq k 0 0 by []. have -> : trq k (1 : 'I_2) (0 : 'I_2) = trq k 0 1 by [].
  have -> : trq k (0 : 'I_2) (1 : 'I_2) = trq k 0 1 by []. have -> : trq k (0 : 'I_2) (0 : 'I_2) = trq k 0 0 by [].
  rewrite -/r -/q !expr2; move: (x 0 0) (x 1 0) => y z; rg F.
rewrite E; apply: ltr_paddr.
  rewrite mulr_ge0 ?sqr_ge0 // /r /trq /=; case: ifP => _; first by rewrite -qF0.
  by apply: ltW; rewrite (qF0 F); qflt.
rewrite mulr_gt0 //.
  by rewrite subr_gt0 /q /r /trq /=; case: ifP => _; qflt.
rewrite lt_neqAle addr_ge0 ?sqr_ge0 // andbT eq_sym paddr_eq0 ?sqr_ge0 // !sqrf_eq0; apply: contraNN Nx => /andP [/eqP E0 /eqP E1].
apply/eqP/colP => i; rewrite [RHS]mxE; case: i => [[|[|i]] Hi] //; [rewrite -[RHS]E0|rewrite -[RHS]E1]; congr (x _ _); exact: ord_inj.
Qed.
Lemma dup_nobs (k : 'I_2) : n_obs tr k = 4%N. Proof. by rewrite /n_obs; case: k => [[|[|k]] Hk]. Qed.
Lemma dup_nobs' (k : 'I_2) : n_obs te k = 4%N. Proof. by rewrite /n_obs; case: k => [[|[|k]] Hk]. Qed.

(** A graph with one edge *)
Section Edge.
Variables (A : mat) (u v : 'I_2).
Hypothesis GA : graph 2 A.
Hypothesis EA : forall i j : 'I_2, edge A i j <-> i = u /\ j = v.
Hypothesis NE : u != v.
Hypothesis AA : acyclic A.
Definition one_weight (b : F) : 'M[F]_2 := \matrix_(i, j) (if (i == u) && (j == v) then b else 0).

Lemma residual (b : F) (S : 'M[F]_2) : let P := 1%:M - (one_weight b)^T in
  (P *m S *m P^T) u u = S u u /\ (P *m S *m P^T) v v = S v v - b * (S u v + S v u) + b ^+ 2 * S u u.
Proof.
move=> P; have NE' : v != u by rewrite eq_sym.
have P1 : P u u = 1 by rewrite !mxE eqxx (negbTE NE) subr0.
have P2 : P u v = 0 by rewrite !mxE (negbTE NE) (negbTE NE') subr0.
have P3 : P v v = 1 by rewrite !mxE eqxx (negbTE NE') subr0.
have P4 : P v u = - b by rewrite !mxE (negbTE NE') !eqxx sub0r.
split; rewrite mxE !(sum2 _ NE) ![P^T _ _]mxE ![(P *m S) _ _]mxE !(sum2 _ NE) ?P1 ?P2 ?P3 ?P4 ?expr2.
  by rewrite mul0r addr0 mul0r mulr0 addr0 mulr1 mul1r.
move: (S u u) (S u v) (S v u) (S v v) => w x y z; rewrite !mulNr !mul1r mulr1 mulrN mulrDl mulNr mulrDr !opprD opprK addrC [b * y]mulrC !addrA; rg F.
Qed.

(** The least squares of one edge, without latent variables *)
Lemma inv_noise0 (gamma : 'M[F]_(0, 2)) (omegas : 'M[F]_2) (psis : 'M[F]_(2, 0)) k : positive omegas ->
  invmx (noise gamma omegas psis k) = diag_mx (\row_j (omegas k j)^-1).
Proof.
move=> PO; set d' := diag_mx _.
have -> : noise gamma omegas psis k = diag_mx (\row_j omegas k j).
  by apply/matrixP => i j; rewrite !mxE big_ord0 add0r; case: (i == j).
have U : diag_mx (\row_j omegas k j) \in unitmx.
  by rewrite unitmxE unitfE det_diag; apply/prodf_neq0 => j _; rewrite mxE gt_eqF.
have DD : diag_mx (\row_j omegas k j) *m d' = 1%:M.
  by apply/matrixP => i j; rewrite mul_diag_mx !mxE mulrnAr; congr (_ *+ _); rewrite mulfV // gt_eqF.
by rewrite -[LHS]mulmx1 -DD mulKmx.
Qed.
Lemma residualsE (S : 'I_2 -> 'M[F]_2) (omegas : 'M[F]_2) gamma (psis : 'M[F]_(2, 0)) b : positive omegas -> (forall k, (S k)^T = S k) ->
  residuals (fun=> 4%:R) (fun k => invmx (noise gamma omegas psis k)) S (one_weight b) =
  \sum_k 4%:R * (S k u u / omegas k u + S k v v / omegas k v) - 2%:R * b * (\sum_k 4%:R * (S k u v / omegas k v)) + b ^+ 2 * \sum_k 4%:R * (S k u u / omegas k v).
Proof.
move=> PO SS; rewrite !mulr_sumr -sumrB -big_split /=; apply: eq_bigr => k _.
have [R1 R2] := residual b (S k); rewrite -2!mulmxA [_ *m ((S k) *m _)]mulmxA inv_noise0 // /mxtrace (sum2 _ NE).
move: (_ *m S k *m _) R1 R2 => X R1 R2; rewrite !mul_diag_mx !mxE R1 R2.
have -> : S k v u = S k u v by rewrite -[in LHS](SS k) mxE.
rewrite expr2 -[2%:R]/(1 + 1); move: (4%:R : F) (S k u u) (S k v v) (S k u v) (omegas k u)^-1 (omegas k v)^-1 => c x y z s t; rg F.
Qed.
Lemma least_squares (S : 'I_2 -> 'M[F]_2) (omegas : 'M[F]_2) gamma (psis : 'M[F]_(2, 0)) b : positive omegas -> (forall k, posdef (S k)) ->
  residuals (fun=> 4%:R) (fun k => invmx (noise gamma omegas psis k)) S (one_weight (solution S omegas u v)) <=
  residuals (fun=> 4%:R) (fun k => invmx (noise gamma omegas psis k)) S (one_weight b).
Proof.
move=> PO PS; have SS k : (S k)^T = S k by have [] := PS k.
rewrite !residualsE // /solution; set N := \sum_k 4%:R * (S k u v / _); set D := \sum_k 4%:R * (S k u u / omegas k v); set K := \sum_k _.
have D0 : 0 < D by rewrite /D (@sum2 0 1) // addr_gt0 // mulr_gt0 ?ltr0n // divr_gt0 //; apply: posdef_diag.
rewrite -!addrA ler_add2l -subr_ge0.
have -> : - (2%:R * b * N) + b ^+ 2 * D - (- (2%:R * (N / D) * N) + (N / D) ^+ 2 * D) = D * (b - N / D) ^+ 2.
  have D0' : D != 0 by rewrite gt_eqF.
  by rewrite -[2%:R]/(1 + 1) !expr2; move: N D D0' {D0 K} => N D D0; fd F; exact/eqP.
by rewrite mulr_ge0 ?sqr_ge0 // ltW.
Qed.

Lemma one_supported B : supported A B -> B = one_weight (B u v).
Proof.
move=> SB; apply/matrixP => i j; rewrite mxE; case: ifP => [/andP [/eqP -> /eqP ->]|H] //.
by apply/eqP; apply: contraFT H => /SB /EA [-> ->]; rewrite !eqxx.
Qed.
Lemma new_supported O : supported A (new_weight A O).
Proof. by move=> i j; rewrite mxE /edge; case: Z.eqb_spec => [_|//]; rewrite eqxx. Qed.
Lemma new_weightE O : new_weight A O = one_weight (solution (covs dup_world tr) O u v).
Proof.
rewrite (one_supported (@new_supported O)); congr one_weight; rewrite mxE.
by case: Z.eqb_spec => // H; case: (proj2 (EA u v) (conj erefl erefl)).
Qed.

Lemma edge_exact : exact_cvx cf A.
Proof.
move=> B gamma omegas psis m B1 /new_model_fields [EA' EO] PO _.
rewrite /= EA' EO => -[<-]; split; first exact: new_supported.
have E M B' : residuals (fun k => (cf_n_obs cf k)%:R) M (cf_sigmas cf) B' = residuals (fun=> 4%:R) M (covs dup_world tr) B'.
  by apply: eq_bigr => k _; rewrite /= dup_nobs.
by move=> B' SB; rewrite !E new_weightE (one_supported SB); apply: least_squares => //; exact: dup_posdef.
Qed.

Lemma sums (k : 'I_2) (i j : 'I_2) : cf_sigmas cf k i j = qF (trq k i j). Proof. exact: tr_cov. Qed.
Lemma neqE : Nat.eqb u v = false.
Proof. by apply/Nat.eqb_neq => H; case/eqP: NE; exact: ord_inj. Qed.
Lemma avgE (i j : 'I_2) : avg_cov cf i j = qF (1 ## 2) * (qF (trq 0 i j) + qF (trq 1 i j)).
Proof.
have T : (\sum_(i < 2) cf_n_obs cf i)%N = 8%N by rewrite !big_ord_recl big_ord0.
rewrite /avg_cov T mxE summxE !big_ord_recl big_ord0 addr0.
rewrite [X in _ * (X + _)]mxE [X in _ * (_ + X)]mxE !sums -[cf_n_obs cf _]/(4%N) -[cf_n_obs cf (lift _ _)]/(4%N) !qF_nat.
have -> : trq (lift (ord0 : 'I_2) ord0) i j = trq 1 i j by [].
rewrite -mulrDr mulrA; congr (_ * _); qfeq.
Qed.
Lemma old_weight B : initialize_B cf A = Ok B -> B = one_weight (qF (2 ## 7)).
Proof.
have AS : (avg_cov cf)^T = avg_cov cf by have [] : posdef (avg_cov cf) by apply: avg_posdef => //; [exact: dup_posdef|move=> k; rewrite /= dup_nobs].
move=> E; have [SB NO] := initialize_B_normal AS E; rewrite (one_supported SB); congr one_weight.
have := NO u v (proj2 (EA u v) (conj erefl erefl)); rewrite mxE (sum2 _ NE) (one_supported SB) ![one_weight _ _ _]mxE !eqxx (eq_sym v u) (negbTE NE) /= mulr0 addr0.
rewrite !avgE -mulrA => /(mulfI (_ : qF (1 ## 2) != 0)) H; have {}H := H (mulf_neq0 (pF_neq0 _ _) (invr_neq0 (pF_neq0 _ _))); move: H.
rewrite /trq /= (_ : Nat.eqb u u = true) ?Nat.eqb_refl // neqE -!qFE => H.
have N : qF ((6 ## 1) + (10 ## 3)) != 0 by rewrite (qF_eq F (y := 28 ## 3)) // /QFieldProofs.qF mulf_neq0 ?invr_neq0 ?pF_neq0.
apply: (mulfI N); rewrite H; qfeq.
Qed.

(** The variances of the noise terms *)
Definition uq (k : nat) : Q := if Nat.eqb k 0 then 6 ## 1 else 10 ## 3.
Definition vq (k : nat) : Q := if Nat.eqb k 0 then 318 ## 49 else 102 ## 49.
Definition logs : F := \sum_(k < 2) 4%:R * - log ((qF (uq k) * qF (vq k))^-1) / 8%:R ^+ (2 - k).
Definition valq (b : Q) (k : nat) : Q :=
  Qplus (Qdiv (teq k u u) (uq k))
    (Qdiv (Qplus (Qminus (teq k v v) (Qmult b (Qplus (teq k u v) (teq k v u)))) (Qmult (Qmult b b) (teq k u u))) (vq k)).
Definition totq (b : Q) : Q := Qplus (Qmult (1 ## 16) (valq b 0)) (Qmult (1 ## 2) (valq b 1)).

Lemma solutionE (O : 'M[F]_2) : (forall k, O k v = qF (vq k)) -> solution (covs dup_world tr) O u v = qF (106 ## 209).
Proof.
move=> EO; rewrite /solution !(@sum2 0 1) // !tr_cov !EO /trq Nat.eqb_refl neqE /vq /= (qF_nat F 4); qfeq.
Qed.

Lemma det2 (d : 'rV[F]_2) : \det (diag_mx d) = d 0 u * d 0 v.
Proof.
rewrite det_diag; have NE2 := NE; rewrite (bigD1 u) //= (bigD1 v) /=; last by rewrite eq_sym.
rewrite bigop.big1 ?mulr1 // => i /andP [N1 N2].
have V (x : 'I_2) : x = 0 \/ x = 1 by case: x => [[|[|x]] Hx]; [left|right|]; try exact: ord_inj.
by move: N1 N2 NE2; case: (V i) => ->; case: (V u) => ->; case: (V v) => ->.
Qed.

Lemma model_score (m : model F 2 0 2) (b : Q) : (forall k, momegas m k u = qF (uq k) /\ momegas m k v = qF (vq k)) ->
  mI_B m = 1%:M - (one_weight (qF b))^T -> scored dup_world te m (logs + qF (totq b)).
Proof.
move=> EO EB; have PO : positive (momegas m).
  move=> k j; have [E1 E2] := EO k.
  have [->|->] : j = u \/ j = v.
    have V (x : 'I_2) : x = 0 \/ x = 1 by case: x => [[|[|x]] Hx]; [left|right|]; try exact: ord_inj.
    by move: NE; case: (V j) => ->; case: (V u) => ->; case: (V v) => -> // _; by [left|right].
  - by rewrite E1 (qF0 F) /uq; case: ifP => _; qflt.
  - by rewrite E2 (qF0 F) /vq; case: ifP => _; qflt.
rewrite /scored score_value //; last by move=> x [].
congr Ok.
have T : (\sum_(i < 2) n_obs te i)%N = 8%N by rewrite !big_ord_recl big_ord0.
have D k : mnoise m k = diag_mx (\row_j momegas m k j).
  rewrite /mnoise /noise_cov; have -> : mgamma m = 0 by apply/matrixP => -[].
  by rewrite mulmx0 add0r; congr diag_mx; apply/rowP => j; rewrite !mxE.
have U k : diag_mx (\row_j momegas m k j) \in unitmx.
  by rewrite unitmxE unitfE det2 !mxE mulf_neq0 // gt_eqF.
have DE k : \det (invmx (mnoise m k)) = (qF (uq k) * qF (vq k))^-1.
  by rewrite D det_inv det2 !mxE; have [-> ->] := EO k.
have IV k : invmx (mnoise m k) = diag_mx (\row_j (momegas m k j)^-1).
  rewrite D; set d' := diag_mx (\row_j (momegas m k j)^-1).
  have DD : diag_mx (\row_j momegas m k j) *m d' = 1%:M.
    apply/matrixP => i j; rewrite mul_diag_mx !mxE mulrnAr; congr (_ *+ _).
    by rewrite mulfV // gt_eqF.
  by rewrite -[RHS](mulKmx (U k)) DD mulmx1.
have TR k : \tr (invmx (mnoise m k) *m (mI_B m *m covs dup_world te k *m (mI_B m)^T)) = qF (valq b k).
  have R1 := residual (qF b) (covs dup_world te k); cbv zeta in R1; rewrite -EB in R1; case: R1 => R1 R2.
  rewrite IV /mxtrace (sum2 _ NE); move: (mI_B m *m covs dup_world te k *m (mI_B m)^T) R1 R2 => X R1 R2.
  rewrite !mul_diag_mx !mxE R1 R2 !te_cov.
  have [-> ->] := EO k; rewrite /valq /Qdiv /Qminus !qFE expr2 mulrC; congr (_ + _); exact: mulrC.
rewrite (eq_bigr (fun k : 'I_2 => 4%:R * - log ((qF (uq k) * qF (vq k))^-1) / 8%:R ^+ (2 - k) + 4%:R * qF (valq b k) / 8%:R ^+ (2 - k))); last first.
  by move=> k _; rewrite DE TR T dup_nobs' mulrDr mulrDl.
rewrite big_split /=; congr (_ + _); rewrite !big_ord_recl big_ord0 addr0 /totq.
rewrite -[valq b (lift (ord0 : 'I_2) ord0)]/(valq b 1) -[valq b (ord0 : 'I_2)]/(valq b 0) -[(2 - (ord0 : 'I_2))%N]/(2%N) -[(2 - lift (ord0 : 'I_2) ord0)%N]/(1%N).
move: (valq b 0) (valq b 1) => x y; rewrite expr1 expr2 (qF_nat F 4) (qF_nat F 8) -!qFE; apply: qF_eq.
by apply/Qeq_bool_iff; cbn [Z.of_nat Pos.of_succ_nat Pos.succ]; field.
Qed.

Lemma dup_models : exists m s mc, [/\ forall rnd, fit cf A full None rnd = Ok (m, s), copy_model (cf_h cf) m = Ok mc, mA m = A /\ mA mc = A,
  scored dup_world te m (logs + qF (totq (2 ## 7))) & scored dup_world te mc (logs + qF (totq (106 ## 209)))].
Proof.
have [SA NA] := GA; have PN k : (0 < cf_n_obs cf k)%N by rewrite /= dup_nobs.
have [pm [s [EI SB E]]] := @fit_once F 2 0 2 cf A SA NA AA erefl erefl erefl dup_posdef PN erefl erefl erefl erefl erefl (fun m => new_weight A (momegas m))
  (fun m' _ => @new_supported (momegas m')) ltac:(by move=> m' <-) erefl full (fun=> (0, 0)).
have [EB EO] : mB pm = one_weight (qF (2 ## 7)) /\ momegas pm = initialize_omegas cf (mB pm) full.
  move: EI; rewrite /initial_model; case EB : initialize_B => [B|] //=.
  by move=> /(new_model_ok SA NA) [_ _ ->] /=; split=> //; exact: old_weight.
have OK k : momegas pm k u = qF (uq k) /\ momegas pm k v = qF (vq k).
  have M (j : 'I_2) : memb j full = true by case: j => [[|[|j]] Hj].
  have IO (j : 'I_2) : momegas pm k j = ((1%:M - (one_weight (qF (2 ## 7)))^T) *m cf_sigmas cf k *m (1%:M - (one_weight (qF (2 ## 7)))^T)^T) j j.
    by rewrite EO EB [LHS]mxE M [LHS]mxE.
  have [R1 R2] := residual (qF (2 ## 7)) (cf_sigmas cf k); rewrite !IO R1 R2 !sums /trq !Nat.eqb_refl neqE (Nat.eqb_sym v u) neqE.
  by rewrite /uq /vq; case: ifP => _; split=> //; qfeq.
eexists; exists s; exists (MkModel A (new_weight A (momegas pm)) (mgamma pm) (momegas pm) (mpsis pm) (1%:M - (new_weight A (momegas pm))^T)); split.
- by move=> rnd; rewrite (@cvx_no_draws F 2 0 2 cf erefl A full rnd (fun=> (0, 0)) GA); exact: E.
- have SN := @new_supported (momegas pm); by rewrite /copy_model /=; case: (new_model_spec (cf_h cf) (new_weight A (momegas pm)) (mgamma pm) (momegas pm) (mpsis pm) SA NA) => [[_ [_ ->]]|[[]]].
- by [].
- by apply: model_score => //=; rewrite EB.
- by apply: model_score => //=; rewrite new_weightE solutionE // => k; have [] := OK k.
Qed.
End Edge.

Lemma back2_get (i j : nat) : get back2 i j = if Nat.eqb i 1 && Nat.eqb j 0 then Zpos xH else Z0.
Proof. by case: i => [|[|[|i]]]; case: j => [|[|[|j]]]. Qed.
Lemma back2_edge (i j : nat) : edge back2 i j <-> i = 1%N /\ j = 0%N.
Proof.
rewrite /edge back2_get; split=> [|[-> ->]] //.
by case: Nat.eqb_spec => // ->; case: Nat.eqb_spec => // ->.
Qed.
Lemma back2_graph : graph 2 back2.
Proof. by split; [split=> //; do 3 constructor|move=> i j; rewrite back2_get; case: andb; lia]. Qed.
Lemma back2_acyclic : acyclic back2.
Proof.
have H x y : Relation_Operators.clos_trans nat (edge back2) x y -> x = 1%N /\ y = 0%N.
  by elim=> [a b /back2_edge|a b c _ [E1 E2] _ [E3 E4]].
by move=> x /H [-> ].
Qed.

Lemma edge_A2 (i j : 'I_2) : edge A2 i j <-> i = 0 /\ j = 1.
Proof.
split=> [/A2_edge [E1 E2]|[-> ->]] //; by split; apply: ord_inj.
Qed.
Lemma edge_back2 (i j : 'I_2) : edge back2 i j <-> i = 1 /\ j = 0.
Proof.
split=> [/back2_edge [E1 E2]|[-> ->]] //; by split; apply: ord_inj.
Qed.

Lemma dup_runs Gs seed : Forall (fun G => graph 2 G /\ acyclic G) Gs -> Gs <> [::] ->
  exists am J sc, fit_all dup_world dup_args dup_data (Some Gs) false None None seed = Ok (am, J, sc).
Proof.
move=> HG N0; have G1 : Forall (graph 2) Gs by apply: (Forall_impl _ _ HG) => G [].
have ES : split_data (w_shuffle dup_world seed) [seq dup_data k | k <- enum 'I_2] (a_folds dup_args) = Ok [:: tr; te; tr] := dup_split.
have := @fit_all_total F 2 2 dup_world dup_args dup_data (Some Gs) false seed tr te tr Gs [:: 0%N] ES (or_introl erefl) erefl G1 N0 ltac:(by []) erefl (fun _ _ H => ltac:(by [])).
move=> [[[[am J] sc] E]|[h' [n [x [Hh _ [A [I [rk [GA [B HB SB]]]]]]]]]]; first by exists am, J, sc.
case: Hh => [<-|//] EF; have [SA NA] := GA.
have AA : acyclic A by apply: (sub_acyclic SB); have [] := proj1 (Forall_forall _ _) HG _ HB.
have PN k : (0 < cf_n_obs cf k)%N by rewrite /= dup_nobs.
have [pm [s [_ _ E]]] := @fit_once F 2 0 2 cf A SA NA AA erefl erefl erefl dup_posdef PN erefl erefl erefl erefl erefl (fun m => new_weight A (momegas m))
  (fun m' _ => @new_supported A (momegas m')) ltac:(by move=> m' <-) erefl I (w_rnds dup_world n rk).
by rewrite E in EF.
Qed.

Lemma dup_selected G Gs seed am J sc : Forall (fun G => graph 2 G /\ acyclic G) (G :: Gs) ->
  fit_all dup_world dup_args dup_data (Some (G :: Gs)) false None None seed = Ok (am, J, sc) ->
  exists ms v, [/\ Forall2 (model_at cf) (lab [::] (G :: Gs)) ms, exists m, [/\ In m ms, mA m = mA (projT2 am) & scored dup_world te m v]
    & forall m, In m ms -> exists y, scored dup_world te m y /\ v <= y].
Proof.
move=> HG E; have G1 : Forall (graph 2) (G :: Gs) by apply: (Forall_impl _ _ HG) => G' [].
have [|//|t1 [t2 [t3 [gs [hs [k [v [ES [HI HN] [HL HV _] _ _]]]]]]]] := fit_all_spec _ _ E; first by move=> gs [<-].
have [E1 [E2 E3]] : t1 = tr /\ t2 = te /\ t3 = tr by move: ES; rewrite (dup_split : split_data (w_shuffle dup_world seed) _ _ = _) => -[<- <- <-].
case: HI => [[EG]|[]//]; move: HV HL; rewrite -EG E1 E2 {ES EG E1 E2 E3}; move: HN => [<-].
case: am E => h0 m0 /= E HV [HL _]; have E0 : h0 = 0%N by case: k HL {HV} => [[]//|[]].
move: m0 E HV; rewrite E0 => m0 E [ms [EP [[m [HM HA HS]] HB]]]; exists ms, v; split=> //; last by exists m.
move: EP; rewrite /prune_graphs; have -> : iota 0 (length G) = full by case: (Forall_inv G1) => [[-> _] _].
have ND : no_draws cf by apply: cvx_no_draws.
have := prune_each_outcome ND (w_rnds dup_world k) (w_fuel dup_world) false (s := new_sobj F 2 0 2) (xs := [::]) erefl (memo0 cf) G1.
case EL : (visits cf (w_fuel dup_world) false (G :: Gs)) => [L|x]; last by move=> [x' ->].
move=> [s' [ms' [xs' [-> _ _ F2 _]]]] [<-]; suff EQ : L = G :: Gs by rewrite EQ in F2.
elim: (G :: Gs) L EL {F2} => [|G' Gs' IH] L /=; first by case.
rewrite /visit; case: (D cf G' full) => [r|] //=; case: (visits _ _ _ _) IH => [L'|] //= IH [<-].
by rewrite (IH L').
Qed.

Lemma cand_ok : Forall (fun G => graph 2 G /\ acyclic G) [:: A2; back2; back2].
Proof. by do 3 (constructor; first by split; [exact: A2_graph || exact: back2_graph|exact: A2_acyclic || exact: back2_acyclic]). Qed.

Lemma class_of Gs seed am J sc : Forall (fun G => graph 2 G /\ acyclic G) Gs ->
  fit_all dup_world dup_args dup_data (Some Gs) false None None 42%N = Ok (am, J, sc) ->
  exists ic, equivalence_class dup_world dup_args Gs dup_data false seed = Ok (ic, J, am).
Proof.
move=> HG E; have G1 : Forall (graph 2) Gs by apply: (Forall_impl _ _ HG) => G' [].
have [||t1 [t2 [t3 [gs [hs [k [v [_ _ _ _ [[[SA NA] AC _ _ _] _ _]]]]]]]]] := fit_all_spec _ _ E => //; first by move=> gs [<-].
have [M [EM _]] := dag_to_icpdag_spec h 2 _ J SA NA AC.
by exists M; rewrite /equivalence_class E /= EM.
Qed.

Lemma scored_fun m x y : scored dup_world te (m : model F 2 0 2) x -> scored dup_world te m y -> x = y.
Proof. by rewrite /scored => -> -[]. Qed.
Lemma fresh_at A m m0 s : (forall rnd, fit cf A full None rnd = Ok (m0, s)) -> model_at cf (A, false) m -> m = m0.
Proof. by move=> E [m1 [s1 []]]; rewrite /D E => -[<- _]. Qed.
Lemma cached_at A m m0 s mc : (forall rnd, fit cf A full None rnd = Ok (m0, s)) -> copy_model (cf_h cf) m0 = Ok mc ->
  model_at cf (A, true) m -> m = mc.
Proof. by move=> E C [m1 [s1 []]]; rewrite /D E => -[<- _]; rewrite C => -[]. Qed.

(** The scores of the two fitted models and of the copy of the second *)
Lemma score_order : [/\ logs + qF (totq 0 1 (2 ## 7)) < logs + qF (totq 1 0 (2 ## 7)), logs + qF (totq 1 0 (106 ## 209)) < logs + qF (totq 0 1 (2 ## 7))
  & logs + qF (totq 0 1 (106 ## 209)) < logs + qF (totq 1 0 (106 ## 209))].
Proof. by split; rewrite ltr_add2l; apply: qF_lt. Qed.

Lemma dup_refuted seed : exists r r', [/\ equivalence_class dup_world dup_args [:: A2; back2] dup_data false seed = Ok r,
  equivalence_class dup_world dup_args [:: A2; back2; back2] dup_data false seed = Ok r', mA (projT2 r.2) = A2 & mA (projT2 r'.2) = back2].
Proof.
have C3 := cand_ok; have C2 : Forall (fun G => graph 2 G /\ acyclic G) [:: A2; back2].
  by constructor; [exact: (Forall_inv C3)|exact: (Forall_inv_tail (Forall_inv_tail C3))].
have [am [J [sc E]]] := @dup_runs [:: A2; back2] 42%N C2 ltac:(by []).
have [am' [J' [sc' E']]] := @dup_runs [:: A2; back2; back2] 42%N C3 ltac:(by []).
have [ic EC] := class_of seed C2 E; have [ic' EC'] := class_of seed C3 E'.
exists (ic, J, am), (ic', J', am'); split=> //=.
- have [ms [v [FM [m [HM HA HS]] HL]]] := dup_selected C2 E.
  have [m1 [s1 [c1 [F1 D1 [X1 _] S1 _]]]] := dup_models A2_graph edge_A2 ltac:(by []) A2_acyclic.
  have [m2 [s2 [c2 [F2 D2 [X2 _] S2 _]]]] := dup_models back2_graph edge_back2 ltac:(by []) back2_acyclic.
  move: FM; rewrite [lab _ _]/= => FM; inversion FM as [|x y l1 l2 R1 FM' Q1 Q2]; subst; inversion FM' as [|x' y' l3 l4 R2 FM2 Q1 Q2]; subst.
  inversion FM2; subst; have {R1} Q1 := fresh_at F1 R1; have {R2} Q2 := fresh_at F2 R2; subst.
  rewrite -HA; case: HM => [<-|[EM|//]] //.
  have [z [Z1 Z2]] := HL m1 (or_introl erefl); move: Z2; rewrite (scored_fun Z1 S1); rewrite -EM in HS; rewrite (scored_fun HS S2).
  by have [LT _ _] := score_order; rewrite leNgt LT.
- have [ms [v [FM [m [HM HA HS]] HL]]] := dup_selected C3 E'.
  have [m1 [s1 [c1 [F1 D1 [X1 _] S1 _]]]] := dup_models A2_graph edge_A2 ltac:(by []) A2_acyclic.
  have [m2 [s2 [c2 [F2 D2 [X2 Y2] _ T2]]]] := dup_models back2_graph edge_back2 ltac:(by []) back2_acyclic.
  move: FM; rewrite [lab _ _]/= => FM; inversion FM as [|x y l1 l2 R1 FM' Q1 Q2]; subst; inversion FM' as [|x' y' l3 l4 R2 FM2 Q1 Q2]; subst.
  inversion FM2 as [|x9 y9 l9 l8 R3 FM3 Q1 Q2]; subst; inversion FM3; subst.
  have {R1} Q1 := fresh_at F1 R1; have {R2} Q2 := fresh_at F2 R2; have {R3} Q3 := cached_at F2 D2 R3; subst.
  rewrite -HA; case: HM => [EM|[<-|[<-|//]]] //.
  have [z [Z1 Z2]] := HL c2 ltac:(by right; right; left); move: Z2; rewrite (scored_fun Z1 T2); rewrite -EM in HS; rewrite (scored_fun HS S1).
  by have [_ LT _] := score_order; rewrite leNgt LT.
Qed.

Lemma for_scores A u v m x : graph 2 A -> (forall i j : 'I_2, edge A i j <-> i = u /\ j = v) -> u != v -> acyclic A -> model_for cf A m ->
  scored dup_world te m x -> x = logs + qF (totq u v (2 ## 7)) \/ x = logs + qF (totq u v (106 ## 209)).
Proof.
move=> GA EA NE AA [rnd [m0 [s [E H]]]] S; have [m1 [s1 [c1 [F1 D1 _ S1 T1]]]] := dup_models GA EA NE AA.
move: E; rewrite F1 => -[Em _]; rewrite -Em in H; case: H => [H|H]; first by left; apply: (scored_fun S); rewrite H.
by right; apply: (scored_fun S); move: H; rewrite D1 => -[<-].
Qed.
Lemma different_from (a b c d : F) : a < b -> d < a -> c < d ->
  (forall m x, model_for cf A2 m -> scored dup_world te m x -> x = a \/ x = c) ->
  (forall m x, model_for cf back2 m -> scored dup_world te m x -> x = b \/ x = d) ->
  different_scores dup_world dup_args tr te false [:: A2; back2] 0.
Proof.
move=> L1 L2 L3 FS FB; have L4 := lt_trans L2 L1; have L5 := lt_trans L3 L4.
move=> A A' m m' x [_ [G HG ->]] [_ [G' HG' ->]]; case: HG => [<-|[<-|//]]; case: HG' => [<-|[<-|//]] // M M' S S'.
  by case: (FS _ _ M S) => E; case: (FB _ _ M' S') => E'; move: L1 L2 L3 L5; rewrite -E -E' ?ltxx.
by case: (FB _ _ M S) => E; case: (FS _ _ M' S') => E'; move: L1 L2 L3 L5; rewrite -E -E' ?ltxx.
Qed.
Lemma dup_different : different_scores dup_world dup_args tr te false [:: A2; back2] 0.
Proof.
have [L1 L2 L3] := score_order; apply: (different_from L1 L2 L3) => m x.
  exact: for_scores A2_graph edge_A2 ltac:(by []) A2_acyclic.
exact: for_scores back2_graph edge_back2 ltac:(by []) back2_acyclic.
Qed.

Lemma dup_exact : exact_solver dup_world dup_args dup_data.
Proof.
move=> t1 t2 t3 hs l A; rewrite dup_split => -[<- _ _] [<-] [<-|//] AA.
have [[u [v [NE EA]]]|N0] := acyclic2 AA; first exact: (edge_exact EA NE).
move=> B gamma omegas psis m B1 /new_model_fields [EA' EO] PO _; rewrite /= EA' => -[<-].
have S0 (B' : 'M[F]_2) : supported A B' -> B' = 0 by move=> SB; apply/matrixP => i j; rewrite [RHS]mxE; apply/eqP; apply: contraT => /SB E; by case: (N0 i j).
by split; [exact: new_supported|move=> B' /S0 ->; rewrite (S0 _ (@new_supported A _))].
Qed.

Lemma duplicates : exists (w : world F 2 2) (a : args F) data training test_graph test_I G G',
  [/\ w_log w = log /\ w_pi w = pi, [/\ w_h w = h, sorts (w_argsort w) & exact_solver w a data],
      split_data (w_shuffle w 42) [seq data k | k <- enum 'I_2] (a_folds a) = Ok [:: training; test_graph; test_I] /\
        (forall k, posdef (covs w training k)) /\ numbers w a training = Ok [:: 0%N],
      [/\ graph 2 G, graph 2 G', acyclic G & acyclic G'] /\
        no_draws (train_conf w a training 0) /\ different_scores w a training test_graph false [:: G; G'] 0 & G <> G' /\
      forall seed, exists r r', [/\ equivalence_class w a [:: G; G'] data false seed = Ok r,
        equivalence_class w a [:: G; G'; G'] data false seed = Ok r', mA (projT2 r.2) = G & mA (projT2 r'.2) = G']].
Proof.
exists dup_world, dup_args, dup_data, tr, te, tr, A2, back2; split=> //.
- by split=> //; [exact: argsort_sorts|exact: dup_exact].
- by split; [exact: dup_split|split=> //; exact: dup_posdef].
- split; first by split; [exact: A2_graph|exact: back2_graph|exact: A2_acyclic|exact: back2_acyclic].
  by split; [exact: cvx_no_draws|exact: dup_different].
by split=> //; exact: dup_refuted.
Qed.
End Dup.
