(** A run of score_dag whose score is not that of the returned parameters (C46). *)
From Coq Require Import ZArith Lia List.
From mathcomp Require Import all_ssreflect all_algebra.
From Verif Require Import Base GraphModel GraphSpec TopoProofs NumModel NumSpec LinAlgProofs NumProofs ScoreModel CacheSpec CacheProofs.
From Verif Require Import ScoreSpec GDProofs ScoreProofs HistProofs LoopProofs Lr0Proofs NoErrProofs RunProofs.
Set Implicit Arguments.
Unset Strict Implicit.
Unset Printing Implicit Defensive.
Import Order.Theory GRing.Theory Num.Theory.
Local Open Scope ring_scope.

Section Two.
Variables (F : realFieldType) (log : F -> F) (h : hord).

(** 0 -> 1 *)
Definition A2 : mat := cons (cons Z0 (cons (Zpos xH) nil)) (cons (cons Z0 (cons Z0 nil)) nil).
Lemma A2_sq : square 2 A2.
Proof. by split=> //; do 3 constructor. Qed.
Lemma A2_nonneg : nonneg A2.
Proof. by move=> [|[|[|i]]] [|[|[|j]]] //=; lia. Qed.
Lemma A2_edge i j : edge A2 i j -> i = 0%N /\ j = 1%N.
Proof. by case: i => [|[|[|i]]]; case: j => [|[|[|j]]] //= H; case: H. Qed.
Lemma A2_acyclic : acyclic A2.
Proof.
have P : forall i j, Relation_Operators.clos_trans nat (edge A2) i j -> (i < j)%N.
  by move=> i j; elim=> [x y /A2_edge [-> ->]|x y z _ H _ H'] //; apply: ltn_trans H'.
by move=> i /P; rewrite ltnn.
Qed.

(** Matrices of integers *)
Definition mk2 (a b c d : int) : 'M[int]_2 :=
  \matrix_(i, j) (if (i : nat) == 0%N then (if (j : nat) == 0%N then a else b) else (if (j : nat) == 0%N then c else d)).
Local Notation toF := (map_mx (intr : int -> F)).
Definition sigZ (k : 'I_2) : 'M[int]_2 := if (k : nat) == 0%N then mk2 1 0 0 1 else mk2 1 4 4 27.
Definition sig (k : 'I_2) : 'M[F]_2 := toF (sigZ k).
Definition B2 b : 'M[F]_2 := toF (mk2 0 b 0 0).
Definition conf2 : conf F 2 0 2 :=
  Conf log h id (fun=> Some (B2 1)) (fun=> (0, 0)) id (fun=> true) sig (fun=> 1%N) None false 1 0 0 1 0 0 Cvx 2.

Lemma B2_supported b : supported A2 (B2 b).
Proof.
by move=> i j; rewrite !mxE; case: i => -[|[|i]] // Hi; case: j => -[|[|j]] // Hj; rewrite /= ?eqxx.
Qed.
Lemma supported_B2 (B : 'M[F]_2) : supported A2 B -> forall i j : 'I_2, (i : nat) <> 0%N \/ (j : nat) <> 1%N -> B i j = 0.
Proof. by move=> SB i j H; apply/eqP; apply: contraT => /SB /A2_edge [E1 E2]; case: H; rewrite ?E1 ?E2. Qed.

(** The diagonal of (I - B^T) sigma (I - B^T)^T *)
Definition resZ b k := (1%:M - (mk2 0 b 0 0)^T) *m sigZ k *m (1%:M - (mk2 0 b 0 0)^T)^T.
Lemma resZ_old k j : resZ 2 k j j = mk2 1 5 1 15 k j.
Proof.
case: k => [[|[|k]] Hk] //; case: j => [[|[|j]] Hj] //; rewrite /resZ /sigZ;
by rewrite !mxE !big_ord_recl !big_ord0 !mxE !big_ord_recl !big_ord0 !mxE; vm_compute.
Qed.
Lemma resZ_new k j : resZ 1 k j j = mk2 1 2 1 20 k j.
Proof.
case: k => [[|[|k]] Hk] //; case: j => [[|[|j]] Hj] //; rewrite /resZ /sigZ;
by rewrite !mxE !big_ord_recl !big_ord0 !mxE !big_ord_recl !big_ord0 !mxE; vm_compute.
Qed.
Lemma resE b k : (1%:M - (B2 b)^T) *m sig k *m (1%:M - (B2 b)^T)^T = toF (resZ b k).
Proof. by rewrite /resZ !map_mxM -!map_trmx map_mxB map_mx1 -map_trmx. Qed.

Lemma diag_posdef (d : 'rV[F]_2) : (forall i, 0 < d 0 i) -> posdef (diag_mx d).
Proof.
move=> H; have := @posdef_noise F 0 2 0 0 d _ H; rewrite [_^T *m _ *m _](_ : _ = 0) ?add0r; first by apply=> -[].
by rewrite mulmx0.
Qed.
Lemma sig_posdef k : posdef (sig k).
Proof.
set d : 'rV[int]_2 := \row_j (if (j : nat) == 0%N then 1 else if (k : nat) == 0%N then 1 else 11).
set c : int := if (k : nat) == 0%N then 0 else 4; set Q := mk2 1 0 c 1.
have -> : sig k = toF Q *m diag_mx (toF d) *m (toF Q)^T.
  have -> : diag_mx (toF d) = toF (diag_mx d) by apply/matrixP => i j; rewrite !mxE rmorphMn.
  rewrite map_trmx -!map_mxM; congr map_mx; apply/matrixP => i j; rewrite /sigZ /Q /c /d.
  case: k {Q c d} => [[|[|k]] Hk] //; case: i => [[|[|i]] Hi] //; case: j => [[|[|j]] Hj] //;
  by rewrite !mxE !big_ord_recl !big_ord0 !mxE !big_ord_recl !big_ord0 !mxE; vm_compute.
apply: posdef_congr.
  have /mulmx1_unit [] // : toF Q *m toF (mk2 1 0 (- c) 1) = 1%:M.
  rewrite -map_mxM -(map_mx1 [rmorphism of intr]); congr map_mx; rewrite /Q /c.
  apply/matrixP => i j; case: k {Q c d} => [[|[|k]] Hk] //; case: i => [[|[|i]] Hi] //; case: j => [[|[|j]] Hj] //;
  by rewrite !mxE !big_ord_recl !big_ord0 !mxE; vm_compute.
by apply: diag_posdef => i; rewrite !mxE ltr0z; case: ifP => //; case: ifP.
Qed.

Lemma avg2 i j : avg_cov conf2 i j = (2%:R)^-1 * (sig 0 i j + sig 1 i j).
Proof.
have T : (\sum_(i < 2) cf_n_obs conf2 i)%N = 2%N by rewrite !big_ord_recl big_ord0.
rewrite /avg_cov T mxE; congr (_ * _).
rewrite summxE !big_ord_recl big_ord0 addr0 /= !scale1r; congr (_ + _).
Qed.

Lemma initB2 B : initialize_B conf2 A2 = Ok B -> B = B2 2.
Proof.
move=> E; have AS : (avg_cov conf2)^T = avg_cov conf2.
  by case: (@avg_posdef F 2 0 2 conf2 erefl sig_posdef (fun=> erefl)).
case: (initialize_B_normal AS E) => SB /(_ 0 1).
have ED : edge A2 (0 : 'I_2) (1 : 'I_2) by [].
move/(_ ED); rewrite mxE !big_ord_recl big_ord0 addr0 !avg2.
rewrite [B (lift _ _) _](supported_B2 SB); last by left.
have N2 : 2%:R != 0 :> F by rewrite pnatr_eq0.
rewrite mulr0 addr0 -mulrA => /(mulfI (invr_neq0 N2)).
have -> : sig 0 0 ord0 + sig 1 0 ord0 = 2%:R by rewrite !mxE.
have -> : sig 0 0 1 + sig 1 0 1 = 2%:R * 2%:R by rewrite !mxE add0r -natrM.
move/(mulfI N2) => H.
apply/matrixP => i j; rewrite !mxE.
case: ifP => Hi; last by rewrite (supported_B2 SB) ?if_same //; left => E'; rewrite E' in Hi.
case: ifP => Hj; first by rewrite (supported_B2 SB) //; right; rewrite (eqP Hj).
rewrite -[2%:~R]/(2%:R) -H; congr (B _ _); apply: ord_inj; first exact/eqP.
by case: j Hj => [[|[|j]] Hj].
Qed.

Lemma init2 : exists pm s0, [/\ initial_model conf2 A2 [:: 0; 1]%N = Ok pm, mscore conf2 pm = Ok s0, mA pm = A2,
  mB pm = B2 2 & forall i j, momegas pm i j = (mk2 1 5 1 15 i j)%:~R].
Proof.
case: (@initial_model_ok F 2 0 2 conf2 A2 A2_sq A2_nonneg A2_acyclic erefl sig_posdef (fun=> erefl) [:: 0; 1]%N erefl)
  => // m [s [EI ES EA SB [Ho _ _]]].
exists m, s; have EB : mB m = B2 2 /\ forall i j, momegas m i j = (mk2 1 5 1 15 i j)%:~R.
  move: EI; rewrite /initial_model; case EB: initialize_B => [B|] //=.
  rewrite (initB2 EB) => /(new_model_ok A2_sq A2_nonneg) [_ _ ->]; split=> // i j.
  rewrite mxE mxE resE mxE resZ_old.
  by case: j => [[|[|j]] Hj].
by case: EB.
Qed.

(** The trace terms *)
Lemma trace2 (m : model F 2 0 2) (w : 'M[int]_2) k (S : 'M[F]_2) :
  (forall i j, momegas m i j = (w i j)%:~R) -> (forall i j, 0 < w i j) ->
  \tr (invmx (mnoise m k) *m S) = \sum_j (w k j)%:~R^-1 * S j j.
Proof.
move=> E P; have -> : mnoise m k = diag_mx (\row_j (w k j)%:~R).
  rewrite /mnoise /noise_cov; have -> : mgamma m = 0 by apply/matrixP => -[].
  by rewrite mulmx0 add0r; congr diag_mx; apply/rowP => j; rewrite !mxE E.
set d := \row_j _; set d' : 'rV[F]_2 := \row_j (w k j)%:~R^-1.
have D : diag_mx d *m diag_mx d' = 1%:M.
  apply/matrixP => i j; rewrite mul_diag_mx !mxE mulrnAr; congr (_ *+ _).
  by rewrite mulfV // intr_eq0 gt_eqF.
have [U _] := mulmx1_unit D.
have -> : invmx (diag_mx d) = diag_mx d' by rewrite -[RHS](mulKmx U) D mulmx1.
rewrite /mxtrace; apply: eq_bigr => j _; by rewrite mul_diag_mx !mxE.
Qed.

Lemma no_solution (x y : F) :
  (x + (1 + 1)) / 2%:R ^+ 2 + (y + (1 + 1)) / 2%:R ^+ 1 <> (x + (1 + 5%:R^-1 * 2%:R)) / 2%:R ^+ 2 + (y + (1 + 15%:R^-1 * 20%:R)) / 2%:R ^+ 1.
Proof.
have N n : n.+1%:R != 0 :> F by rewrite pnatr_eq0.
have H1 z : 60%:R * (z / 2%:R ^+ 2) = 15%:R * z :> F.
  by rewrite mulrCA (_ : 60%:R = 15%:R * 2%:R ^+ 2) ?mulfK ?expf_neq0 // 1?mulrC // -natrX -natrM.
have H2 z : 60%:R * (z / 2%:R ^+ 1) = 30%:R * z :> F.
  by rewrite mulrCA (_ : 60%:R = 30%:R * 2%:R ^+ 1) ?mulfK ?expf_neq0 // 1?mulrC // -natrX -natrM.
have H3 : 15%:R * (5%:R^-1 * 2%:R) = 6%:R :> F.
  by rewrite mulrA (_ : 15%:R = 3%:R * 5%:R) ?mulfK // -?natrM.
have H4 : 30%:R * (15%:R^-1 * 20%:R) = 40%:R :> F.
  by rewrite mulrA (_ : 30%:R = 2%:R * 15%:R) ?mulfK // -?natrM.
move: (5%:R^-1 * 2%:R) (15%:R^-1 * 20%:R) H3 H4 => a b H3 H4.
move=> H; have : 15%:R * (x + (1 + 1)) + 30%:R * (y + (1 + 1)) = 15%:R * (x + (1 + a)) + 30%:R * (y + (1 + b)).
  by rewrite -!H1 -!H2 -(mulrDr 60%:R) H (mulrDr 60%:R).
have K (u v c c' d d' : F) : u * (x + c) + v * (y + c') = u * (x + d) + v * (y + d') -> u * c + v * c' = u * d + v * d'.
  by rewrite !(mulrDr u) !(mulrDr v) addrACA [X in _ = X]addrACA => /addrI.
move/K; rewrite (mulrDr 15%:R 1 a) (mulrDr 30%:R 1 b) H3 H4 !mulr1 -[1 + 1]/(2%:R) -!natrM -!natrD => /eqP.
by rewrite eqr_nat.
Qed.

(** C46 *)
Lemma score_stale rnd : exists m s m' s', [/\ fit conf2 A2 [:: 0; 1]%N None rnd = Ok (m, s),
  new_model h (mA m) (mB m) (mgamma m) (momegas m) (mpsis m) = Ok m', mscore conf2 m' = Ok s' & s <> s'].
Proof.
case: init2 => pm [s0 [EI ES EA EB Eo]].
have P i j : 0 < mk2 1 5 1 15 i j by rewrite mxE; do 2 case: ifP.
have Ho : positive (momegas pm) by move=> i j; rewrite Eo ltr0z.
have Hs a b : 0 <= mpsis pm a b by case: b.
have R : in_range None pm by split=> // i [].
set c0 := MkModel A2 (mB pm) (mgamma pm) (momegas pm) (mpsis pm) (1%:M - (mB pm)^T).
have SB : solve_B conf2 c0 (rnd 0%N).1 (rnd 0%N).2 = Ok (B2 1).
  rewrite /solve_B /= /solve_B_cvx inv_noise_ok //=; case: ifP => [_|/negP[]].
    congr Ok; apply/matrixP => i j; rewrite mxE; case: ifP => // /Z.eqb_eq H.
    by symmetry; apply/eqP; apply: contraT => /B2_supported E; case: (E H).
  apply/forallP => i; apply/forallP => j; apply/implyP => /Z.eqb_eq H.
  have -> : B2 1 i j = 0 by apply/eqP; apply: contraT => /B2_supported E; case: (E H).
  by rewrite normr0 invr_ge0 exprn_ge0 ?ler0n.
have SP : supported A2 (mB pm) by rewrite EB; apply: B2_supported.
case: (@amax_ok F 2 erefl (mB pm - B2 1)) => d ED.
case: (@fit_lr0 F 2 0 2 conf2 A2 A2_sq A2_nonneg A2_acyclic erefl erefl [:: 0; 1]%N None rnd pm s0 _ _ erefl erefl EI ES EA SP R _ SB (@B2_supported 1) ED)
  => // s [Es EF].
set m := MkModel _ _ _ _ _ _ in EF.
have EN := newM_ok conf2 A2_sq A2_nonneg A2_acyclic (mgamma pm) (momegas pm) (mpsis pm) (@B2_supported 1).
case: (@mscore_ok F 2 0 2 conf2 (MkModel A2 (B2 1) (mgamma pm) (momegas pm) (mpsis pm) (1%:M - (B2 1)^T)) Ho Hs) => s' Es'.
exists m, s, (MkModel A2 (B2 1) (mgamma pm) (momegas pm) (mpsis pm) (1%:M - (B2 1)^T)), s'; split=> // Ess.
move: Es Es'; rewrite {}Ess /mscore !score_value // => -[Es] [Es']; move: Es; rewrite -{}Es'.
have T : (\sum_(i < 2) cf_n_obs conf2 i)%N = 2%N by rewrite !big_ord_recl big_ord0.
have TO k : \sum_j (mk2 1 5 1 15 k j)%:~R^-1 * ((1%:M - (B2 2)^T) *m sig k *m (1%:M - (B2 2)^T)^T) j j = 1 + 1 :> F.
  rewrite resE !big_ord_recl big_ord0 addr0 ![map_mx _ _ _ _]mxE !resZ_old.
  by rewrite !mulVf // intr_eq0 gt_eqF.
have TN k : \sum_j (mk2 1 5 1 15 k j)%:~R^-1 * ((1%:M - (B2 1)^T) *m sig k *m (1%:M - (B2 1)^T)^T) j j =
    1 + (if (k : nat) == 0%N then 5%:R^-1 * 2%:R else 15%:R^-1 * 20%:R) :> F.
  rewrite resE !big_ord_recl big_ord0 addr0 ![map_mx _ _ _ _]mxE !resZ_new !mxE.
  by case: ifP => _ /=; rewrite invr1 mulr1.
rewrite !T !big_ord_recl !big_ord0 !addr0 !(@trace2 _ (mk2 1 5 1 15)) //= EB !TO !TN !mul1r.
exact: no_solution.
Qed.
End Two.
