(** On valid data score_dag raises no exception. *)
From Coq Require Import ZArith Lia List.
From mathcomp Require Import all_ssreflect all_algebra.
From Verif Require Import Base GraphModel GraphSpec TopoProofs NumModel NumSpec LinAlgProofs NumProofs ScoreModel CacheSpec CacheProofs.
From Verif Require Import ScoreSpec GDProofs ScoreProofs LoopProofs Lr0Proofs.
Set Implicit Arguments.
Unset Strict Implicit.
Unset Printing Implicit Defensive.
Import Order.Theory GRing.Theory Num.Theory.
Local Open Scope ring_scope.

Section Mx.
Variable F : realFieldType.

Lemma zip_map2 (T U V : Type) (f : T -> U) (g : T -> V) s : zip (map f s) (map g s) = [seq (f v, g v) | v <- s].
Proof. by elim: s => //= x s ->. Qed.

Lemma entriesE a b (X : 'M[F]_(a, b)) :
  entries X = [seq X v.1 v.2 | v <- [seq (i, j) | i <- enum 'I_a, j <- enum 'I_b]].
Proof. by rewrite /entries map_allpairs. Qed.

Lemma entries_sub a b (X G : 'M[F]_(a, b)) c :
  entries (X - c *: G) = [seq v.1 - c * v.2 | v <- zip (entries X) (entries G)].
Proof. by rewrite !entriesE zip_map2 -[RHS]map_comp; apply: eq_map => v /=; rewrite !mxE. Qed.

Lemma posdef_pull n k (M : 'M[F]_n) (Q : 'M[F]_(k, n)) : (forall x : 'cV_k, x != 0 -> Q^T *m x != 0) -> posdef M ->
  posdef (Q *m M *m Q^T).
Proof.
move=> HQ [sM pM]; split; first by rewrite !trmx_mul trmxK sM mulmxA.
move=> x /HQ Nx; have -> : x^T *m (Q *m M *m Q^T) *m x = (Q^T *m x)^T *m M *m (Q^T *m x).
  by rewrite trmx_mul trmxK !mulmxA.
exact: pM.
Qed.

Lemma posdef_diag n (M : 'M[F]_n) j : posdef M -> 0 < M j j.
Proof.
case=> _ /(_ (delta_mx j 0)) H.
have : (delta_mx j 0 : 'cV[F]_n) != 0.
  by apply/eqP => /matrixP /(_ j 0); rewrite !mxE !eqxx => /eqP; rewrite oner_eq0.
move/H; by rewrite -mulmxA -colE trmx_delta -rowE !mxE.
Qed.

(** Principal submatrices *)
Lemma posdef_sub n (M : 'M[F]_n) (j : 'I_n) (pa : seq 'I_n) : uniq pa -> posdef M ->
  posdef (\matrix_(a < size pa, b < size pa) M (nth j pa a) (nth j pa b)).
Proof.
move=> U PM; set Q : 'M[F]_(size pa, n) := \matrix_(a, i) (i == nth j pa a)%:R.
have QM k (X : 'M[F]_(n, k)) a b : (Q *m X) a b = X (nth j pa a) b.
  rewrite mxE (bigD1 (nth j pa a)) //= mxE eqxx mul1r big1 ?addr0 // => i Ni.
  by rewrite mxE (negbTE Ni) mul0r.
have -> : \matrix_(a < size pa, b < size pa) M (nth j pa a) (nth j pa b) = Q *m M *m Q^T.
  apply/matrixP => a b; rewrite mxE -mulmxA QM -[M *m Q^T]trmxK trmx_mul trmxK mxE QM mxE; by [].
apply: posdef_pull PM => x Nx.
have [a Ha] : exists a, x a 0 != 0.
  apply/existsP; rewrite -negb_forall; apply: contra Nx => /forallP E.
  by apply/eqP/matrixP => a b; rewrite !mxE ord1; apply/eqP.
apply/eqP => /matrixP /(_ (nth j pa a) 0); rewrite !mxE (bigD1 a) //= !mxE eqxx mul1r big1 ?addr0.
  by move=> E; rewrite E eqxx in Ha.
move=> b Nb; rewrite !mxE; have -> : (nth j pa a == nth j pa b) = (a == b) by rewrite nth_uniq.
by rewrite eq_sym (negbTE Nb) mul0r.
Qed.
End Mx.

Section NoErr.
Variables (F : realFieldType) (p l e : nat) (cf : conf F p l e) (A : mat).
Local Notation h := (cf_h cf).
Local Notation model := (model F p l e).
Hypothesis SA : square p A.
Hypothesis NA : nonneg A.
Hypothesis HA : acyclic A.
Hypothesis p0 : (0 < p)%N.

Lemma amax_ok (X : 'M[F]_p) : exists d, amax X = Ok d.
Proof. by rewrite /amax -[p == 0%N]negbK -lt0n p0; eexists. Qed.

(** * Rounds *)
Local Notation stuck := (stuck cf).

Lemma adaptive_loop_err k lik (Ms : 'I_e -> 'M[F]_p) lr cur cs x :
  (forall X, exists s, lik (pattern A X) = Ok s) -> adaptive_loop cf k lik Ms A lr cur cs = Err x -> x = OutOfFuel.
Proof.
move=> HL; elim: k lr cur cs => [|k IH] lr cur cs /=; first by case.
case: (HL (cur - lr *: Nmul cf Ms cur)) => ns -> /=; case: ifP => _; first exact: IH.
case: (amax_ok (cur - pattern A (cur - lr *: Nmul cf Ms cur))) => d -> /=; case: ifP => // _; exact: IH.
Qed.

Lemma adaptive_err (m : model) rnd x : mA m = A -> positive (momegas m) -> (forall a b, 0 <= mpsis m a b) ->
  solve_B_adaptive cf m rnd = Err x -> x = OutOfFuel.
Proof.
move=> EA Ho Hs; rewrite /solve_B_adaptive inv_noise_ok //=.
have HL X : exists s, bind (new_model h (mA m) (1%:M - pattern A X)^T (mgamma m) (momegas m) (mpsis m)) (mscore cf) = Ok s.
  by rewrite EA newM_ok //=; [apply: mscore_ok | apply: pattern_supported].
rewrite {2}EA; case: (HL rnd) => cs -> /=; rewrite EA.
case E: adaptive_loop => [X|y] //= [<-]; refine (adaptive_loop_err _ E) => X.
by have := HL X; rewrite EA.
Qed.

Lemma grad_loop_err k (Ms : 'I_e -> 'M[F]_p) init lr B Bnew x : grad_loop cf k Ms A init lr B Bnew = Err x -> x = OutOfFuel.
Proof.
elim: k lr B Bnew => [|k IH] lr B Bnew /=; case: (amax_ok (B - Bnew)) => d -> /=; case: ifP => // _; first by case.
case: eqP => // _; case: ifP => _; exact: IH.
Qed.

Lemma solve_B_err (m : model) rnd rnd' x : mA m = A -> positive (momegas m) -> (forall a b, 0 <= mpsis m a b) ->
  solve_B cf m rnd rnd' = Err x -> stuck x.
Proof.
move=> EA Ho Hs; rewrite /solve_B /ScoreSpec.stuck; case: (cf_solver cf); last by move/adaptive_err; left; auto.
  rewrite /solve_B_cvx inv_noise_ok //=; case: (cf_cvx cf m) => [B|] => [|[<-]]; last by right; split; auto.
  by case: ifP => // _ [<-]; right; split; auto.
rewrite /solve_B_grad inv_noise_ok //= EA.
case E: grad_loop => [r|y] /=; last by case=> <-; left; apply: grad_loop_err E.
by case: ifP => // _ /adaptive_err; left; auto.
Qed.

Lemma solve_gamma_err (m : model) x : mA m = A -> supported A (mB m) -> positive (momegas m) ->
  (forall a b, 0 <= mpsis m a b) -> solve_gamma cf m = Err x -> x = OutOfFuel.
Proof.
move=> EA SB Ho Hs; rewrite /solve_gamma.
set flat := fun x : 'M[F]_(l, p) => [:: entries x].
have ENT : entrywise (fun (x : 'M[F]_(l, p)) (c : F) g => x - c *: g) flat.
  by move=> y c g; rewrite /flat /= entries_sub.
have TL y : inside_opt (flat y) None -> exists l0, gamma_loss cf m y = Ok l0.
  by move=> _; apply: (gamma_loss_ok cf SA NA HA).
have TG y : inside_opt (flat y) None -> exists g, gamma_gradient cf m y = Ok g.
  by move=> _; apply: (gamma_gradient_ok cf SA NA HA).
by case: (gd_err (cf_threshold_score cf) (cf_learning_rate cf) (kz F) ENT TL TG (cf_fuel cf) (mgamma m))
  => [[[]]|[_ [->|[r ->]]]] //= [<-].
Qed.

Lemma solve_rest_err (m : model) I x : mA m = A -> supported A (mB m) -> in_range (cf_psi_max cf) m ->
  (forall u, cf_psi_max cf = Some u -> 0 <= u) -> solve_rest cf m I = Err x -> x = OutOfFuel.
Proof.
move=> EA SB R U; rewrite /solve_rest.
set flat := fun x : 'M[F]_(e, p) * 'M[F]_(e, l) => [:: entries x.1; entries x.2].
have ENT : entrywise (@sub2 F p l e) flat.
  by move=> y c g; rewrite /flat /= !entries_sub.
have TL y : inside_opt (flat y) (Some (rest_bounds cf)) -> exists l0, rest_loss cf m y = Ok l0.
  by move=> /rest_inside [Ho Hs _]; apply: (rest_loss_ok cf SA NA HA) => // a b; apply: ltW.
have TG y : inside_opt (flat y) (Some (rest_bounds cf)) -> exists g, rest_gradient cf m I y = Ok g.
  by move=> /rest_inside [Ho Hs _]; apply: (rest_gradient_ok cf SA NA HA) => // a b; apply: ltW.
case: (gd_err (cf_threshold_score cf) (cf_learning_rate cf) (kz F) ENT TL TG (cf_fuel cf) (momegas m, mpsis m))
  => [[IN _]|[_ [->|[r ->]]]] //= => [_|[<-]] //.
by case: (inside_rest R) => [/IN|[u [/U U0]]] //; rewrite ltNge U0.
Qed.

Lemma round_err I rnd (pm : model) x : mA pm = A -> supported A (mB pm) -> in_range (cf_psi_max cf) pm ->
  (forall u, cf_psi_max cf = Some u -> 0 <= u) -> (cf_solver cf = Grad -> nontrivial rnd.1) ->
  round cf I rnd pm = Err x -> stuck x.
Proof.
move=> EA SB R U HR; have [Ho Hs Hu] := R; have Hs' a b : 0 <= mpsis pm a b by apply: ltW.
rewrite /round /copy_model EA newM_ok //=; case EB: solve_B => [B|y] /=; last by case=> <-; apply: solve_B_err EB.
have SB' : supported A B by apply: (solve_B_supported _ EB).
case EG: solve_gamma => [g|y] /=; last by case=> <-; left; apply: solve_gamma_err EG.
case ER: solve_rest => [[o s]|y] /=; last by case=> <-; left; apply: solve_rest_err ER.
case: (amax_ok (mB pm - B)) => d -> /=.
have [[Ho2 Hs2 _] _] := solve_rest_spec ER.
have [sc ->] // := @mscore_ok F p l e cf (set_rest (set_gamma (set_B
   {| mA := A; mB := mB pm; mgamma := mgamma pm; momegas := momegas pm; mpsis := mpsis pm; mI_B := 1%:M - (mB pm)^T |} B) g) (o, s))
   Ho2 (fun a b => ltW (Hs2 a b)).
Qed.

(** Every round starts from a model with these properties. *)
Lemma alt_loop_err_inv I rnd k i dist flucs (pm : model) ps cur x :
  (cf_max_iter cf <= i + k)%N -> mA pm = A -> supported A (mB pm) -> in_range (cf_psi_max cf) pm ->
  (forall u, cf_psi_max cf = Some u -> 0 <= u) -> (cf_solver cf = Grad -> forall k, nontrivial (rnd k).1) ->
  alt_loop cf k I rnd i dist flucs pm ps cur = Err x -> stuck x.
Proof.
move=> + + + + U HR; elim: k i dist flucs pm ps cur => [|k IH] i dist flucs pm ps cur L EA SB R /=; case: ifP => C //.
  by move: C; rewrite /continue ltnNge -[i in (_ <= i)%N]addn0 L /= andbF.
case E: round => [[[cm cs] d]|ex] /=; last by case=> <-; apply: round_err E => // /HR.
have [[_ _ EM _] [EB ER _ _]] := round_ok SA NA EA E.
apply: IH => //; first by rewrite addSnnS.
  by apply: (solve_B_supported _ EB) => /HR.
by have [] := solve_rest_spec ER.
Qed.

(** * Initialisation *)
Hypothesis e0 : (0 < e)%N.
Hypothesis sigmas : forall k, posdef (cf_sigmas cf k).
Hypothesis n0 : forall k, (0 < cf_n_obs cf k)%N.

Lemma tot_gt0 : 0 < (\sum_i cf_n_obs cf i)%N%:R :> F.
Proof.
rewrite ltr0n (bigD1 (Ordinal e0)) //=; exact: ltn_addr (n0 _).
Qed.

Lemma sum_gt0 (n : nat) (f : 'I_n -> F) : (0 < n)%N -> (forall i, 0 < f i) -> 0 < \sum_i f i.
Proof.
move=> Hn H; rewrite (bigD1 (Ordinal Hn)) //=; apply: ltr_paddr (H _).
by apply: sumr_ge0 => i _; apply: ltW.
Qed.

Lemma avg_posdef : posdef (avg_cov cf).
Proof.
rewrite /avg_cov; split.
  rewrite !linearZ /= linear_sum /=; congr (_ *: _); apply: eq_bigr => k _.
  by rewrite linearZ /= (proj1 (sigmas k)).
move=> x Nx; rewrite -scalemxAr -scalemxAl mxE mulmx_sumr mulmx_suml summxE.
apply: mulr_gt0; first by rewrite invr_gt0 tot_gt0.
apply: sum_gt0 => // k; rewrite -scalemxAr -scalemxAl mxE mulr_gt0 ?ltr0n //.
exact: (proj2 (sigmas k)).
Qed.

Lemma init_cols_ok js (B : 'M[F]_p) : exists B', init_cols cf A js B = Ok B'.
Proof.
elim: js B => [|j js IH] B /=; first by exists B.
have U : uniq (pa_of A j) by rewrite filter_uniq // enum_uniq.
have -> : regress j (pa_of A j) (avg_cov cf) = Ok (invmx (\matrix_(a < size (pa_of A j), b < size (pa_of A j))
    avg_cov cf (nth j (pa_of A j) a) (nth j (pa_of A j) b)) *m \col_a avg_cov cf j (nth j (pa_of A j) a)).
  by rewrite /regress (posdef_unit (posdef_sub j U avg_posdef)).
exact: IH.
Qed.

Lemma init_omegas_positive B I : supported A B -> positive (initialize_omegas cf B I).
Proof.
move=> SB i j; rewrite mxE.
have W k c : 0 < ((1%:M - B^T) *m cf_sigmas cf k *m (1%:M - B^T)^T) c c.
  apply/posdef_diag/posdef_congr => //; rewrite unitmxE (det_sub_dag HA SB); exact: unitr1.
case: ifP => _; first by rewrite mxE.
apply: divr_gt0; last exact: tot_gt0.
apply: sum_gt0 => // k; rewrite mxE; apply: mulr_gt0; rewrite ?ltr0n //.
Qed.

Lemma initial_model_ok I : (l <= p)%N -> (forall u, cf_psi_max cf = Some u -> 1 < u) ->
  exists m s, [/\ initial_model cf A I = Ok m, mscore cf m = Ok s, mA m = A, supported A (mB m) & in_range (cf_psi_max cf) m].
Proof.
move=> lp U; case: (init_cols_ok (enum 'I_p) 0) => B EB.
have SB : supported A B by apply: (initialize_B_supported EB).
have [g EG] : exists g, initialize_gamma cf B = Ok g by rewrite /initialize_gamma lp; eexists.
set m := MkModel A B g (initialize_omegas cf B I) (initialize_psis F l e) (1%:M - B^T).
have EI : initial_model cf A I = Ok m by rewrite /initial_model /initialize_B EB /= EG /= newM_ok.
have Ho := init_omegas_positive I SB.
have Hs a b : 0 < initialize_psis F l e a b by rewrite mxE ltr01.
case: (@mscore_ok F p l e cf m Ho (fun a b => ltW (Hs a b))) => s Es.
by exists m, s; split=> //; split=> // u /U Hu i j; rewrite mxE.
Qed.

(** Without an initial model *)
Lemma fit_no_error I rnd : (l <= p)%N -> (forall u, cf_psi_max cf = Some u -> 1 < u) ->
  (0 < cf_max_iter cf)%N -> (0 < cf_max_fluctuations cf)%N ->
  (cf_solver cf = Grad -> forall k, nontrivial (rnd k).1) ->
  (exists r, fit cf A I None rnd = Ok r) \/ (exists x, fit cf A I None rnd = Err x /\ stuck x).
Proof.
move=> lp U MI MF HR; case: (initial_model_ok I lp U) => m [s [EI ES EA SB R]].
have := fit_limits SA NA (init := None) rnd HA EI ES; rewrite MI MF /= => -[[r ->]|[x [j [pm [E _]]]]]; first by left; exists r.
right; exists x; split=> //; move: E; rewrite /fit; case: (is_dag_spec h p A SA NA) => d [-> Hd].
have -> : d by apply/Hd.
rewrite /= EI /= ES /=; case EL: alt_loop => [[r|]|y] //= [Ex]; rewrite -Ex; last first.
  apply: (alt_loop_err_inv (leqnn (0 + cf_max_iter cf)) EA SB R _ HR EL).
  by move=> u /U Hu; apply: le_trans ler01 (ltW Hu).
exfalso; move: EL; case EM: (cf_max_iter cf) MI => [|n] // _ /=.
rewrite /continue /= EM MF; case: round => [[[cm cs] d']|] //= EL; by case: (alt_loop_some EL).
Qed.
End NoErr.
