(** Concrete runs of main.py that contradict C53, C57 and C75. *)
From Coq Require Import ZArith QArith_base Lia List.
From mathcomp Require Import all_ssreflect all_algebra.
From Verif Require Import Base GraphModel GraphSpec TopoProofs ListModel NumModel NumSpec LinAlgProofs NumProofs ScoreModel CacheSpec CacheProofs.
From Verif Require Import ScoreSpec GDProofs ScoreProofs HistProofs LoopProofs Lr0Proofs NoErrProofs RunProofs Run2Proofs.
From Verif Require Import MainModel MainSpec PruneProofs PruneIProofs SelectProofs FitProofs TotalProofs.
Set Implicit Arguments.
Unset Strict Implicit.
Unset Printing Implicit Defensive.
Import Order.Theory GRing.Theory Num.Theory.
Local Open Scope nat_scope.
Local Open Scope ring_scope.

(** Learning rate 0, one iteration, and a convex solver that answers [X m] on models m over A *)
Section Const.
Variables (F : realFieldType) (p l e : nat) (cf : conf F p l e) (A : mat).
Hypothesis SA : square p A.
Hypothesis NA : nonneg A.
Hypothesis HA : acyclic A.
Hypothesis p0 : (0 < p)%N.
Hypothesis e0 : (0 < e)%N.
Hypothesis lp : (l <= p)%N.
Hypothesis PS : forall k, posdef (cf_sigmas cf k).
Hypothesis N0 : forall k, (0 < cf_n_obs cf k)%N.
Hypothesis LR : cf_learning_rate cf = 0.
Hypothesis FU : (0 < cf_fuel cf)%N.
Hypothesis MI : cf_max_iter cf = 1%N.
Hypothesis MF : (0 < cf_max_fluctuations cf)%N.
Hypothesis SO : cf_solver cf = Cvx.
Section Answer.
Variable X : model F p l e -> 'M[F]_p.
Hypothesis SX' : forall m, mA m = A -> supported A (X m).
Hypothesis CV : forall m, mA m = A -> cf_cvx cf m = Some (X m).
Hypothesis PM : cf_psi_max cf = None.
Lemma fit_once I rnd : exists pm s, let m0 := MkModel A (mB pm) (mgamma pm) (momegas pm) (mpsis pm) (1%:M - (mB pm)^T) in
  [/\ initial_model cf A I = Ok pm, supported A (mB pm) & fit cf A I None rnd = Ok (MkModel A (X m0) (mgamma pm) (momegas pm) (mpsis pm) (mI_B m0), s)].
Proof.
have PM1 u : cf_psi_max cf = Some u -> 1 < u by rewrite PM.
have PM2 u : cf_psi_max cf = Some u -> 0 <= u by rewrite PM.
case: (@initial_model_ok F p l e cf A SA NA HA e0 PS N0 I lp PM1) => pm [s0 [EI ES EA SB RG]].
have [Ho Hs _] := RG; have Hs' a b : 0 <= mpsis pm a b by apply: ltW.
set c0 := MkModel A (mB pm) (mgamma pm) (momegas pm) (mpsis pm) (1%:M - (mB pm)^T); have SX := @SX' c0 erefl.
have X0 (i j : 'I_p) : get A i j = Z0 -> X c0 i j = 0.
  by move=> G; apply/eqP/negPn/negP => /SX; rewrite /edge G.
have EB : solve_B cf c0 (rnd 0%N).1 (rnd 0%N).2 = Ok (X c0).
  rewrite /solve_B SO /solve_B_cvx inv_noise_ok //= CV //; case: ifP => [_|/negP[]].
    by congr Ok; apply/matrixP => i j; rewrite !mxE; case: ifP => // /Z.eqb_spec /X0.
  by apply/forallP => i; apply/forallP => j; apply/implyP => /Z.eqb_spec /X0 ->; rewrite normr0 invr_ge0 exprn_ge0 ?ler0n.
case: (@amax_ok F p p0 (mB pm - X c0)) => d ED.
case: (@fit_lr0 F p l e cf A SA NA HA LR FU I None rnd pm s0 _ _ MI MF EI ES EA SB RG PM2 EB SX ED) => s [_ EF].
by exists pm, s.
Qed.
End Answer.

Variable X : 'M[F]_p.
Hypothesis SX : supported A X.
Hypothesis CV : forall m, mA m = A -> cf_cvx cf m = Some X.
Hypothesis PM : cf_psi_max cf = None.
Lemma fit_const I rnd : exists pm s, [/\ initial_model cf A I = Ok pm, supported A (mB pm)
  & fit cf A I None rnd = Ok (MkModel A X (mgamma pm) (momegas pm) (mpsis pm) (1%:M - (mB pm)^T), s)].
Proof. exact: (@fit_once (fun=> X) (fun _ _ => SX) CV PM I rnd). Qed.
End Const.

Lemma zero_supported (F : realFieldType) p A : supported A (0 : 'M[F]_p).
Proof. by move=> i j; rewrite mxE eqxx. Qed.

(** ** C53: two uncorrelated variables with an edge *)
Section Forever.
Variables (F : realFieldType) (log : F -> F) (h : hord).
Definition conf3 : conf F 2 0 1 :=
  Conf log h id (fun=> Some 0) (fun=> (0, 0)) id (fun=> true) (fun=> 1%:M) (fun=> 1%N) None false 1 0 0 1 0 0 Cvx 2.
Local Notation sobj := (sobj F 2 0 1).

Lemma posdef1 n : posdef (1%:M : 'M[F]_n).
Proof.
split; first by rewrite trmx1.
move=> x Nx; rewrite mulmx1 mxE.
have [j Nj] : exists j, x j 0 != 0.
  apply/existsP; apply: contraNT Nx; rewrite negb_exists => /forallP H; apply/eqP/colP => j; rewrite mxE.
  by apply/eqP; move: (H j); rewrite negbK.
rewrite (bigD1 j) //= mxE -expr2; apply: ltr_paddr; last by rewrite exprn_even_gt0.
by apply: sumr_ge0 => k _; rewrite mxE -expr2 exprn_even_ge0.
Qed.

Lemma fit3 I rnd : exists m s, fit conf3 A2 I None rnd = Ok (m, s) /\ mB m = 0.
Proof.
have [pm [s [_ _ E]]] := @fit_const F 2 0 1 conf3 A2 A2_sq A2_nonneg A2_acyclic erefl erefl erefl (fun=> posdef1 2) (fun=> erefl) erefl erefl erefl erefl erefl 0 (@zero_supported F 2 A2) (fun _ _ => erefl) erefl I rnd.
by eexists; eexists; split; first exact: E.
Qed.

Lemma A2_graph : graph 2 A2. Proof. by split; [exact: A2_sq | exact: A2_nonneg]. Qed.

Lemma sdag3 rnds (s : sobj) I : reached conf3 s.1 ->
  exists s' m x, [/\ sdag conf3 rnds s A2 I = (s', Ok (m, x)), reached conf3 s'.1 & mB m = 0].
Proof.
move=> HS; have [] := sdag_spec rnds I HS A2_graph.
case E: (sdag conf3 rnds s A2 I) => [s' [[m x]|x]] /= HS'.
  move=> [EA [_ _ _ _ [_ [I' [rnd [m' [y [_ + [_ EB _ _ _]]]]]]]] _]; rewrite EA => EF; exists s', m, x; split=> //.
  by have [m1 [s1 [E1 H]]] := fit3 I' rnd; move: EF; rewrite E1 -EB => -[<- _].
move: E; rewrite /sdag => -[_ EX].
have [_] := @reached_call F 2 0 1 conf3 (fun _ _ _ => True) (fun _ _ _ _ _ _ => Logic.I) (fun _ _ _ _ _ _ => Logic.I) (fun _ _ _ _ _ _ _ => Logic.I) s.1 A2 I (rnds s.2) HS A2_graph.
by rewrite EX; have [m1 [s1 [-> _]]] := fit3 I (rnds s.2).
Qed.

Lemma weakest_zero : @weakest_edge F 2 0 = Ok (0%N, 0%N).
Proof.
have [i [j [-> [[]|[_ -> ->]]]]] // := @weakest_edge_spec F 2 0 erefl.
by rewrite mxE eqxx.
Qed.

Lemma prune_loop3 rnds fuel I (s : sobj) (m : model F 2 0 1) : reached conf3 s.1 -> mB m = 0 ->
  (prune_loop conf3 rnds fuel I s A2 m).2 = Err OutOfFuel.
Proof.
elim: fuel s m => [|fuel IH] s m HS EB; first by [].
rewrite prune_loopS EB weakest_zero; cbv zeta.
have -> : upd A2 0 0 Z0 = A2 by [].
have [s' [m' [x [-> HS' EB']]]] := sdag3 rnds I HS.
rewrite [Z.ltb _ _]/= sbindOk /fst; have := IH s' m' HS' EB'.
by case: prune_loop => s2 r /= ->.
Qed.

(** C53 *)
Lemma prune_forever rnds fuel :
  (prune_graphs conf3 rnds fuel true None (new_sobj F 2 0 1) [:: A2]).2 = Err OutOfFuel.
Proof.
rewrite /prune_graphs prune_eachS /prune_graph.
have [s' [m' [x [-> HS' EB']]]] := @sdag3 rnds (new_sobj F 2 0 1) (iota 0 2) (reached0 _).
rewrite sbindOk; have := prune_loop3 rnds fuel (iota 0 2) HS' EB'.
by case: prune_loop => s2 r /= ->.
Qed.
Lemma prune_forever2 rnds fuel :
  acyclic A2 /\ (prune_graphs conf3 rnds fuel true None (new_sobj F 2 0 1) [:: A2]).2 = Err OutOfFuel.
Proof. by split; [exact: A2_acyclic | exact: prune_forever]. Qed.
End Forever.

(** ** C75 *)
Section Own.
Variables (F : realFieldType) (p l e : nat) (cf : conf F p l e) (A : mat).
Hypothesis SA : square p A.
Hypothesis NA : nonneg A.

(** The score of the model that a fit returns is the returned score. *)
Lemma own_score I init rnd m s : (forall m0, init = Some m0 -> square p (mA m0)) ->
  fit cf A I init rnd = Ok (m, s) -> mscore cf m = Ok s.
Proof.
move=> SI E; case: (fit_start SA NA SI E) => m0 [s0 [EA E1 _ _ EL]].
case: (alt_loop_last SA NA EA _ EL) => // j [pm [d [EP ER]]].
move: ER; rewrite /round => /(@bindOk _ _ _ _ _) [c0 _ /(@bindOk _ _ _ _ _) [nB _ /(@bindOk _ _ _ _ _) [g _]]].
by move=> /(@bindOk _ _ _ _ _) [x _ /(@bindOk _ _ _ _ _) [d' _ /(@bindOk _ _ _ _ _) [s' Es [<- <- _]]]].
Qed.
End Own.

Lemma cached_score (F : realFieldType) (log : F -> F) (h : hord) : let cf := conf2 log h in
  exists c m s m' s', [/\ proper c, (do_call cf (fresh F 2 0 2 true) c).2 = Ok (m, s),
    (do_call cf (run cf (fresh F 2 0 2 true) [:: c]) c).2 = Ok (m', s),
    mscore cf m = Ok s /\ mscore cf m' = Ok s' & s <> s'].
Proof.
move=> cf; pose c : call F 2 0 2 := Call A2 [:: 0; 1]%N None (fun=> (0, 0)).
have P : proper c by split=> //; [exact: A2_sq | exact: A2_nonneg].
have [m [s [m' [s' [E EN Es' N]]]]] := score_stale log h (cl_rnd c).
have EC : copy_model (cf_h cf) m = Ok m' by exact: EN.
exists c, m, s, m', s'; split=> //.
- exact: call_fresh.
- by rewrite /run /= /do_call /score_dag /= E /write /= EC.
- by split=> //; apply: own_score E => //; [exact: A2_sq | exact: A2_nonneg].
Qed.
