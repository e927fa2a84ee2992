(** A run that shows that random_state is not used (C57). *)
From Coq Require Import ZArith QArith_base Lia List.
From mathcomp Require Import all_ssreflect all_algebra.
From Verif Require Import Base GraphModel GraphSpec TopoProofs ListModel NumModel NumSpec LinAlgProofs NumProofs ScoreModel CacheSpec CacheProofs.
From Verif Require Import ScoreSpec GDProofs ScoreProofs HistProofs LoopProofs Lr0Proofs NoErrProofs RunProofs Run2Proofs.
From Verif Require Import MeekProofs CovModel MainModel MainSpec PruneProofs PruneIProofs SelectProofs FitProofs TotalProofs MainRunProofs.
Set Implicit Arguments.
Unset Strict Implicit.
Unset Printing Implicit Defensive.
Import Order.Theory GRing.Theory Num.Theory.
Local Open Scope nat_scope.
Local Open Scope ring_scope.

Section Seed.
Variables (F : realFieldType) (log : F -> F) (pi : F) (h : hord).
Local Notation sample := (seq 'rV[F]_2).

(** The mean of np.cov(X, rowvar=False) *)
Definition row_mean (X : sample) : 'rV[F]_2 := (size X)%:R^-1 *: \sum_(x <- X) x.
Local Notation np_cov := (@np_cov F 2).
(** np.argsort *)
Definition np_argsort (xs : seq F) : seq nat := sort (fun i j => nth 0 xs i <= nth 0 xs j) (iota 0 (size xs)).

Definition no_edge2 : mat := cons (cons Z0 (cons Z0 nil)) (cons (cons Z0 (cons Z0 nil)) nil).
(** The generator with seed 42 leaves the order of the observations, the others reverse it. *)
Definition seed_world : world F 2 1 :=
  World log pi h id (fun l m => Some 0) (fun=> (0, 0)) id (fun=> true) np_argsort np_cov (fun _ _ => no_edge2)
    (fun seed k xs => if seed == 42%N then xs else rev xs) (fun _ _ _ => (0, 0)) 2.
Definition third : Q := Qmake (Zpos xH) 3.
Definition seed_args : args F := Args (Some [:: 0%N]) [:: third; third; third] None false 1 0 0 1 0 0 Cvx.

Definition unit_row (j : 'I_2) (a : F) : 'rV[F]_2 := \row_k (if k == j then a else 0).
Definition cross (a : F) : sample := [:: unit_row 0 a; - unit_row 0 a; unit_row 1 a; - unit_row 1 a].
Definition obs : sample := cross 1 ++ cross 2%:R ++ cross 3%:R.
Definition seed_data (k : 'I_1) : sample := obs.

Lemma sq_opp (x : 'rV[F]_2) : (- x)^T *m (- x) = x^T *m x.
Proof. by rewrite mulmxN (_ : (- x)^T = - x^T) ?mulNmx ?opprK //; apply/matrixP => i j; rewrite !mxE. Qed.
Lemma cov4 (x y : 'rV[F]_2) : np_cov [:: x; - x; y; - y] = 3%:R^-1 *: (2%:R *: (x^T *m x + y^T *m y)).
Proof.
rewrite /CovModel.np_cov -/(row_mean _) /=; congr (_ *: _).
have -> : row_mean [:: x; - x; y; - y] = 0 by rewrite /row_mean !big_cons big_nil addr0 addNKr subrr scaler0.
rewrite !big_cons big_nil !subr0 addr0 !sq_opp scaler_nat mulr2n.
by rewrite addrA addrACA.
Qed.
Lemma cross_cov a : (unit_row 0 a)^T *m unit_row 0 a + (unit_row 1 a)^T *m unit_row 1 a = (a ^+ 2)%:M.
Proof.
apply/matrixP => i j; rewrite !mxE !big_ord1 !mxE.
by case: i => [[|[|i]] Hi] //; case: j => [[|[|j]] Hj] //; rewrite /= ?mul0r ?mulr0 ?addr0 ?add0r -?expr2 ?mulr1n ?mulr0n.
Qed.
Definition cval (a : F) : F := 3%:R^-1 * (2%:R * a ^+ 2).
Lemma cov_cross a : np_cov (cross a) = (cval a)%:M.
Proof. by rewrite /cross cov4 cross_cov !scale_scalar_mx. Qed.
Lemma cov_rev_cross a : np_cov (rev (cross a)) = (cval a)%:M.
Proof.
have E : rev (cross a) = [:: - unit_row 1 a; - - unit_row 1 a; - unit_row 0 a; - - unit_row 0 a].
  by rewrite /cross /rev /= !opprK.
by rewrite E cov4 !sq_opp [X in 2%:R *: X]addrC cross_cov !scale_scalar_mx.
Qed.
Lemma cval_gt0 a : a != 0 -> 0 < cval a.
Proof. by move=> N; rewrite /cval mulr_gt0 ?invr_gt0 ?ltr0n // mulr_gt0 ?ltr0n // exprn_even_gt0. Qed.

Lemma data1 : [seq seed_data k | k <- enum 'I_1] = [:: obs].
Proof. by rewrite enum_ordSl /= (size0nil (size_enum_ord 0)). Qed.
Lemma split_id : split_data (w_shuffle seed_world 42) [seq seed_data k | k <- enum 'I_1] (a_folds seed_args) =
  Ok [:: [:: cross 1]; [:: cross 2%:R]; [:: cross 3%:R]].
Proof. by rewrite data1. Qed.
Lemma split_rev n : n != 42%N -> split_data (w_shuffle seed_world n) [seq seed_data k | k <- enum 'I_1] (a_folds seed_args) =
  Ok [:: [:: rev (cross 3%:R)]; [:: rev (cross 2%:R)]; [:: rev (cross 1)]].
Proof. by move=> /negbTE N; rewrite data1 /w_shuffle /= N. Qed.

Lemma noedge_sq : square 2 no_edge2. Proof. by split=> //; do 3 constructor. Qed.
Lemma noedge_get i j : get no_edge2 i j = Z0.
Proof. by case: i => [|[|[|i]]]; case: j => [|[|[|j]]]. Qed.
Lemma noedge_edge i j : ~ edge no_edge2 i j.
Proof. by rewrite /edge noedge_get. Qed.
Lemma noedge_graph : graph 2 no_edge2.
Proof. by split; [exact: noedge_sq | move=> i j; rewrite noedge_get; lia]. Qed.
Lemma noedge_acyclic A : no_edges A -> acyclic A.
Proof.
move=> N i; have H x y : ~ Relation_Operators.clos_trans nat (edge A) x y by elim=> [? ? /N|].
exact: H.
Qed.

(** Fitting a graph without edges to one sample *)
Section Train.
Variables (X : sample) (c : F).
Hypothesis EX : np_cov X = c%:M.
Hypothesis c0 : 0 < c.
Hypothesis SX : (1 < size X)%N.
Local Notation cf := (train_conf seed_world seed_args [:: X] 0).

Lemma cov1 (k : 'I_1) : covs seed_world [:: X] k = c%:M.
Proof. by rewrite /covs (ord1 k). Qed.
Lemma cov1_posdef (k : 'I_1) : posdef (covs seed_world [:: X] k).
Proof.
rewrite cov1; have -> : c%:M = diag_mx (const_mx c : 'rV[F]_2) by rewrite diag_const_mx.
by apply: diag_posdef => i; rewrite mxE.
Qed.
Lemma fit1 A I rnd : graph 2 A -> no_edges A -> exists m s, fit cf A I None rnd = Ok (m, s) /\ forall k j, momegas m k j = c.
Proof.
move=> [SA NA] HA.
have [k|pm [s [EI SB E]]] := @fit_const F 2 0 1 cf A SA NA (noedge_acyclic HA) erefl erefl erefl cov1_posdef _ erefl erefl erefl erefl erefl 0 (@zero_supported F 2 A) (fun _ _ => erefl) erefl I rnd.
  by rewrite /cf_n_obs /= /n_obs (ord1 k); apply: ltnW.
eexists; eexists; split; first exact: E.
move: EI; rewrite /initial_model; move=> /(@bindOk _ _ _ _ _) [B _ /(@bindOk _ _ _ _ _) [g _]].
move=> /(new_model_ok SA NA) [_ SB' ->] k j; rewrite /momegas.
have -> : B = 0 by apply/matrixP => x y; rewrite [RHS]mxE; apply/eqP; apply/negPn/negP => /SB' /HA.
rewrite mxE !big_ord1 [X in if _ then X else _]mxE [X in (X * _) / _]mxE trmx0 subr0 !trmx1 !mulmx1 !mul1mx.
have -> : cf_sigmas cf k = c%:M by exact: cov1.
have -> : cf_sigmas cf 0 = c%:M by exact: cov1.
rewrite !mxE eqxx mulr1n; case: memb => //.
by rewrite mulfK //; rewrite /cf_n_obs /= /n_obs pnatr_eq0 -lt0n; apply: ltnW.
Qed.

Lemma scanty : too_small [:: X] = false.
Proof. by rewrite /too_small /= orbF; apply/negP => /eqP E; move: SX; rewrite E. Qed.

Lemma fit_seed data seed T1 T2 :
  split_data (w_shuffle seed_world seed) [seq data k | k <- enum 'I_1] (a_folds seed_args) = Ok [:: [:: X]; T1; T2] ->
  exists am J sc, fit_all seed_world seed_args data (Some [:: no_edge2]) false None None seed = Ok (am, J, sc) /\
    forall k j, momegas (projT2 am) k j = c.
Proof.
move=> Es; have G : Forall (graph 2) [:: no_edge2] by constructor; [exact: noedge_graph | constructor].
have N gs : Some [:: no_edge2] = Some gs -> Forall (graph 2) gs by move=> [<-].
have := @fit_all_total F 2 1 seed_world seed_args data (Some [:: no_edge2]) false seed [:: X] T1 T2 [:: no_edge2] [:: 0%N] Es
  (or_introl erefl) erefl G ltac:(by []) ltac:(by []) scanty (fun _ _ H => ltac:(by [])).
have NE A : subgraph A no_edge2 -> no_edges A by move=> S i j /S /noedge_edge.
move=> [[[[am J] sc] E]|[h' [n [x [Hh _ [A [I [rk [GA [B HB SB]]]]]]]]]]; last first.
  case: Hh HB => [<-|//] [EB|//] EF; rewrite -EB in SB.
  by have [m [s [E _]]] := fit1 I (w_rnds seed_world n rk) GA (NE _ SB); rewrite E in EF.
exists am, J, sc; split=> //.
have [||tr [tg [ti [gs [hs [k [v [Es' [[[<-]|[//]] [Eh]] [[Lk _] _ _] [B [EB|//] EA] [HF _ _]]]]]]]]] := fit_all_spec _ _ E; [exact: N | by [] |].
move: Es' HF; rewrite Es => -[<- _ _]; move: Lk EA; rewrite -Eh.
case: am {E} => l m /=; case: k => [|[|k]] // [El]; move: m; rewrite -El => m EA [GA _ _ _ [_ [I' [rnd [m' [s [_ EF [_ _ _ Eo _]]]]]]]] k j.
have [|m1 [s1 [E1 H]]] := @fit1 (mA m) I' rnd GA; first by rewrite EA -EB; exact: noedge_edge.
by move: EF; rewrite E1 -Eo => -[<- _].
Qed.
End Train.

(** C57 *)
Lemma seed_ignored n : n != 42%N -> exists ic J am J' am' sc,
  [/\ equivalence_class seed_world seed_args [:: no_edge2] seed_data false n = Ok (ic, J, am),
      fit_all seed_world seed_args seed_data (Some [:: no_edge2]) false None None n = Ok (am', J', sc)
    & forall k j, momegas (projT2 am) k j <> momegas (projT2 am') k j].
Proof.
move=> N42.
have [am [J [sc [E H]]]] := fit_seed (cov_cross 1) (cval_gt0 (oner_neq0 F)) erefl split_id.
have [|am' [J' [sc' [E' H']]]] := fit_seed (cov_rev_cross 3%:R) (cval_gt0 _) erefl (split_rev N42); first by rewrite pnatr_eq0.
have [||tr [tg [ti [gs [hs [k [v [_ _ _ _ [[[SA NA] AC _ _ _] _ _]]]]]]]]] := fit_all_spec _ _ E => //.
  by move=> gs [<-]; constructor; [exact: noedge_graph | constructor].
have [M [EM _]] := dag_to_icpdag_spec h 2 _ J SA NA AC.
exists M, J, am, J', am', sc'; split=> //; first by rewrite /equivalence_class E /= EM.
have L : cval 1 < cval 3%:R.
  rewrite /cval ltr_pmul2l ?invr_gt0 ?ltr0n // ltr_pmul2l ?ltr0n // -natrX -[1 ^+ 2](natrX _ 1) ltr_nat; exact: erefl.
by move=> k' j; rewrite H H' => EQ; rewrite EQ ltxx in L.
Qed.
End Seed.
