(** The order of the environments can change the result of equivalence_class (C132). *)
From Coq Require Import ZArith QArith Lia List Permutation.
From mathcomp Require Import all_ssreflect all_algebra.
From Verif Require Import Base GraphModel GraphSpec TopoProofs MeekProofs ListModel NumModel NumSpec LinAlgProofs NumProofs ScoreModel CacheSpec CacheProofs.
From Verif Require Import ScoreSpec GDProofs ScoreProofs HistProofs LoopProofs Lr0Proofs NoErrProofs RunProofs Run2Proofs CovModel MainModel MainSpec PruneProofs.
From Verif Require Import SelectProofs FitProofs TotalProofs MainRunProofs SeedProofs ClassProofs ExMainDefs QFieldProofs CandSpec CandProofs DupProofs.
From Verif Require Import GradSpec DescentSpec ExactSpec StatSpec StatProofs FieldTac NamesProofs OptSpec ConsistProofs GesMeanProofs.
Set Implicit Arguments.
Unset Strict Implicit.
Unset Printing Implicit Defensive.
Import Order.Theory GRing.Theory Num.Theory.
Local Open Scope nat_scope.
Local Open Scope ring_scope.
Local Notation "a ## b" := (Qmake (Zpos a) b) (at level 30).

(** The score without latents *)
Lemma diag_score (F : realFieldType) (p e : nat) (log : F -> F) (m : model F p 0 e) (S : 'I_e -> 'M[F]_p) n : positive (momegas m) ->
  score log m S n = Ok (\sum_(k < e) (n k)%:R * (- log (\prod_j (momegas m k j)^-1) + \sum_j (mI_B m *m S k *m (mI_B m)^T) j j / momegas m k j)
    / (\sum_i n i)%N%:R ^+ (e - k)).
Proof.
move=> PO; rewrite score_value //; last by move=> x [].
congr Ok; apply: eq_bigr => k _; congr (_ * _ / _).
have D : mnoise m k = diag_mx (\row_j momegas m k j).
  rewrite /mnoise /noise_cov; have -> : mgamma m = 0 by apply/matrixP => -[].
  by rewrite mulmx0 add0r; congr diag_mx; apply/rowP => j; rewrite !mxE.
have IV : invmx (mnoise m k) = diag_mx (\row_j (momegas m k j)^-1).
  have U : diag_mx (\row_j momegas m k j) \in unitmx.
    by rewrite unitmxE unitfE det_diag; apply/prodf_neq0 => j _; rewrite mxE gt_eqF.
  rewrite D; set d' := diag_mx (\row_j (momegas m k j)^-1).
  have DD : diag_mx (\row_j momegas m k j) *m d' = 1%:M.
    by apply/matrixP => i j; rewrite mul_diag_mx !mxE mulrnAr; congr (_ *+ _); rewrite mulfV // gt_eqF.
  by rewrite -[RHS](mulKmx U) DD mulmx1.
rewrite IV det_diag; congr (- log _ + _); first by apply: eq_bigr => j _; rewrite mxE.
by rewrite /mxtrace; apply: eq_bigr => j _; move: (_ *m _ *m _) => X; rewrite mul_diag_mx mxE mxE mulrC.
Qed.

Section Env.
Variables (F : realFieldType) (log : F -> F) (pi : F) (h : hord).
Add Field ff : (fieldT F).
Hypothesis LL : log_like log.
Local Notation sample := (seq 'rV[F]_2).
Local Notation qF := (@qF F).
Local Notation full := (iota 0 2).
Local Notation mixed := (mixed F).

(** The regression coefficient, which minimises the convex problem *)
Definition fit_weight (A : mat) : 'M[F]_2 := \matrix_(i, j) (if Z.eqb (get A i j) Z0 then 0 else qF (4 ## 5)).
Definition env_world : world F 2 2 :=
  World log pi h id (fun l m => Some (fit_weight (mA m))) (fun=> (0, 0)) id (fun=> true) (@np_argsort F) (@np_cov F 2)
    (fun _ _ => no_edge2) (fun seed k xs => xs) (fun _ _ _ => (0, 0)) 4.
Local Notation gargs := (dup_args F).
Definition equal2 : sample := four (row2 F (2 ## 1) (2 ## 1)) (row2 F (2 ## 1) (2 ## 1)).
Definition axes2 : sample := axes F (2 ## 1) (2 ## 1).
Definition env_data (k : 'I_2) : sample := mixed ++ (if k == 0 then equal2 else axes2) ++ mixed.
Local Notation tr := [:: mixed; mixed].
Local Notation te := [:: equal2; axes2].
Local Notation te' := [:: axes2; equal2].
Local Notation cf := (train_conf env_world gargs tr 0).

Lemma env_split : split_data (w_shuffle env_world 42) [seq env_data k | k <- enum 'I_2] (a_folds gargs) = Ok [:: tr; te; tr].
Proof.
have -> : [seq env_data k | k <- enum 'I_2] = [:: env_data 0; env_data 1].
  by rewrite enum_ordSl enum_ordSl /= (size0nil (size_enum_ord 0)).
by [].
Qed.
Lemma env_split' : split_data (w_shuffle env_world 42) [seq env_data (rev_ord k) | k <- enum 'I_2] (a_folds gargs) = Ok [:: tr; te'; tr].
Proof.
have -> : [seq env_data (rev_ord k) | k <- enum 'I_2] = [:: env_data 1; env_data 0].
  by rewrite enum_ordSl enum_ordSl /= (size0nil (size_enum_ord 0)).
by [].
Qed.
Lemma etr_covs k : covs env_world tr k = np_cov mixed.
Proof. by rewrite /covs; case: k => [[|[|k]] Hk]. Qed.
Lemma etr_posdef k : posdef (cf_sigmas cf k).
Proof. by have := mixed_posdef log pi h; rewrite -(etr_covs k). Qed.
Lemma etr_nobs k : (0 < cf_n_obs cf k)%N.
Proof. by case: k => [[|[|k]] Hk]. Qed.
Lemma fit_supported A : supported A (fit_weight A).
Proof. by move=> i j; rewrite mxE /edge; case: Z.eqb_spec => [_|//]; rewrite eqxx. Qed.

(** The solver returns the minimum. *)
Lemma fit_exact A : acyclic A -> exact_cvx cf A.
Proof.
move=> AA B gamma omegas psis m B1 /new_model_fields [EA' EO] PO _; rewrite /= EA' => -[<-].
split; first exact: fit_supported.
have [[u [v [NE EA]]]|N0] := acyclic2 AA; last first.
  have S0 (B' : 'M[F]_2) : supported A B' -> B' = 0.
    by move=> SB; apply/matrixP => i j; rewrite [RHS]mxE; apply/eqP; apply: contraT => /SB E; case: (N0 i j).
  by move=> B' /S0 ->; rewrite (S0 _ (@fit_supported A)).
have E M B' : residuals (fun k => (cf_n_obs cf k)%:R) M (cf_sigmas cf) B' = residuals (fun=> 4%:R) M (covs env_world tr) B'.
  by apply: eq_bigr => k _; congr (_%:R * _); case: k => [[|[|k]] Hk].
move=> B' SB; rewrite !E (one_supported EA SB).
have -> : fit_weight A = one_weight u v (solution (covs env_world tr) omegas u v).
  rewrite (one_supported EA (@fit_supported A)); congr one_weight; rewrite mxE.
  case: Z.eqb_spec => [H|_]; first by case: (proj2 (EA u v) (conj erefl erefl)).
  have NE' : Nat.eqb u v = false by apply/Nat.eqb_neq => H; case/eqP: NE; exact: ord_inj.
  have [P0 P1] : 0 < (omegas 0 v)^-1 /\ 0 < (omegas 1 v)^-1 by rewrite !invr_gt0.
  rewrite /solution !(@sum2 _ 0 1) // !etr_covs !mixed_cov /mq NE' Nat.eqb_refl.
  rewrite -!mulrDr -[RHS]mulf_div divff ?mul1r; last by rewrite pnatr_eq0.
  rewrite -[RHS]mulf_div divff ?mulr1; last by rewrite gt_eqF // addr_gt0.
  qfeq.
by apply: least_squares => // k; rewrite etr_covs; exact: (mixed_posdef log pi h).
Qed.
Lemma env_exact : exact_solver env_world gargs env_data.
Proof. by move=> t1 t2 t3 hs l A; rewrite env_split => -[<- _ _] [<-] [<-|//] AA; exact: fit_exact. Qed.
Lemma env_exact' : exact_solver env_world gargs (fun k => env_data (rev_ord k)).
Proof. by move=> t1 t2 t3 hs l A; rewrite env_split' => -[<- _ _] [<-] [<-|//] AA; exact: fit_exact. Qed.

(** All candidates are fitted. *)
Lemma env_fit A I rnd : graph 2 A -> acyclic A -> exists pm s, [/\ initial_model cf A I = Ok pm, supported A (mB pm)
  & fit cf A I None rnd = Ok (MkModel A (fit_weight A) (mgamma pm) (momegas pm) (mpsis pm) (1%:M - (mB pm)^T), s)].
Proof.
move=> [SA NA] AA; apply: (@fit_const F 2 0 2 cf A SA NA AA erefl erefl erefl etr_posdef etr_nobs erefl erefl erefl erefl erefl (fit_weight A)) => //.
  exact: fit_supported.
by move=> m <-.
Qed.
Lemma env_runs data tg Gs : split_data (w_shuffle env_world 42) [seq data k | k <- enum 'I_2] (a_folds gargs) = Ok [:: tr; tg; tr] ->
  Forall (fun G => graph 2 G /\ acyclic G) Gs -> Gs <> [::] -> exists am J sc, fit_all env_world gargs data (Some Gs) false None None 42 = Ok (am, J, sc).
Proof.
move=> ES HG N0; have G1 : Forall (graph 2) Gs by apply: (Forall_impl _ _ HG) => G [].
have := @fit_all_total F 2 2 env_world gargs data (Some Gs) false 42 tr tg tr Gs [:: 0%N] ES (or_introl erefl) erefl G1 N0 ltac:(by []) erefl (fun _ _ H => ltac:(by [])).
move=> [[[[am J] sc] E]|[h' [n [x [Hh _ [A [I [rk [GA [B HB SB]]]]]]]]]]; first by exists am, J, sc.
case: Hh => [<-|//] EF; have AA : acyclic A by apply: (sub_acyclic SB); have [] := proj1 (Forall_forall _ _) HG _ HB.
by have [pm [s [_ _ E]]] := env_fit I (w_rnds env_world n rk) GA AA; rewrite E in EF.
Qed.
Lemma env_selected data tg G Gs am J sc : split_data (w_shuffle env_world 42) [seq data k | k <- enum 'I_2] (a_folds gargs) = Ok [:: tr; tg; tr] ->
  Forall (fun G => graph 2 G /\ acyclic G) (G :: Gs) ->
  fit_all env_world gargs data (Some (G :: Gs)) false None None 42 = Ok (am, J, sc) ->
  exists ms v, [/\ Forall2 (model_at cf) (lab [::] (G :: Gs)) ms, exists m, [/\ In m ms, mA m = mA (projT2 am) & scored env_world tg m v]
    & forall m, In m ms -> exists y, scored env_world tg m y /\ v <= y].
Proof.
move=> ES0 HG E; have G1 : Forall (graph 2) (G :: Gs) by apply: (Forall_impl _ _ HG) => G' [].
have [|//|t1 [t2 [t3 [gs [hs [k [v [ES [HI HN] [HL HV _] _ _]]]]]]]] := fit_all_spec _ _ E; first by move=> gs [<-].
have [E1 [E2 E3]] : t1 = tr /\ t2 = tg /\ t3 = tr by move: ES; rewrite ES0 => -[<- <- <-].
case: HI => [[EG]|[]//]; move: HV HL; rewrite -EG E1 E2 {ES EG E1 E2 E3}; move: HN => [<-].
case: am E => h0 m0 /= E HV [HL _]; have E0 : h0 = 0%N by case: k HL {HV} => [[]//|[]].
move: m0 E HV; rewrite E0 => m0 E [ms [EP [[m [HM HA HS]] HB]]]; exists ms, v; split=> //; last by exists m.
move: EP; rewrite /prune_graphs; have -> : iota 0 (length G) = full by case: (Forall_inv G1) => [[-> _] _].
have ND : no_draws cf by apply: cvx_no_draws.
have := prune_each_outcome ND (w_rnds env_world k) (w_fuel env_world) false (s := new_sobj F 2 0 2) (xs := [::]) erefl (memo0 cf) G1.
case EL : (visits cf (w_fuel env_world) false (G :: Gs)) => [L|x]; last by move=> [x' ->].
move=> [s' [ms' [xs' [-> _ _ F2 _]]]] [<-]; suff EQ : L = G :: Gs by rewrite EQ in F2.
elim: (G :: Gs) L EL {F2} => [|G' Gs' IH] L /=; first by case.
rewrite /visit; case: (D cf G' full) => [r|] //=; case: (visits _ _ _ _) IH => [L'|] //= IH [<-].
by rewrite (IH L').
Qed.
Lemma env_class Gs data seed am J sc : Forall (fun G => graph 2 G /\ acyclic G) Gs ->
  fit_all env_world gargs data (Some Gs) false None None 42%N = Ok (am, J, sc) ->
  exists ic, equivalence_class env_world gargs Gs data false seed = Ok (ic, J, am).
Proof.
move=> HG E; have G1 : Forall (graph 2) Gs by apply: (Forall_impl _ _ HG) => G' [].
have [||t1 [t2 [t3 [gs [hs [k [v [_ _ _ _ [[[SA NA] AC _ _ _] _ _]]]]]]]]] := fit_all_spec _ _ E => //; first by move=> gs [<-].
have [M [EM _]] := dag_to_icpdag_spec h 2 _ J SA NA AC.
by exists M; rewrite /equivalence_class E /= EM.
Qed.

(** The two models *)
Lemma env_model A rnd m s : graph 2 A -> acyclic A -> fit cf A full None rnd = Ok (m, s) -> exists B,
  [/\ mI_B m = 1%:M - B^T, supported A B, mA m = A, momegas m = initialize_omegas cf B full
    & forall i j : 'I_2, edge A i j -> (np_cov mixed *m B) i j = np_cov mixed i j].
Proof.
move=> GA AA E; have [SA NA] := GA; have [pm [s' [EI SB E']]] := env_fit full rnd GA AA.
move: E; rewrite E' => -[<- _]; exists (mB pm); move: EI; rewrite /initial_model; case EB : initialize_B => [B|] //=.
move=> /(new_model_ok SA NA) [_ _ EM]; rewrite EM /=; split=> //; first by move: SB; rewrite EM.
have AV : avg_cov cf = np_cov mixed.
  rewrite /avg_cov; have -> : (\sum_(i < 2) cf_n_obs cf i)%N = 8%N by rewrite !big_ord_recl big_ord0.
  rewrite (eq_bigr (fun=> 4%:R *: np_cov mixed)) => [|k _]; last first.
    have -> : cf_n_obs cf k = 4%N by rewrite /= /n_obs; case: k => [[|[|k]] Hk].
    by congr (_ *: _); exact: etr_covs.
  by move: (np_cov mixed) => S; rewrite sumr_const card_ord -scaler_nat !scalerA -natrM mulVf ?scale1r // pnatr_eq0.
have AS : (avg_cov cf)^T = avg_cov cf by have [] : posdef (avg_cov cf) by apply: avg_posdef => //; [exact: etr_posdef|exact: etr_nobs].
by have [_ NO] := initialize_B_normal AS EB => i j /NO; rewrite AV.
Qed.

(** The score of a model whose variances are the same in both environments *)
Definition two_env (lg x y : F) : F := 4%:R * (lg + x) / 8%:R ^+ 2 + 4%:R * (lg + y) / 8%:R.
Definition spread (m : model F 2 0 2) (X : sample) : F := \sum_j (mI_B m *m np_cov X *m (mI_B m)^T) j j / momegas m 0 j.
Lemma env_score (m : model F 2 0 2) X Y : positive (momegas m) -> (forall k j, momegas m k j = momegas m 0 j) -> size X = 4%N -> size Y = 4%N ->
  scored env_world [:: X; Y] m (two_env (- log (\prod_j (momegas m 0 j)^-1)) (spread m X) (spread m Y)).
Proof.
move=> PO EO SX SY; rewrite /scored diag_score //; congr Ok.
have N k : n_obs [:: X; Y] (k : 'I_2) = 4%N by rewrite /n_obs; case: k => [[|[|k]] Hk].
have T : (\sum_(i < 2) n_obs [:: X; Y] i)%N = 8%N by rewrite !big_ord_recl big_ord0 !N.
rewrite T (eq_bigr (fun k : 'I_2 => 4%:R * (- log (\prod_j (momegas m 0 j)^-1) + spread m (nth [::] [:: X; Y] k)) / 8%:R ^+ (2 - k))).
  by rewrite (sum2 (u := 0) (v := 1)).
move=> k _; rewrite N; congr (_ * (- log _ + _) / _); first by apply: eq_bigr => j _; rewrite EO.
by rewrite /spread; apply: eq_bigr => j _; rewrite EO.
Qed.
Lemma equal_cov (i j : 'I_2) : np_cov equal2 i j = qF (16 ## 3).
Proof. rewrite cov_four !mxE; case: i => [[|[|i]] Hi] //; case: j => [[|[|j]] Hj] //; cbn; qfeq. Qed.
Lemma axes_cov (i j : 'I_2) : np_cov axes2 i j = qF (if Nat.eqb i j then 8 ## 3 else Qmake Z0 1).
Proof. rewrite cov_four !mxE; case: i => [[|[|i]] Hi] //; case: j => [[|[|j]] Hj] //; cbn; qfeq. Qed.

Lemma omegas_full B k j : initialize_omegas cf B full k j = ((1%:M - B^T) *m np_cov mixed *m (1%:M - B^T)^T) j j.
Proof.
have M : memb j full = true by case: j => [[|[|j]] Hj].
by rewrite [LHS]mxE M [LHS]mxE -(etr_covs k).
Qed.
Lemma no_edge_model rnd m s : fit cf no_edge2 full None rnd = Ok (m, s) -> mA m = no_edge2 /\ forall X Y, size X = 4%N -> size Y = 4%N ->
  scored env_world [:: X; Y] m (two_env (- log (qF (9 ## 100))) ((np_cov X 0 0 + np_cov X 1 1) * qF (3 ## 10)) ((np_cov Y 0 0 + np_cov Y 1 1) * qF (3 ## 10))).
Proof.
have G0 : graph 2 no_edge2 by split; [exact: noedge_sq|move=> i j; rewrite noedge_get].
move=> E; have [B [E1 SB E3 E4 _]] := env_model G0 (noedge_acyclic noedge_edge) E; split=> // X Y SX SY.
have B0 : B = 0 by apply/matrixP => i j; rewrite mxE; apply/eqP; apply: contraT => /SB /noedge_edge.
have EO k j : momegas m k j = qF (10 ## 3).
  by rewrite E4 omegas_full B0 trmx0 subr0 trmx1 mulmx1 mul1mx mixed_cov /mq Nat.eqb_refl.
have P : 0 < qF (10 ## 3) by rewrite (qF0 F); qflt.
have V : (qF (10 ## 3))^-1 = qF (3 ## 10) by rewrite -qFV; apply: qF_eq.
have := @env_score m X Y _ _ SX SY; rewrite /spread E1 B0 trmx0 subr0 trmx1.
rewrite !big_ord_recl !big_ord0 !EO !mul1mx !mulmx1 !mulr1 !addr0 V.
have L1 : lift ord0 ord0 = 1 :> 'I_2 by exact: val_inj.
rewrite !L1 -!mulrDl -qFM (qF_eq F (y := 9 ## 100)) //; apply=> [k j|k j]; by rewrite !EO.
Qed.
Lemma edge_model rnd m s : fit cf A2 full None rnd = Ok (m, s) -> mA m = A2 /\ forall X Y, size X = 4%N -> size Y = 4%N ->
  let t (Z : sample) := np_cov Z 0 0 * qF (3 ## 10) + (np_cov Z 1 1 - qF (4 ## 5) * (np_cov Z 0 1 + np_cov Z 1 0) + qF (4 ## 5) ^+ 2 * np_cov Z 0 0) * qF (5 ## 6) in
  scored env_world [:: X; Y] m (two_env (- log (qF (1 ## 4))) (t X) (t Y)).
Proof.
move=> E; have [B [E1 SB E3 E4 NO]] := env_model A2_graph A2_acyclic E; split=> // X Y SX SY t.
have NE : (0 : 'I_2) != 1 by [].
have EA (i j : 'I_2) : edge A2 i j <-> i = 0 /\ j = 1.
  by split=> [/A2_edge [Q1 Q2]|[-> ->]] //; split; exact: val_inj.
have EB := one_supported EA SB.
have EW : B 0 1 = qF (4 ## 5).
  have := NO 0 1 ltac:(by []); rewrite mxE (sum2 _ NE) EB ![one_weight _ _ _ _ _]mxE !eqxx /= mulr0 addr0.
  rewrite !mixed_cov /mq /= => H; have N : qF (10 ## 3) != 0 by rewrite /QFieldProofs.qF mulf_neq0 ?invr_neq0 ?pF_neq0.
  apply: (mulfI N); rewrite H; qfeq.
rewrite EW in EB; have R Z := residual NE (qF (4 ## 5)) (np_cov Z).
have O0 k : momegas m k 0 = qF (10 ## 3) by rewrite E4 omegas_full EB (R mixed).1 mixed_cov.
have O1 k : momegas m k 1 = qF (6 ## 5) by rewrite E4 omegas_full EB (R mixed).2 !mixed_cov /mq /=; qfeq.
have V0 : (qF (10 ## 3))^-1 = qF (3 ## 10) by rewrite -qFV; apply: qF_eq.
have V1 : (qF (6 ## 5))^-1 = qF (5 ## 6) by rewrite -qFV; apply: qF_eq.
have W (j : 'I_2) : j = 0 \/ j = 1 by case: j => [[|[|j]] Hj]; [left|right|]; try exact: val_inj.
have := @env_score m X Y _ _ SX SY; rewrite /spread E1 EB !(sum2 _ NE) (bigD1 (0 : 'I_2)) //= (bigD1 (1 : 'I_2)) //= bigop.big1 => [|j]; last first.
  by case: (W j) => ->.
rewrite mulr1 !(R X).1 !(R X).2 !(R Y).1 !(R Y).2 !O0 !O1 V0 V1 -qFM (qF_eq F (y := 1 ## 4)) //; apply=> [k j|k j].
  by case: (W j) => ->; rewrite ?O0 ?O1 (qF0 F); qflt.
by case: (W j) => ->; rewrite ?O0 ?O1.
Qed.

Lemma log_gap : - log (qF (1 ## 4)) <= - log (qF (9 ## 100)) <= - log (qF (1 ## 4)) + qF (16 ## 9).
Proof.
have [LM LT] := LL.
have P (x : Q) : Z.lt Z0 (Qnum x) -> 0 < qF x by move=> H; rewrite (qF0 F) qF_lt /=; apply/Z.ltb_lt; lia.
have E : log (qF (1 ## 4)) = log (qF (9 ## 100)) + log (qF (25 ## 9)) by rewrite -LM ?P // -qFM; congr log; apply: qF_eq.
have E2 : log (qF (25 ## 9)) = - log (qF (9 ## 25)) by rewrite -(logV LL) ?P // -qFV; congr log; apply: qF_eq.
have B1 : log (qF (25 ## 9)) <= qF (16 ## 9).
  by apply: le_trans (LT _ (P _ _)) _ => //; rewrite ler_subl_addr le_eqVlt (qF1 F) -qFD (qF_eq F (y := 25 ## 9)) ?eqxx.
have B2 : 0 <= log (qF (25 ## 9)).
  by rewrite E2 oppr_ge0; apply: le_trans (LT _ (P _ _)) _ => //; rewrite subr_le0 (qF1 F); apply: ltW; qflt.
rewrite E; move: (log (qF (9 ## 100))) (log (qF (25 ## 9))) B1 B2 => a b B1 B2.
by rewrite opprD ger_addl oppr_le0 B2 -addrA ler_addl addrC subr_ge0.
Qed.
Lemma two_envD l x y : two_env l x y = two_env l 0 0 + two_env 0 x y.
Proof. by rewrite /two_env !addr0 !add0r [RHS]addrACA -!mulrDl -!mulrDr. Qed.
Lemma two_env_le l l' : l <= l' -> two_env l 0 0 <= two_env l' 0 0.
Proof. by move=> H; rewrite /two_env !addr0 ler_add // ler_pmul2r ?ler_pmul2l ?invr_gt0 ?exprn_gt0 ?ltr0n. Qed.
Lemma two_env0 l c : two_env (l + c) 0 0 = two_env l 0 0 + two_env 0 c c.
Proof. by rewrite -two_envD /two_env !addr0. Qed.

Lemma two_envQ x y : two_env 0 x y = qF (1 ## 16) * x + qF (1 ## 2) * y.
Proof.
rewrite /two_env !add0r [_ * x / _]mulrAC [_ * y / _]mulrAC (qF_nat F 4) (qF_nat F 8) expr2 -!qFE.
by congr (_ * x + _ * y); apply: qF_eq.
Qed.
Lemma env_fun tg (m : model F 2 0 2) x y : scored env_world tg m x -> scored env_world tg m y -> x = y.
Proof. by rewrite /scored => -> -[]. Qed.
Lemma env_candidates : Forall (fun G => graph 2 G /\ acyclic G) [:: no_edge2; A2].
Proof.
constructor; last by constructor=> //; split; [exact: A2_graph|exact: A2_acyclic].
by split; [split; [exact: noedge_sq|move=> i j; rewrite noedge_get]|exact: (noedge_acyclic noedge_edge)].
Qed.
Lemma env_models X Y data am J sc : size X = 4%N -> size Y = 4%N ->
  split_data (w_shuffle env_world 42) [seq data k | k <- enum 'I_2] (a_folds gargs) = Ok [:: tr; [:: X; Y]; tr] ->
  fit_all env_world gargs data (Some [:: no_edge2; A2]) false None None 42 = Ok (am, J, sc) ->
  exists m1 m2 : model F 2 0 2, [/\ mA m1 = no_edge2 /\ mA m2 = A2,
    scored env_world [:: X; Y] m1 (two_env (- log (qF (9 ## 100))) ((np_cov X 0 0 + np_cov X 1 1) * qF (3 ## 10)) ((np_cov Y 0 0 + np_cov Y 1 1) * qF (3 ## 10))),
    let t (Z : sample) := np_cov Z 0 0 * qF (3 ## 10) + (np_cov Z 1 1 - qF (4 ## 5) * (np_cov Z 0 1 + np_cov Z 1 0) + qF (4 ## 5) ^+ 2 * np_cov Z 0 0) * qF (5 ## 6) in
    scored env_world [:: X; Y] m2 (two_env (- log (qF (1 ## 4))) (t X) (t Y))
    & exists m v, [/\ m = m1 \/ m = m2, mA m = mA (projT2 am), scored env_world [:: X; Y] m v
      & forall m' y, m' = m1 \/ m' = m2 -> scored env_world [:: X; Y] m' y -> v <= y]].
Proof.
move=> SX SY ES E; have [ms [v [FM [m [HM HA HS]] HL]]] := env_selected ES env_candidates E.
move: FM; rewrite [lab _ _]/= => FM; inversion FM as [|x y l1 l2 R1 FM' Q1 Q2]; subst; inversion FM' as [|x' y' l3 l4 R2 FM2 Q1 Q2]; subst.
inversion FM2; subst; move: R1 R2 => [m0 [s0 [D1 /= ->]]] [m0' [s0' [D2 /= ->]]] in HM HL *.
have [A1 S1] := no_edge_model D1; have [B1 S2] := edge_model D2.
exists m0, m0'; split=> //; [exact: S1|exact: S2|].
exists m, v; split=> //; first by case: HM => [|[|//]] ->; [left|right].
move=> m' z H Z; have [|z' [Z' L]] := HL m'; first by case: H => ->; [left|right; left].
by move: Z'; rewrite /scored Z => -[->].
Qed.

Lemma env_order seed : exists r r', [/\ equivalence_class env_world gargs [:: no_edge2; A2] env_data false seed = Ok r,
  equivalence_class env_world gargs [:: no_edge2; A2] (fun k => env_data (rev_ord k)) false seed = Ok r',
  mA (projT2 r.2) = no_edge2 & mA (projT2 r'.2) = A2].
Proof.
have /andP [G1 G2] := log_gap.
have [am [J [sc E]]] := @env_runs env_data te _ env_split env_candidates ltac:(by []).
have [am' [J' [sc' E']]] := @env_runs (fun k => env_data (rev_ord k)) te' _ env_split' env_candidates ltac:(by []).
have [ic EC] := env_class seed env_candidates E; have [ic' EC'] := env_class seed env_candidates E'.
exists (ic, J, am), (ic', J', am'); split=> //=.
- have [m1 [m2 [[A1 B1] S1 S2 [m [v [HM HA HS HL]]]]]] := @env_models equal2 axes2 _ _ _ _ erefl erefl env_split E.
  rewrite -HA; case: HM => EM; first by rewrite EM.
  have := HL _ _ (or_introl erefl) S1; rewrite EM in HS; rewrite (env_fun HS S2).
  rewrite !equal_cov !axes_cov /= leNgt => /negP []; rewrite two_envD [X in _ < X]two_envD.
  apply: le_lt_trans (ler_add (two_env_le G2) (lexx _)) _; rewrite two_env0 -[X in X < _]addrA ltr_add2l.
  rewrite !two_envQ; qflt.
- have [m1 [m2 [[A1 B1] S1 S2 [m [v [HM HA HS HL]]]]]] := @env_models axes2 equal2 _ _ _ _ erefl erefl env_split' E'.
  rewrite -HA; case: HM => EM; last by rewrite EM.
  have := HL _ _ (or_intror erefl) S2; rewrite EM in HS; rewrite (env_fun HS S1).
  rewrite !equal_cov !axes_cov /= leNgt => /negP []; rewrite two_envD [X in _ < X]two_envD.
  apply: lt_le_trans (ler_add (two_env_le G1) (lexx _)); rewrite ltr_add2l.
  rewrite !two_envQ; qflt.
Qed.
End Env.

Lemma order_matters (F : realFieldType) (log : F -> F) (pi : F) (h : hord) : log_like log ->
  exists (w : world F 2 2) (a : args F) candidates data,
  [/\ w_log w = log /\ w_pi w = pi, [/\ w_h w = h, forall seed k X, w_shuffle w seed k X = X & forall X, w_cov w X = np_cov X],
      [/\ Forall (fun G => graph 2 G /\ acyclic G) candidates, exact_solver w a data & exact_solver w a (fun k => data (rev_ord k))], forall k, size (data k) = 12%N
    & forall seed, exists r r', [/\ equivalence_class w a candidates data false seed = Ok r,
        equivalence_class w a candidates (fun k => data (rev_ord k)) false seed = Ok r',
        forall i j, ~ edge (mA (projT2 r.2)) i j & exists i j, edge (mA (projT2 r'.2)) i j]].
Proof.
move=> LL; exists (env_world log pi h), (dup_args F), [:: no_edge2; A2], (@env_data F); split=> //; [by split; [exact: env_candidates|exact: env_exact|exact: env_exact']|by case=> -[|[|k]] Hk|].
move=> seed; have [r [r' [E E' H H']]] := env_order pi h LL seed; exists r, r'; split=> //; first by rewrite H; exact: noedge_edge.
by rewrite H'; exists 0%N, 1%N.
Qed.
