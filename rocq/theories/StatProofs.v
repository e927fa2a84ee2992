(** equivalence_class sees of the samples only the covariances and numbers of observations of the folds (C128). *)
From Coq Require Import ZArith List.
From mathcomp Require Import all_ssreflect all_algebra.
From Verif Require Import Base GraphModel ListModel NumModel ScoreModel CovModel MainModel NamesSpec ClassNamesProofs StatSpec.
Set Implicit Arguments.
Unset Strict Implicit.
Unset Printing Implicit Defensive.
Import Order.Theory GRing.Theory Num.Theory.
Local Open Scope ring_scope.

Lemma bind_ext (A B : Type) (r : res A) (f g : A -> res B) : (forall x, f x = g x) -> bind r f = bind r g.
Proof. by move=> H; case: r => //= x; exact: H. Qed.
Lemma gd_ext (F : realFieldType) (X : Type) (sub : X -> F -> X -> X) flat (ls ls' : X -> res F) (gr gr' : X -> res X) th lr kz bs n x :
  (forall x, ls x = ls' x) -> (forall x, gr x = gr' x) -> gd sub flat ls gr th lr kz bs n x = gd sub flat ls' gr' th lr kz bs n x.
Proof.
move=> HL HG; rewrite /gd; apply: bind_ext => b; case: ifP => // _; rewrite HL; apply: bind_ext => c; elim: n x c 1 None {b} => //= n IH x c k g.
have -> : (if g is Some g' then Ok g' else gr x) = (if g is Some g' then Ok g' else gr' x) by case: g.
by apply: bind_ext => y; apply: bind_ext => b; case: ifP => // _; rewrite ?HL //; apply: bind_ext => z; rewrite !IH.
Qed.

Section Fit.
Variables (F : realFieldType) (p l e : nat) (cf cf' : conf F p l e).
Hypothesis SC : same_conf cf cf'.
Local Notation HS := (sc_sigmas SC).
Local Notation HN := (sc_n_obs SC).

Lemma tot_ext : ((\sum_i cf_n_obs cf' i)%N%:R : F) = (\sum_i cf_n_obs cf i)%N%:R.
Proof. by congr (_%:R); apply: eq_bigr => i _; rewrite HN. Qed.
Lemma score_ext2 log (m : model F p l e) S S' n n' : (forall k, S' k = S k) -> (forall k, n' k = n k) -> score log m S' n' = score log m S n.
Proof.
move=> H1 H2; rewrite /score; apply: bind_ext => Ms; have -> : (\sum_i n' i)%N = (\sum_i n i)%N by apply: eq_bigr.
by congr Ok; elim: (enum 'I_e) 0 => //= k ks IH x; rewrite H1 H2 IH.
Qed.
Lemma mscore_ext m : mscore cf' m = mscore cf m.
Proof. by rewrite /mscore (sc_log SC); apply: score_ext2 => k; rewrite ?HS ?HN. Qed.
Lemma Nmul_ext Ms X : Nmul cf' Ms X = Nmul cf Ms X.
Proof.
apply/matrixP => r c; rewrite !mxE; apply: eq_bigr => c' _; apply: eq_bigr => r' _; congr (_ * _).
by apply: eq_bigr => k _; rewrite HS (sc_sqrtm SC).
Qed.
Lemma adaptive_loop_ext k lik lik' Ms A lr cur cs : (forall X, lik' X = lik X) ->
  adaptive_loop cf' k lik' Ms A lr cur cs = adaptive_loop cf k lik Ms A lr cur cs.
Proof.
move=> H; elim: k lr cur cs => //= k IH lr cur cs; rewrite Nmul_ext H; apply: bind_ext => ns; case: ifP => // _.
by apply: bind_ext => d; case: ifP.
Qed.
Lemma adaptive_ext m rnd : solve_B_adaptive cf' m rnd = solve_B_adaptive cf m rnd.
Proof.
have HL X : bind (new_model (cf_h cf') (mA m) (1%:M - X)^T (mgamma m) (momegas m) (mpsis m)) (mscore cf') =
  bind (new_model (cf_h cf) (mA m) (1%:M - X)^T (mgamma m) (momegas m) (mpsis m)) (mscore cf).
  by rewrite (sc_h SC); apply: bind_ext => nm; exact: mscore_ext.
rewrite /solve_B_adaptive (sc_fuel SC); apply: bind_ext => Ms; rewrite HL; apply: bind_ext => cs.
by rewrite (adaptive_loop_ext _ _ _ _ _ _ HL).
Qed.
Lemma grad_loop_ext k Ms A init lr B Bn : grad_loop cf' k Ms A init lr B Bn = grad_loop cf k Ms A init lr B Bn.
Proof.
elim: k lr B Bn => [|k IH] lr B Bn /=; apply: bind_ext => d //; case: ifP => // _; case: ifP => // _.
by rewrite Nmul_ext (sc_finite SC) !IH.
Qed.
Lemma solve_B_ext m rnd rnd' : solve_B cf' m rnd rnd' = solve_B cf m rnd rnd'.
Proof.
rewrite /solve_B (sc_solver SC); case: (cf_solver cf).
- by rewrite /solve_B_cvx (sc_cvx SC).
- rewrite /solve_B_grad (sc_fuel SC) (sc_finite SC); apply: bind_ext => Ms; rewrite grad_loop_ext; apply: bind_ext => r.
  by rewrite adaptive_ext.
exact: adaptive_ext.
Qed.
Lemma Ns_ext B k : Ns cf' B k = Ns cf B k. Proof. by rewrite /Ns HS. Qed.
Lemma solve_gamma_ext m : solve_gamma cf' m = solve_gamma cf m.
Proof.
rewrite /solve_gamma (sc_fuel SC) (sc_threshold_score SC) (sc_learning_rate SC); congr bind; apply: gd_ext => x.
  by rewrite /gamma_loss (sc_h SC); apply: bind_ext => nm; exact: mscore_ext.
rewrite /gamma_gradient (sc_h SC); apply: bind_ext => nm; apply: bind_ext => Ms; congr Ok.
apply/matrixP => a k; rewrite !mxE tot_ext; congr (_ / _); apply: eq_bigr => y _; by rewrite Ns_ext HN.
Qed.
(** The average over a single environment *)
Lemma average_one a b (c : pred 'I_b) (X : 'M[F]_(a, b)) : a = 1%N -> average_cols c X = X.
Proof.
move=> E; subst a; apply/matrixP => i j; rewrite mxE big_ord1 (ord1 i).
by case: (c j) => //; rewrite divr1.
Qed.
Lemma solve_rest_ext m I : solve_rest cf' m I = solve_rest cf m I.
Proof.
rewrite /solve_rest (sc_fuel SC) (sc_threshold_score SC) (sc_learning_rate SC) /rest_bounds (sc_psi_max SC); congr bind; apply: gd_ext => x.
  by rewrite /rest_loss (sc_h SC); apply: bind_ext => nm; exact: mscore_ext.
rewrite /rest_gradient (sc_h SC); apply: bind_ext => nm; apply: bind_ext => Ms.
have E1 : \matrix_(y < e, j < p) ((cf_n_obs cf' y)%:R / (\sum_i cf_n_obs cf' i)%N%:R * (Ms y - Ms y *m Ns cf' (mB m) y *m Ms y) j j) =
  \matrix_(y < e, j < p) ((cf_n_obs cf y)%:R / (\sum_i cf_n_obs cf i)%N%:R * (Ms y - Ms y *m Ns cf (mB m) y *m Ms y) j j).
  by apply/matrixP => y j; rewrite [LHS]mxE [RHS]mxE tot_ext Ns_ext HN.
have E2 : \matrix_(y < e, k < l) ((cf_n_obs cf' y)%:R / (\sum_i cf_n_obs cf' i)%N%:R *
     (let T := \matrix_(i, j) (mgamma m k i * mgamma m k j) in \tr (Ms y *m T) - \tr (Ms y *m Ns cf' (mB m) y *m Ms y *m T))) =
  \matrix_(y < e, k < l) ((cf_n_obs cf y)%:R / (\sum_i cf_n_obs cf i)%N%:R *
     (let T := \matrix_(i, j) (mgamma m k i * mgamma m k j) in \tr (Ms y *m T) - \tr (Ms y *m Ns cf (mB m) y *m Ms y *m T))).
  by apply/matrixP => y j; rewrite [LHS]mxE [RHS]mxE tot_ext Ns_ext HN.
cbv zeta in E1, E2 |- *; rewrite E1 E2; congr (Ok (_, _)).
by case: (sc_psi_fixed SC) => [E|-> //]; rewrite !(average_one _ _ E) !if_same.
Qed.
Lemma avg_cov_ext : avg_cov cf' = avg_cov cf.
Proof. by rewrite /avg_cov tot_ext; congr (_ *: _); apply: eq_bigr => k _; rewrite HS HN. Qed.
Lemma initial_model_ext A I : initial_model cf' A I = initial_model cf A I.
Proof.
rewrite /initial_model; have -> : initialize_B cf' A = initialize_B cf A.
  by rewrite /initialize_B; elim: (enum 'I_p) 0 => //= j js IH B; rewrite avg_cov_ext; apply: bind_ext => x.
apply: bind_ext => B; have -> : initialize_gamma cf' B = initialize_gamma cf B.
  by rewrite /initialize_gamma avg_cov_ext (sc_svd SC) (sc_sqrt SC).
apply: bind_ext => g; rewrite (sc_h SC); congr new_model; apply/matrixP => i j; rewrite [LHS]mxE [RHS]mxE tot_ext [X in if _ then X else _]mxE [X in if _ then _ else X / _](eq_bigr (fun k =>
  (\matrix_(i < e, j < p) ((1%:M - B^T) *m cf_sigmas cf i *m (1%:M - B^T)^T) j j) k j * (cf_n_obs cf k)%:R)).
  by rewrite [X in _ = if _ then X else _]mxE HS.
by move=> k _; rewrite [X in X * _]mxE [X in _ = X * _]mxE HS HN.
Qed.
Lemma round_ext I rnd pm : round cf' I rnd pm = round cf I rnd pm.
Proof.
rewrite /round (sc_h SC); apply: bind_ext => c0; rewrite solve_B_ext; apply: bind_ext => nB; rewrite solve_gamma_ext; apply: bind_ext => g.
rewrite solve_rest_ext; apply: bind_ext => x; apply: bind_ext => d; by rewrite mscore_ext.
Qed.
Lemma fit_ext A I im rnd : fit cf' A I im rnd = fit cf A I im rnd.
Proof.
rewrite /fit (sc_h SC) (sc_max_iter SC); apply: bind_ext => d; case: ifP => // _; rewrite initial_model_ext; apply: bind_ext => m.
rewrite mscore_ext; apply: bind_ext => s; congr bind.
suff H k i d0 n pm ps cur : alt_loop cf' k I rnd i d0 n pm ps cur = alt_loop cf k I rnd i d0 n pm ps cur by exact: H.
have HC j d1 n1 : continue cf' j d1 n1 = continue cf j d1 n1.
  by rewrite /continue (sc_dist SC) (sc_max_iter SC) (sc_max_fluctuations SC).
elim: k i d0 n pm ps cur => [|k IH] i d0 n pm ps cur /=; rewrite HC; case: ifP => // _.
by rewrite round_ext; apply: bind_ext => -[[cm cs] dd]; rewrite (sc_fluctuation SC) IH.
Qed.
Lemma score_dag_ext st A I im rnd : score_dag cf' st A I im rnd = score_dag cf st A I im rnd.
Proof. by rewrite /score_dag fit_ext (sc_h SC). Qed.
End Fit.

Lemma sbind_ext (S A B : Type) (x : S * res A) (f g : S -> A -> S * res B) : (forall s a, f s a = g s a) -> sbind x f = sbind x g.
Proof. by move=> H; rewrite /sbind; case: x => s [a|//] /=; exact: H. Qed.

Section Prune.
Variables (F : realFieldType) (p l e : nat) (cf cf' : conf F p l e).
Hypothesis SC : same_conf cf cf'.
Variable rnds : nat -> nat -> 'M[F]_p * 'M[F]_p.

Lemma sdag_ext s A I : sdag cf' rnds s A I = sdag cf rnds s A I.
Proof. by rewrite /sdag (score_dag_ext SC). Qed.
Lemma prune_loop_ext fuel I s dag m : prune_loop cf' rnds fuel I s dag m = prune_loop cf rnds fuel I s dag m.
Proof.
elim: fuel s dag m => [|fuel IH] s dag m /=; case: ifP => // _; case: weakest_edge => // -[i j].
by rewrite sdag_ext; apply: sbind_ext => s1 r; rewrite IH.
Qed.
Lemma prune_graph_ext fuel prune t I s G : prune_graph cf' rnds fuel prune t I s G = prune_graph cf rnds fuel prune t I s G.
Proof.
rewrite /prune_graph sdag_ext; apply: sbind_ext => s1 r; case: ifP => // _; case: t => [t|]; last by rewrite prune_loop_ext.
by case: threshold_graph => // A; rewrite sdag_ext.
Qed.
Lemma prune_each_ext fuel prune t I s Gs : prune_each cf' rnds fuel prune t I s Gs = prune_each cf rnds fuel prune t I s Gs.
Proof. by elim: Gs s => //= G Gs IH s; rewrite prune_graph_ext; apply: sbind_ext => s1 ms; rewrite IH. Qed.
Lemma prune_graphs_ext fuel prune t s Gs : prune_graphs cf' rnds fuel prune t s Gs = prune_graphs cf rnds fuel prune t s Gs.
Proof. by case: Gs => [|G Gs] //; exact: prune_each_ext. Qed.
Lemma prune_I_loop_ext s G I ks : prune_I_loop cf' rnds s G I ks = prune_I_loop cf rnds s G I ks.
Proof. by elim: ks s I => //= k ks IH s I; rewrite sdag_ext; apply: sbind_ext => s1 r; rewrite IH. Qed.
Lemma prune_I_ext sort t s G : prune_I cf' rnds sort t s G = prune_I cf rnds sort t s G.
Proof.
rewrite /prune_I sdag_ext; apply: sbind_ext => s1 r; case: t => [t|]; last by rewrite prune_I_loop_ext.
by case: smax => // v; rewrite sdag_ext.
Qed.
End Prune.

Section Class.
Variables (F : realFieldType) (p e : nat) (w : world F p e) (a : args F).
Local Notation sample := (seq 'rV[F]_p).
Local Notation same := (same_statistics w).
Local Notation same_fold := (same_fold w).

Lemma same_nil : same [::] [::]. Proof. by []. Qed.
Lemma same_nth fold fold' k : same_fold fold fold' -> same (nth [::] fold k) (nth [::] fold' k).
Proof. by move=> H; elim: H k => [|x y xs ys R _ IH] [|k] //=. Qed.
Lemma covs_same fold fold' k : same_fold fold fold' -> covs w (e := e) fold' k = covs w fold k.
Proof. by move=> /(same_nth k) [_]. Qed.
Lemma nobs_same fold fold' k : same_fold fold fold' -> n_obs (e := e) fold' k = n_obs fold k.
Proof. by move=> /(same_nth k) []. Qed.
Lemma train_conf_same tr tr' l : same_fold tr tr' -> same_conf (train_conf w a tr l) (train_conf w a tr' l).
Proof. by move=> H; split=> //=; [move=> k; exact: covs_same|move=> k; exact: nobs_same|right]. Qed.
Lemma too_small_same tr tr' : same_fold tr tr' -> too_small tr' = too_small tr.
Proof. by rewrite /too_small; elim=> [|x y xs ys [E _] _ IH] //=; rewrite E IH. Qed.
Lemma test_scores_same l T fold fold' (ms : seq (model F p l e * T)) : same_fold fold fold' -> test_scores w fold' ms = test_scores w fold ms.
Proof.
move=> H; elim: ms => //= m ms IH; rewrite IH; congr bind; apply: score_ext2 => k; [exact: covs_same|exact: nobs_same].
Qed.
Lemma fit_h_same tr tr' te te' prune t Gs n k : same_fold tr tr' -> same_fold te te' ->
  fit_h w a tr' te' prune t Gs n k = fit_h w a tr te prune t Gs n k.
Proof.
move=> H1 H2; rewrite /fit_h (too_small_same H1); case: ifP => // _; rewrite (prune_graphs_ext (train_conf_same k H1)).
case: prune_graphs => s r; apply: bind_ext => ms; by rewrite (test_scores_same _ H2).
Qed.
Lemma numbers_same tr tr' : same_fold tr tr' -> numbers w a tr' = numbers w a tr.
Proof. by rewrite /numbers; case: (a_nums_latent a) => // H; case: H => [|x y xs ys [_ ->]]. Qed.
Lemma rest_same tr tr' tg tg' ti ti' Gs prune t u : same_fold tr tr' -> same_fold tg tg' -> same_fold ti ti' ->
  bind (numbers w a tr') (fun hs => bind (fit_hs w a tr' tg' prune t Gs [::] 0 hs) (fun d => bind (select_h d) (fun x => fit_I w a tr' ti' u x))) =
  bind (numbers w a tr) (fun hs => bind (fit_hs w a tr tg prune t Gs [::] 0 hs) (fun d => bind (select_h d) (fun x => fit_I w a tr ti u x))).
Proof.
move=> H1 H2 H3; rewrite (numbers_same H1); apply: bind_ext => hs.
have -> d n : fit_hs w a tr' tg' prune t Gs d n hs = fit_hs w a tr tg prune t Gs d n hs.
  by elim: hs d n => //= k hs IH d n; rewrite (fit_h_same _ _ _ _ _ H1 H2); apply: bind_ext.
apply: bind_ext => d; apply: bind_ext => x; rewrite /fit_I (prune_I_ext (train_conf_same _ H1)); case: prune_I => s r.
by apply: bind_ext => rs; rewrite (test_scores_same _ H3).
Qed.

(** The folds of a split: related samples give related folds. *)
Section Split.
Variables (A : Type) (R : seq A -> seq A -> Prop) (sh : nat -> list A -> list A).
Hypothesis RL : forall X X', R X X' -> size X' = size X.
Hypothesis RS : forall k X X' s n, R X X' -> R (slice s n (sh k X)) (slice s n (sh k X')).

Lemma split_rel D D' qs : Forall2 R D D' ->
  match split_data sh D qs, split_data sh D' qs with Ok f, Ok f' => Forall2 (Forall2 R) f f' | Err x, Err x' => x = x' | _, _ => False end.
Proof.
move=> HD; rewrite /split_data; case: negb => //.
have EL : length D' = length D by elim: HD => //= X X' l l' _ _ ->.
rewrite EL; have : Forall2 (Forall2 R) (repeat [::] (length qs)) (repeat [::] (length qs)) by elim: (length qs) => [|n IH] /=; constructor.
move: (repeat [::] (length qs)) => f1 H1.
have {H1} : Forall2 (Forall2 R)
    (fold_left (fun folds es => append_folds folds (cut (length es.2) (sh es.1 es.2) 0 qs)) (combine (List.seq 0 (length D)) D) f1)
    (fold_left (fun folds es => append_folds folds (cut (length es.2) (sh es.1 es.2) 0 qs)) (combine (List.seq 0 (length D)) D') f1).
  suff H n k f0 f0' : Forall2 (Forall2 R) f0 f0' -> Forall2 (Forall2 R)
    (fold_left (fun folds es => append_folds folds (cut (length es.2) (sh es.1 es.2) 0 qs)) (combine (List.seq k n) D) f0)
    (fold_left (fun folds es => append_folds folds (cut (length es.2) (sh es.1 es.2) 0 qs)) (combine (List.seq k n) D') f0') by exact: H.
  elim: HD n k f0 f0' {EL f1 H1} => [|X X' l l' HX HD IH] n k f0 f0' H0; case: n => [|n] //=.
  apply: IH; have EX : length X' = length X by exact: (RL HX).
  rewrite EX /append_folds; move: (length X) 0%N => N s.
  elim: qs s f0 f0' H0 => [|q qs IQ] s f0 f0' H0 /=; first by case: H0 => [|x y xs ys _ _]; constructor.
  case: H0 => [|x y xs ys H1 H2] /=; first by constructor.
  constructor; last exact: IQ.
  by apply: Forall2_app => //; constructor=> //; exact: RS.
case=> [|x y xs ys H1 H2] //=; have -> : length y = length x by elim: H1 => //= ? ? ? ? _ _ ->.
by case: Nat.eqb => //; constructor.
Qed.
End Split.

Lemma fit_all_same data data' ig prune t u seed tr tg ti tr' tg' ti' :
  split_data (w_shuffle w seed) [seq data k | k <- enum 'I_e] (a_folds a) = Ok [:: tr; tg; ti] ->
  split_data (w_shuffle w seed) [seq data' k | k <- enum 'I_e] (a_folds a) = Ok [:: tr'; tg'; ti'] ->
  same_fold tr tr' -> same_fold tg tg' -> same_fold ti ti' ->
  (if ig is Some gs then Ok gs else fit_ges w tr') = (if ig is Some gs then Ok gs else fit_ges w tr) ->
  fit_all w a data' ig prune t u seed = fit_all w a data ig prune t u seed.
Proof.
move=> E E' H1 H2 H3 EG; rewrite /fit_all E E' [LHS]/= [RHS]/= EG; apply: bind_ext => gs; exact: rest_same.
Qed.
Lemma class_statistics candidates data data' prune seed tr tg ti tr' tg' ti' :
  split_data (w_shuffle w 42) [seq data k | k <- enum 'I_e] (a_folds a) = Ok [:: tr; tg; ti] ->
  split_data (w_shuffle w 42) [seq data' k | k <- enum 'I_e] (a_folds a) = Ok [:: tr'; tg'; ti'] ->
  same_fold tr tr' -> same_fold tg tg' -> same_fold ti ti' ->
  equivalence_class w a candidates data' prune seed = equivalence_class w a candidates data prune seed.
Proof. by move=> E E' H1 H2 H3; rewrite /equivalence_class (fit_all_same _ _ _ E E' H1 H2 H3). Qed.

Hypothesis CV : forall X, w_cov w X = np_cov X.
Hypothesis MR : moves_rows w.

Lemma sum_translate (c : 'rV[F]_p) X : \sum_(x <- translate c X) x = \sum_(x <- X) x + (size X)%:R *: c.
Proof. by rewrite big_map big_split /=; congr (_ + _); rewrite big_const_seq count_predT iter_addr_0 scaler_nat. Qed.
Lemma cov_translate (c : 'rV[F]_p) X : np_cov (translate c X) = np_cov X.
Proof.
case: X => [|x0 X]; first by rewrite /np_cov.
have S0 : ((size (x0 :: X))%:R : F) != 0 by rewrite pnatr_eq0.
rewrite /np_cov size_map sum_translate scalerDr scalerA mulVf // scale1r big_map; congr (_ *: _); apply: eq_bigr => x _.
by rewrite opprD addrACA addrN addr0.
Qed.

Definition shifted (X X' : sample) : Prop := exists c, X' = translate c X.
Lemma shifted_same fold fold' : Forall2 shifted fold fold' -> same_fold fold fold'.
Proof. by elim=> [|X X' l l' [c ->] _ IH]; constructor=> //; split; [rewrite size_map|rewrite !CV cov_translate]. Qed.
Lemma split_shifted seed data data' : (forall k, shifted (data k) (data' k)) ->
  match split_data (w_shuffle w seed) [seq data k | k <- enum 'I_e] (a_folds a), split_data (w_shuffle w seed) [seq data' k | k <- enum 'I_e] (a_folds a)
  with Ok f, Ok f' => Forall2 (Forall2 shifted) f f' | Err x, Err x' => x = x' | _, _ => False end.
Proof.
move=> H; apply: split_rel.
- by move=> X X' [c ->]; rewrite size_map.
- by move=> k X X' s n [c ->]; exists c; rewrite MR /slice skipn_map firstn_map.
by elim: (enum 'I_e) => [|k ks IH]; constructor.
Qed.
Lemma fit_all_shifted data data' ig prune t u seed : (forall k, shifted (data k) (data' k)) ->
  (forall tr tr', Forall2 shifted tr tr' -> ig = None ->
     (exists rest, split_data (w_shuffle w seed) [seq data k | k <- enum 'I_e] (a_folds a) = Ok (tr :: rest)) ->
     (exists rest, split_data (w_shuffle w seed) [seq data' k | k <- enum 'I_e] (a_folds a) = Ok (tr' :: rest)) -> fit_ges w tr' = fit_ges w tr) ->
  fit_all w a data' ig prune t u seed = fit_all w a data ig prune t u seed.
Proof.
move=> H HG; have := split_shifted seed H; case E : split_data => [f|x]; case E' : split_data => [f'|x'] // HF; last by rewrite /fit_all E E' HF.
have L : length f' = length f by elim: HF => //= ? ? ? ? _ _ ->.
case: HF E E' L => [|tr tr' f1 f1' H1 HF] E E' L; first by rewrite /fit_all E E'.
case: HF E E' L => [|tg tg' f2 f2' H2 HF] E E' L; first by rewrite /fit_all E E'.
case: HF E E' L => [|ti ti' f3 f3' H3 HF] E E' L; first by rewrite /fit_all E E'.
case: HF E E' L => [|x y f4 f4' H4 HF] E E' L; last by rewrite /fit_all E E'.
apply: (fit_all_same _ _ _ E E'); try exact: shifted_same.
by case: ig HG => // HG; apply: HG; rewrite // ?E ?E'; eexists.
Qed.

Lemma class_translate (c : 'I_e -> 'rV[F]_p) candidates data data' prune seed : (forall k, data' k = translate (c k) (data k)) ->
  equivalence_class w a candidates data' prune seed = equivalence_class w a candidates data prune seed.
Proof.
by move=> H; rewrite /equivalence_class (@fit_all_shifted data data') // => k; exists (c k).
Qed.
Lemma ges_translate (c : 'rV[F]_p) data data' seed : (forall X lambda, w_ges w (translate c X) lambda = w_ges w X lambda) ->
  (forall k, data' k = translate c (data k)) ->
  equivalence_class_w_ges w a data' seed = equivalence_class_w_ges w a data seed.
Proof.
move=> HW H; suff E : fit_all w a data' None true None None 42 = fit_all w a data None true None None 42 by rewrite /equivalence_class_w_ges E.
apply: fit_all_shifted => [k|tr tr' _ _ [r ES] [r' ES']]; first by exists c.
have : split_data (w_shuffle w 42) [seq data' k | k <- enum 'I_e] (a_folds a) =
  res_map (List.map (List.map (List.map (fun x => x + c)))) (split_data (w_shuffle w 42) [seq data k | k <- enum 'I_e] (a_folds a)).
  rewrite -(@split_data_map _ _ (fun x => x + c) (w_shuffle w 42) (w_shuffle w 42)) => [|k X]; last exact: MR.
  by congr split_data; elim: (enum 'I_e) => //= k ks ->; rewrite H.
rewrite ES ES' => -[-> _]; rewrite /fit_ges -/(translate c) -[List.map _ tr]/(map (translate c) tr) -map_flatten -/(translate c _) size_map HW.
by [].
Qed.
End Class.
