(** Termination of the entry points. *)
From Coq Require Import ZArith QArith_base Lia List.
From mathcomp Require Import all_ssreflect all_algebra.
From Verif Require Import Base GraphModel GraphSpec EnumProofs ListModel NumModel NumSpec ScoreModel CacheSpec ScoreSpec GradSpec OptSpec MainModel MainSpec TermSpec.
From Verif Require Import TopoProofs MeekProofs ListProofs EdgeProofs NumProofs ScoreProofs NoErrProofs PruneProofs PruneIProofs SelectProofs FitProofs TotalProofs ClassProofs TermProofs Term2Proofs MainTermProofs.
Set Implicit Arguments.
Unset Strict Implicit.
Unset Printing Implicit Defensive.
Import Order.Theory GRing.Theory Num.Theory.
Local Open Scope nat_scope.
Local Open Scope ring_scope.

Section Class.
Variables (F : archiFieldType) (p e : nat) (w : world F p e) (a : args F).
Local Notation wk := (w_with_fuel w).
Variables (data : 'I_e -> seq 'rV[F]_p) (prune : bool) (seed : nat) (training test_graph test_I : seq (seq 'rV[F]_p)) (hs : seq nat).
Hypothesis Es : split_data (w_shuffle w 42) [seq data k | k <- enum 'I_e] (a_folds a) = Ok [:: training; test_graph; test_I].
Hypothesis Eh : numbers w a training = Ok hs.
Hypothesis NH : hs <> [::].
Hypothesis HH : forall h, List.In h hs -> (h <= p)%N /\ (prune = true -> forall k, some_weight (train_conf (wk k) a training h)).
Hypothesis p0 : (0 < p)%N.
Hypothesis e0 : (0 < e)%N.
Hypothesis PS : forall k, posdef (covs w training k) /\ (1 < n_obs training k)%N.
Hypothesis LT : forall k, log_tangent (w_log w) p (\det (covs w training k))^-1.
Hypothesis T0 : 0 < a_threshold_score a.
Hypothesis U : forall u, a_psi_max a = Some u -> 1 < u.
Hypothesis MI : (0 < a_max_iter a)%N.
Hypothesis MF : (0 < a_max_fluctuations a)%N.
Hypothesis HR : a_solver a = Grad -> forall h n k, nontrivial (w_rnds w h n k).1.
(** The exceptions of the solver for B *)
Variable ok : exn -> Prop.
Hypothesis OI : ok IndexError.
Hypothesis OV : ok ValueError.
Hypothesis OU : ok UnboundLocalError.
Hypothesis OL : ok OtherException.
Hypothesis OF : ~ ok OutOfFuel.
Hypothesis BE : forall h A (m : model F p h e) rnd rnd', List.In h hs -> dag p A ->
  mA m = A -> positive (momegas m) -> (forall a b, 0 <= mpsis m a b) ->
  exists r, settles (fun k => solve_B (train_conf (wk k) a training h) m rnd rnd') r /\ fine ok r.

Let PS1 k : posdef (covs w training k). Proof. by have [] := PS k. Qed.
Let PS2 (k : 'I_e) : (0 < n_obs training k)%N. Proof. by have [_ /ltnW] := PS k. Qed.
Let TS : too_small training = false.
Proof.
have SZ : size training = e by have := split_size Es; rewrite -[length (map _ _)]/(size _) size_map size_enum_ord.
apply/negP => /hasP [X /(nthP [::]) [i Hi <-] /eqP E]; rewrite SZ in Hi.
by have [_] := PS (Ordinal Hi); rewrite /n_obs E.
Qed.

Lemma class_fits h : List.In h hs -> fits w a ok training prune h.
Proof.
move=> Hh; have [lp SW] := HH Hh; split=> // A I n m [[SA NA] AA].
have U0 u : a_psi_max a = Some u -> 0 <= u by move=> /U Hu; apply: le_trans ler01 (ltW Hu).
apply: (@fit_term_ok F p h e (train_conf w a training h) A SA NA AA PS1 LT T0 ok _ p0 U0) => //.
- by move=> m0 rnd rnd' EA Ho Hs; apply: (@BE h A m0 rnd rnd' Hh).
- by move=> Sg k; apply: HR.
Qed.

Definition outcome (T : Type) (r : res T) : Prop :=
  (exists x, r = Ok x) \/ exists y, [/\ r = Err y, ok y, a_solver a = Cvx & y = TypeError \/ y = AssertionError].

Lemma fit_all_outcome ig graphs : (ig = Some graphs \/ ig = None /\ fit_ges w training = Ok graphs) ->
  Forall (dag p) graphs -> graphs <> [::] ->
  exists r, settles (fun k => fit_all (wk k) a data ig prune None None 42) r /\ outcome r.
Proof.
move=> Eg GG NG; have [r [Hr Nr]] := @fit_all_ends F p e w a ok OI OV OL data ig prune 42 _ _ _ _ _ Es Eg Eh GG class_fits.
exists r; split=> //; have [n Hn] := Hr; pose k := maxn n (p * p); have Ek := Hn k (leq_maxl _ _).
have G1 : Forall (graph p) graphs by apply: Forall_impl GG => G [].
have G2 : Forall acyclic graphs by apply: Forall_impl GG => G [].
have PR h : List.In h hs -> prunable (wk k) a prune training h.
  by move=> /HH [_ SW] P; split; [apply: SW | apply: leq_maxr].
have [[x E]|[h [m [x [Hh E H]]]]] := @fit_all_total F p e (wk k) a data ig prune 42 _ _ _ _ _ Es Eg Eh G1 NG NH TS PR.
  by left; exists x; rewrite -Ek.
right; exists x; rewrite -Ek; split=> //; first by apply: Nr; rewrite -Ek.
all: have [Ex|[S1 S2]] := @failed_stuck F p e h (train_conf (wk k) a training h) (w_rnds w m) graphs x G1 G2 p0 e0 PS1 PS2
  (HH Hh).1 U MI MF (fun S => HR S m) H => //.
all: by case: OF; rewrite -Ex; apply: Nr; rewrite -Ek.
Qed.

Lemma icpdag_outcome graphs : Forall (dag p) graphs -> graphs <> [::] ->
  exists r, settles (fun k => equivalence_class (wk k) a graphs data prune seed) r /\ outcome r.
Proof.
move=> GG NG; have [r [[n Hn] Hr]] := fit_all_outcome (or_introl erefl) GG NG; rewrite /equivalence_class.
case: Hr Hn => [[[[am J] sc] ->]|[y [-> H1 H2 H3]]] Hn; last first.
  by exists (Err y); split; [exists n => k /Hn -> | right; exists y].
have G1 : Forall (graph p) graphs by apply: Forall_impl GG => G [].
have [||tr [tg [ti [gs' [hs' [k [v [_ _ _ _ [[[SA NA] AC _ _ _] _ _]]]]]]]]] := fit_all_spec _ _ (Hn n (leqnn n)) => //.
  by move=> gs [<-].
have [M [EM _]] := dag_to_icpdag_spec (w_h w) p _ J SA NA AC.
exists (Ok (M, J, am)); split; last by left; eexists.
by exists n => k0 /Hn ->; rewrite /= EM.
Qed.
End Class.

(** _fit with the DAGs of GES *)
Lemma fit_all_ges (F : realFieldType) (p e : nat) (w : world F p e) (a : args F) data prune t1 t2 seed training test_graph test_I graphs :
  split_data (w_shuffle w seed) [seq data k | k <- enum 'I_e] (a_folds a) = Ok [:: training; test_graph; test_I] ->
  fit_ges w training = Ok graphs -> fit_all w a data None prune t1 t2 seed = fit_all w a data (Some graphs) prune t1 t2 seed.
Proof. by move=> Es Eg; rewrite /fit_all Es /= Eg. Qed.

(** B of a fitted model is an answer of the solver for B. *)
Lemma fit_solved (F : realFieldType) (p l e : nat) (cf : conf F p l e) A I rnd m s : graph p A -> fit cf A I None rnd = Ok (m, s) ->
  acyclic A /\ exists m0 r r', mA m0 = A /\ solve_B cf m0 r r' = Ok (mB m).
Proof.
move=> [SA NA] E; case: (fit_start SA NA _ E) => // m0 [s0 [EA E1 _ _ EL]].
case: (alt_loop_last SA NA EA _ EL) => // j [pm [d [EP ER]]].
case: (round_ok SA NA EP ER) => [[AA _ _ _] [EB _ _ _]].
split=> //; by do 3! eexists; split; last exact: EB.
Qed.

Section Cvx.
Variables (F : realFieldType) (p e : nat) (w : world F p e) (a : args F).
Hypothesis EC : a_solver a = Cvx.
Hypothesis CA : cvx_answers w.

Lemma answers_solve training h (m : model F p h e) B : w_cvx w m = Some B -> supported (mA m) B ->
  positive (momegas m) -> (forall a b, 0 <= mpsis m a b) -> solve_B_cvx (train_conf w a training h) m = Ok B.
Proof.
move=> EB SB Ho Hs; have Z0B (i j : 'I_p) : Z.eqb (get (mA m) i j) Z0 -> B i j = 0.
  by move=> Eij; apply/eqP/negPn/negP => /SB; rewrite /edge; move/Z.eqb_eq: Eij.
rewrite /solve_B_cvx inv_noise_ok //= EB; case: ifP => [_|/forallP].
  by congr Ok; apply/matrixP => i j; rewrite mxE; case: ifP => // /Z0B ->.
case=> i; apply/forallP => j; apply/implyP => /Z0B ->.
by rewrite normr0 invr_ge0 exprn_ge0 // ler0n.
Qed.

Lemma answers_weight training h : some_weight (train_conf w a training h).
Proof.
move=> A I rnd m s GA E HE; have [AA [m0 [r [r' [EA]]]]] := fit_solved GA E.
rewrite /solve_B /= EC /solve_B_cvx; case: inv_noise => //= _; 
have [||B [EB SB NB]] := @CA h m0; [by rewrite EA | by rewrite EA | rewrite EB].
have -> : \matrix_(i, j) (if Z.eqb (get (mA m0) i j) Z0 then 0 else B i j) = B.
  apply/matrixP => i j; rewrite mxE; case: ifP => // /Z.eqb_eq Eij.
  by apply/esym/eqP/negPn/negP => /SB; rewrite /edge Eij.
by case: ifP => // _ [<-]; apply: NB; rewrite EA.
Qed.
End Cvx.

Section Ends.
Variables (F : archiFieldType) (p e : nat) (w : world F p e) (a : args F).
Local Notation wk := (w_with_fuel w).

Lemma class_ends data candidates prune seed training test_graph test_I hs :
  split_data (w_shuffle w 42) [seq data k | k <- enum 'I_e] (a_folds a) = Ok [:: training; test_graph; test_I] ->
  numbers w a training = Ok hs -> hs <> [::] ->
  (forall h, List.In h hs -> (h <= p)%N /\ (prune = true -> forall k, some_weight (train_conf (wk k) a training h))) ->
  candidates <> [::] -> Forall (graph p) candidates -> Forall acyclic candidates ->
  (0 < p)%N -> (0 < e)%N ->
  (forall k, posdef (covs w training k) /\ (1 < n_obs training k)%N) ->
  (forall k, log_tangent (w_log w) p (\det (covs w training k))^-1) -> 0 < a_threshold_score a ->
  (forall u, a_psi_max a = Some u -> 1 < u) -> (0 < a_max_iter a)%N -> (0 < a_max_fluctuations a)%N ->
  (a_solver a = Grad -> forall h n k, nontrivial (w_rnds w h n k).1) ->
  (forall h A, List.In h hs -> graph p A -> acyclic A -> B_ends (train_conf w a training h) A) ->
  exists r, settles (fun k => equivalence_class (wk k) a candidates data prune seed) r /\
    ((exists x, r = Ok x) \/ a_solver a = Cvx /\ (r = Err TypeError \/ r = Err AssertionError)).
Proof.
move=> Es Eh NH HH NC GC AC p0 e0 PS LT T0 U MI MF HR BE.
have DC : Forall (dag p) candidates.
  by apply/Forall_forall => G HG; split; [move/Forall_forall: GC | move/Forall_forall: AC]; apply.
have BE' h A (m : model F p h e) rnd rnd' : List.In h hs -> dag p A ->
    mA m = A -> positive (momegas m) -> (forall a b, 0 <= mpsis m a b) ->
    exists r, settles (fun k => solve_B (train_conf (wk k) a training h) m rnd rnd') r /\ fine (fun x => x <> OutOfFuel) r.
  move=> Hh [GA AA] EA Ho Hs; have [r [Hr Nr]] := @BE h A Hh GA AA m rnd rnd' EA Ho Hs.
  by exists r; split=> // x Ex Ex'; apply: Nr; rewrite Ex Ex'.
have [//|//|//|//||r [Hr Or]] := @icpdag_outcome F p e w a data prune seed training test_graph test_I hs Es Eh NH HH p0 e0 PS LT T0 U MI MF HR
  (fun x => x <> OutOfFuel) _ _ _ _ _ BE' candidates DC NC; first by move=> /(_ erefl).
exists r; split=> //; case: Or => [H|[y [-> _ H1 [->|->]]]]; [by left | by right; split=> //; left | by right; split=> //; right].
Qed.

Lemma class_returns data candidates prune seed training test_graph test_I hs :
  split_data (w_shuffle w 42) [seq data k | k <- enum 'I_e] (a_folds a) = Ok [:: training; test_graph; test_I] ->
  numbers w a training = Ok hs -> hs <> [::] -> (forall h, List.In h hs -> (h <= p)%N) ->
  candidates <> [::] -> Forall (graph p) candidates -> Forall acyclic candidates ->
  (0 < p)%N -> (0 < e)%N ->
  (forall k, posdef (covs w training k) /\ (1 < n_obs training k)%N) ->
  (forall k, log_tangent (w_log w) p (\det (covs w training k))^-1) -> 0 < a_threshold_score a ->
  (forall u, a_psi_max a = Some u -> 1 < u) -> (0 < a_max_iter a)%N -> (0 < a_max_fluctuations a)%N ->
  a_solver a = Cvx -> cvx_answers w ->
  exists x, settles (fun k => equivalence_class (wk k) a candidates data prune seed) (Ok x).
Proof.
move=> Es Eh NH HH NC GC AC p0 e0 PS LT T0 U MI MF EC CA.
have DC : Forall (dag p) candidates.
  by apply/Forall_forall => G HG; split; [move/Forall_forall: GC | move/Forall_forall: AC]; apply.
pose ok x := [\/ x = IndexError, x = ValueError, x = UnboundLocalError | x = OtherException].
have BE h A (m : model F p h e) rnd rnd' : List.In h hs -> dag p A ->
    mA m = A -> positive (momegas m) -> (forall a b, 0 <= mpsis m a b) ->
    exists r, settles (fun k => solve_B (train_conf (wk k) a training h) m rnd rnd') r /\ fine ok r.
  move=> Hh [GA AA] EA Ho Hs; have [||B [EB SB _]] := @CA h m; [by rewrite EA | by rewrite EA | exists (Ok B)]; split=> //; exists 0%N => k _.
  by rewrite /solve_B /= EC; apply: (@answers_solve F p e (wk k) a training h m B).
have HH' h : List.In h hs -> (h <= p)%N /\ (prune = true -> forall k, some_weight (train_conf (wk k) a training h)).
  by move=> /HH Hh; split=> // _ k; apply: answers_weight.
have HR : a_solver a = Grad -> forall h n k, nontrivial (w_rnds w h n k).1 by rewrite EC.
have OF : ~ ok OutOfFuel by case.
have [r [Hr Or]] := @icpdag_outcome F p e w a data prune seed training test_graph test_I hs Es Eh NH HH' p0 e0 PS LT T0 U MI MF HR
  ok (Or41 _ _ _ erefl) (Or42 _ _ _ erefl) (Or43 _ _ _ erefl) (Or44 _ _ _ erefl) OF BE candidates DC NC.
case: Or Hr => [[x ->] Hr|[y [_ Oy _ [Ey|Ey]]]]; first by exists x.
all: by move: Oy; rewrite Ey => -[].
Qed.

(** equivalence_class_w_ges runs equivalence_class, with pruning, on the DAGs of the class found by GES. *)
Lemma ges_candidates data seed training test_graph test_I :
  split_data (w_shuffle w 42) [seq data k | k <- enum 'I_e] (a_folds a) = Ok [:: training; test_graph; test_I] ->
  ges_pdag w -> exists gs,
  (forall D, List.In D gs <-> dag01 p D /\ consistent_ext D (w_ges w (flatten training) (w_log w (size (flatten training))%:R))) /\
  forall k, equivalence_class_w_ges (wk k) a data seed = equivalence_class (wk k) a gs data true seed.
Proof.
move=> Es HP; have [gs [Eg Hg]] := fit_ges_spec training HP; exists gs; split=> // k.
by rewrite /equivalence_class_w_ges (@fit_all_ges F p e (wk k) a data true None None 42 _ _ _ _ Es Eg).
Qed.

Lemma ges_returns data seed training test_graph test_I hs :
  split_data (w_shuffle w 42) [seq data k | k <- enum 'I_e] (a_folds a) = Ok [:: training; test_graph; test_I] ->
  numbers w a training = Ok hs -> hs <> [::] -> (forall h, List.In h hs -> (h <= p)%N) ->
  ges_pdag w -> (exists D, dag01 p D /\ consistent_ext D (w_ges w (flatten training) (w_log w (size (flatten training))%:R))) ->
  (0 < p)%N -> (0 < e)%N ->
  (forall k, posdef (covs w training k) /\ (1 < n_obs training k)%N) ->
  (forall k, log_tangent (w_log w) p (\det (covs w training k))^-1) -> 0 < a_threshold_score a ->
  (forall u, a_psi_max a = Some u -> 1 < u) -> (0 < a_max_iter a)%N -> (0 < a_max_fluctuations a)%N ->
  a_solver a = Cvx -> cvx_answers w ->
  exists x, settles (fun k => equivalence_class_w_ges (wk k) a data seed) (Ok x).
Proof.
move=> Es Eh NH HH HP [D HD] p0 e0 PS LT T0 U MI MF EC CA.
have [gs [Hg E]] := ges_candidates seed Es HP.
have NG : gs <> [::] by move=> N; move/Hg: HD; rewrite N.
have G1 : Forall (graph p) gs by apply/Forall_forall => G /Hg [[SG [BG _]] _]; split=> //; apply: binary_nonneg.
have G2 : Forall acyclic gs by apply/Forall_forall => G /Hg [[_ [_ AG]] _].
have [x [n Hn]] := class_returns true seed Es Eh NH HH NG G1 G2 p0 e0 PS LT T0 U MI MF EC CA.
by exists x, n => k /Hn <-.
Qed.
End Ends.
