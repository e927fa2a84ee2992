(** Normal equations of the initial B, and concrete runs that contradict C41, C43, C45, C46, C47 and C49. *)
From Coq Require Import ZArith Lia List.
From mathcomp Require Import all_ssreflect all_algebra.
From Verif Require Import Base GraphModel GraphSpec TopoProofs NumModel NumSpec LinAlgProofs NumProofs ScoreModel CacheSpec CacheProofs.
From Verif Require Import ScoreSpec GDProofs ScoreProofs HistProofs LoopProofs Lr0Proofs NoErrProofs.
Set Implicit Arguments.
Unset Strict Implicit.
Unset Printing Implicit Defensive.
Import Order.Theory GRing.Theory Num.Theory.
Local Open Scope ring_scope.

Section Normal.
Variables (F : realFieldType) (p l e : nat) (cf : conf F p l e) (A : mat).
Hypothesis avg_sym : (avg_cov cf)^T = avg_cov cf.

Lemma pa_ofP (i j : 'I_p) : reflect (edge A i j) (i \in pa_of A j).
Proof.
rewrite mem_filter mem_enum andbT /edge; apply: (iffP negP) => H E; apply: H; [exact/Z.eqb_eq | exact/Z.eqb_eq].
Qed.

Lemma init_cols_normal js (B B' : 'M[F]_p) : uniq js -> supported A B -> init_cols cf A js B = Ok B' ->
  (forall i j, j \notin js -> B' i j = B i j) /\
  (forall i j : 'I_p, j \in js -> edge A i j -> (avg_cov cf *m B') i j = avg_cov cf i j).
Proof.
elim: js B => [|j js IH] B /=; first by move=> _ _ [<-].
case/andP=> Nj U SB; case ER: regress => [x|] //= EI.
have SB1 : supported A (set_col B j x).
  move=> i k; rewrite mxE; case: ifP => [/andP [/eqP -> /pa_ofP //]|_]; exact: SB.
case: (IH _ U SB1 EI) => H1 H2; split.
  move=> i k; rewrite inE negb_or => /andP [Nk Nk']; rewrite H1 // mxE (negbTE Nk) //.
move=> i k; rewrite inE => /orP [/eqP ->|Hk] Eij; last exact: H2.
move: ER; rewrite /regress; set S := \matrix_(a, b) _; case: ifP => // US [Ex].
have : S *m x = \col_a avg_cov cf j (nth j (pa_of A j) a) by rewrite -Ex mulKVmx.
rewrite /S; clear S US Ex; have := avg_sym; move: (avg_cov cf) => C CS E2.
have Hi : i \in pa_of A j by apply/pa_ofP.
have Li : (index i (pa_of A j) < size (pa_of A j))%N by rewrite index_mem.
have /matrixP /(_ (Ordinal Li) 0) := E2; rewrite !mxE /= nth_index //.
have -> : C j i = C i j by rewrite -[in LHS]CS mxE.
move=> <-.
transitivity (\sum_k C i k * (if k \in pa_of A j then \sum_(a < size (pa_of A j) | nth j (pa_of A j) a == k) x a 0 else 0)).
  apply: eq_bigr => k' _; congr (_ * _); rewrite H1 // mxE eqxx /=; case: ifP => // /negP Hk'.
  by apply/eqP; apply: contraT => /SB /pa_ofP.
transitivity (\sum_k \sum_(a < size (pa_of A j) | nth j (pa_of A j) a == k) C i k * x a 0).
  apply: eq_bigr => k' _; case: ifP => [_|/negbT Hk']; first by rewrite mulr_sumr.
  rewrite mulr0 big_pred0 // => a; apply/negbTE; apply: contra Hk' => /eqP <-; exact: mem_nth.
rewrite (exchange_big_dep xpredT) //=; apply: eq_bigr => a _.
by rewrite (big_pred1 (nth j (pa_of A j) a)) => [|k']; rewrite ?mxE ?nth_index // eq_sym.
Qed.

Lemma initialize_B_normal B : initialize_B cf A = Ok B ->
  supported A B /\ forall i j : 'I_p, edge A i j -> (avg_cov cf *m B) i j = avg_cov cf i j.
Proof.
move=> E; split; first exact: (initialize_B_supported E).
move=> i j; have [|_ H] := init_cols_normal (enum_uniq _) _ E; first by move=> ? ?; rewrite mxE eqxx.
by apply: H; rewrite mem_enum.
Qed.
End Normal.

Section One.
(** One variable, no latents *)
Variables (F : realFieldType) (log : F -> F) (h : hord) (e : nat).

Definition conf1 (solver : bsolver) : conf F 1 0 e :=
  Conf log h id (fun=> Some 0) (fun=> (0, 0)) id (fun=> true) (fun=> 1%:M) (fun=> 1%N) None false 1 0 0 1 0 0 solver 2.
Local Notation model := (model F 1 0 e).

Lemma A1_no_edge i j : ~ edge A1 i j.
Proof. by case: i => [|[|i]]; case: j => [|[|j]]; apply. Qed.

Lemma supported_A1 (B : 'M[F]_1) : supported A1 B -> B = 0.
Proof.
by move=> SB; apply/matrixP => i j; rewrite mxE; apply/eqP; apply: contraT => /SB /A1_no_edge.
Qed.
Lemma supported_0 : supported A1 (0 : 'M[F]_1).
Proof. by move=> i j; rewrite mxE eqxx. Qed.

Lemma range1 (m : model) : positive (momegas m) -> in_range None m.
Proof. by move=> H; split=> // i []. Qed.

Lemma big1 (X : 'M[F]_1) : \big[Order.max/0]_(i < 1) \big[Order.max/0]_(j < 1) `|X i j| = `|X 0 0|.
Proof.
rewrite !big_ord_recl !big_ord0 /=.
by rewrite ![Order.max _ 0]max_l // normr_ge0.
Qed.
Lemma amax1 (X : 'M[F]_1) : amax X = Ok `|X 0 0|.
Proof. by rewrite /amax /= big1. Qed.

Lemma solve_B1 solver (m : model) rnd rnd' : mA m = A1 -> positive (momegas m) ->
  (solver = Cvx \/ solver = Grad /\ rnd = 1%:M) -> solve_B (conf1 solver) m rnd rnd' = Ok 0.
Proof.
move=> EA Ho; have Hs a b : 0 <= mpsis m a b by case: b.
case=> [->|[-> ->]]; rewrite /solve_B /=.
  rewrite /solve_B_cvx inv_noise_ok //=; case: ifP => [_|/negP[]].
    by congr Ok; apply/matrixP => i j; rewrite !mxE; case: ifP.
  by apply/forallP => i; apply/forallP => j; apply/implyP => _; rewrite mxE normr0 invr_ge0 exprn_ge0 ?ler0n.
rewrite /solve_B_grad inv_noise_ok //=.
have P X : pattern (mA m) X = 1%:M :> 'M[F]_1.
  by apply/matrixP => i j; rewrite !mxE !ord1 eqxx.
have c0 : 0 <= (10%:R ^+ 10)^-1 :> F by rewrite invr_ge0 exprn_ge0 ?ler0n.
rewrite !P !big1 !mxE /= subrr normr0 sub0r normrN1 [_ < 0]ltNge c0 /=.
have -> : (10%:R ^+ 10)^-1 < 1 :> F by rewrite invf_lt1 ?exprn_egt1 ?exprn_gt0 ?ltr0n ?ltr1n.
have L0 : 0 < 5%:R / 1000%:R :> F by rewrite divr_gt0 ?ltr0n.
by rewrite gt_eqF //= L0 subrr trmx0.
Qed.

(** A zero starting point *)
Lemma solve_B1_zero (m : model) rnd' : positive (momegas m) -> solve_B (conf1 Grad) m 0 rnd' = Ok 1%:M.
Proof.
move=> Ho; have Hs a b : 0 <= mpsis m a b by case: b.
rewrite /solve_B /= /solve_B_grad inv_noise_ok //= !big1 !mxE subr0 normr0.
rewrite ltNge invr_ge0 exprn_ge0 ?ler0n //=.
have -> : 0 < 5%:R / 1000%:R :> F by rewrite divr_gt0 ?ltr0n.
by rewrite subr0 trmx1.
Qed.

Lemma fit1 solver init I rnd (pm : model) : mA pm = A1 -> positive (momegas pm) -> mB pm = 0 ->
  (if init is Some m0 then m0 = pm else initial_model (conf1 solver) A1 I = Ok pm) ->
  (solver = Cvx \/ solver = Grad /\ (rnd 0%N).1 = 1%:M) ->
  exists s, fit (conf1 solver) A1 I init rnd = Ok (MkModel A1 0 (mgamma pm) (momegas pm) (mpsis pm) (1%:M - 0^T), s).
Proof.
move=> EA Ho EB EI HS; have Hs a b : 0 <= mpsis pm a b by case: b.
have [s0 Es0] := mscore_ok (conf1 solver) Ho Hs.
have R := range1 Ho.
have EB' : solve_B (conf1 solver) (MkModel A1 (mB pm) (mgamma pm) (momegas pm) (mpsis pm) (1%:M - (mB pm)^T)) (rnd 0%N).1 (rnd 0%N).2 = Ok 0.
  exact: solve_B1.
have SP : supported A1 (mB pm) by rewrite EB; apply: supported_0.
case: (@fit_lr0 F 1 0 e (conf1 solver) A1 A1_sq A1_nonneg A1_acyclic erefl erefl I init rnd pm s0 0 _ erefl erefl EI Es0 EA SP R _ EB' supported_0 (amax1 _))
  => // s [_ E]; exists s; by rewrite E EB.
Qed.
End One.

Lemma conf1_sigma (F : realFieldType) log h e solver k : posdef (cf_sigmas (@conf1 F log h e solver) k).
Proof.
split; first by rewrite trmx1.
move=> x Nx; rewrite /= mulmx1 mxE big_ord1 mxE -expr2 exprn_even_gt0 //=.
by apply: contra Nx => /eqP E; apply/eqP/matrixP => i j; rewrite mxE !ord1.
Qed.

Lemma init1 (F : realFieldType) log h e solver I : (0 < e)%N ->
  exists pm : model F 1 0 e, [/\ initial_model (conf1 log h e solver) A1 I = Ok pm, mA pm = A1, positive (momegas pm) & mB pm = 0].
Proof.
move=> e0.
case: (@initial_model_ok F 1 0 e (conf1 log h e solver) A1 A1_sq A1_nonneg A1_acyclic e0 (@conf1_sigma F log h e solver) (fun=> erefl) I erefl)
  => // m [s [EI _ EA SB [Ho _ _]]].
by exists m; split=> //; apply: supported_A1.
Qed.

Lemma call_fresh (F : realFieldType) p l e (cf : conf F p l e) c r : proper c ->
  fit cf (cl_A c) (cl_I c) (cl_init c) (cl_rnd c) = Ok r -> (do_call cf (fresh F p l e true) c).2 = Ok r.
Proof.
case: r => m s P E; case: (fit_copy P E) => m' [EC _ _].
by rewrite /do_call /score_dag /= E /write /= EC; case: (cl_init c).
Qed.

(** C43: the same call succeeds on a fresh object and fails after the pair was scored. *)
Lemma init_model_refuted (F : realFieldType) (log : F -> F) (h : hord) :
  exists (cf : conf F 1 0 1) c c' r r', [/\ proper c, proper c', acyclic (cl_A c'), cl_init c' <> None &
    [/\ (do_call cf (fresh F 1 0 1 true) c).2 = Ok r, (do_call cf (fresh F 1 0 1 true) c').2 = Ok r' &
        (do_call cf (run cf (fresh F 1 0 1 true) [:: c]) c').2 = Err ValueError]].
Proof.
case: (@init1 F log h 1 Cvx [::] erefl) => pm [EI EA Ho EB].
set cf := conf1 log h 1 Cvx; pose c : call F 1 0 1 := Call A1 [::] None (fun=> (0, 0)); pose c' : call F 1 0 1 := Call A1 [::] (Some pm) (fun=> (0, 0)).
have [s E1] := @fit1 F log h 1 Cvx None [::] (fun=> (0, 0)) pm EA Ho EB EI (or_introl erefl).
have [s' E2] := @fit1 F log h 1 Cvx (Some pm) [::] (fun=> (0, 0)) pm EA Ho EB erefl (or_introl erefl).
have P1 : proper c by split=> //; [exact: A1_sq | exact: A1_nonneg].
have P2 : proper c' by split=> //; [exact: A1_sq | exact: A1_nonneg | move=> m [<-]; rewrite EA; exact: A1_sq].
exists cf, c, c'; eexists; eexists; split=> //; first exact: A1_acyclic.
split; [exact: (call_fresh P1 E1) | exact: (call_fresh P2 E2) |].
have := @init_after_scored F 1 0 1 cf [::] c _ _ c' _ (Forall_nil _) P1 P2 erefl (conj (incl_refl _) (incl_refl _)) _ (call_fresh P1 E1) E2.
by move=> -> //.
Qed.

(** C47: the result of a call with an initial model is returned to a call without. *)
Lemma constraint_refuted (F : realFieldType) (log : F -> F) (h : hord) :
  exists (cf : conf F 1 0 2) c0 c m s, [/\ proper c0, proper c, cl_init c = None, ~ In 0%N (cl_I c) &
    (do_call cf (run cf (fresh F 1 0 2 true) [:: c0]) c).2 = Ok (m, s) /\ ~ const_col (momegas m) 0].
Proof.
set o : 'M[F]_(2, 1) := \matrix_(i, j) (1 + (i : nat)%:R).
set pm : model F 1 0 2 := MkModel A1 0 0 o 0 (1%:M - 0^T).
have Ho : positive o by move=> i j; rewrite mxE; apply: ltr_paddr; rewrite ?ler0n ?ltr01.
set cf := conf1 log h 2 Cvx; pose c0 := Call A1 [::] (Some pm) (fun=> (0, 0)); pose c : call F 1 0 2 := Call A1 [::] None (fun=> (0, 0)).
have [s E1] := @fit1 F log h 2 Cvx (Some pm) [::] (fun=> (0, 0)) pm erefl Ho erefl erefl (or_introl erefl).
have P0 : proper c0 by split=> //; [exact: A1_sq | exact: A1_nonneg | move=> m [<-]; exact: A1_sq].
have P1 : proper c by split=> //; [exact: A1_sq | exact: A1_nonneg].
case: (@repeatable F 1 0 2 cf [::] c0 [::] c _ _ (Forall_nil _) (Forall_nil _) P0 erefl (conj (incl_refl _) (incl_refl _)) erefl (call_fresh P0 E1))
  => m [E [_ _ _ Eo _]].
exists cf, c0, c, m, s; split=> //; split; first by move: E; rewrite /run /= => ->.
move=> /(_ 0 1); rewrite -Eo /= !mxE /= => /eqP; rewrite -subr_eq0 opprD addrACA subrr add0r sub0r oppr_eq0.
by rewrite pnatr_eq0.
Qed.

(** C49: a starting point that is numerically zero. *)
Lemma zero_draw_refuted (F : realFieldType) (log : F -> F) (h : hord) :
  exists cf : conf F 1 0 1, forall m rnd', positive (momegas m) ->
  exists B, solve_B cf m 0 rnd' = Ok B /\ ~ supported A1 B.
Proof.
exists (conf1 log h 1 Grad) => m rnd' Ho; exists 1%:M; split; first exact: solve_B1_zero.
by move/supported_A1 => /matrixP /(_ 0 0); rewrite !mxE => /eqP; rewrite oner_eq0.
Qed.

(** C49: score_dag then raises. *)
Lemma zero_draw_fit (F : realFieldType) (log : F -> F) (h : hord) I : fit (conf1 log h 1 Grad) A1 I None (fun=> (0, 0)) = Err ValueError.
Proof.
case: (@init1 F log h 1 Grad I erefl) => pm [EI EA Ho EB].
have Hs a b : 0 <= mpsis pm a b by case: b.
have [s0 Es0] := mscore_ok (conf1 log h 1 Grad) Ho Hs.
rewrite /fit; case: (is_dag_spec h 1 A1 A1_sq A1_nonneg) => d [-> Hd]; have -> : d by apply/Hd; apply: A1_acyclic.
have -> : initial_model (conf1 log h 1 Grad) A1 I = Ok pm := EI.
have SP : supported A1 (mB pm) by rewrite EB; apply: supported_0.
have NS : ~ supported A1 (1%:M : 'M[F]_1).
  by move/supported_A1 => /matrixP /(_ 0 0); rewrite !mxE => /eqP; rewrite oner_eq0.
rewrite {EI} /= Es0 /= /round /copy_model EA (newM_ok _ A1_sq A1_nonneg A1_acyclic) //.
rewrite [bind (Ok _) _]/= solve_B1_zero // /solve_gamma /gd /gamma_loss /=.
by case: (new_model_spec h (1%:M : 'M[F]_1) (mgamma pm) (momegas pm) (mpsis pm) A1_sq A1_nonneg) => [[_ [/NS]]|[_ ->]].
Qed.

(** C45: with a limit of zero score_dag fails on all data. *)
Lemma limit_zero (F : realFieldType) p l e (cf : conf F p l e) A I rnd : square p A -> nonneg A -> acyclic A ->
  (0 < e)%N -> (forall k, posdef (cf_sigmas cf k)) -> (forall k, (0 < cf_n_obs cf k)%N) -> (l <= p)%N ->
  (forall u, cf_psi_max cf = Some u -> 1 < u) -> cf_max_iter cf = 0%N \/ cf_max_fluctuations cf = 0%N ->
  fit cf A I None rnd = Err UnboundLocalError.
Proof.
move=> SA NA HA e0 PS N0 lp U Z; case: (initial_model_ok SA NA HA e0 PS N0 I lp U) => m [s [EI ES _ _ _]].
have := fit_limits SA NA (init := None) rnd HA EI ES.
by case: Z => ->; rewrite ?andbF.
Qed.

(** C43: an initial model is accepted for a pair that no earlier call had, with the outcome of a fresh object. *)
Lemma init_model_new (F : realFieldType) p l e (cf : conf F p l e) caching cs (c : call F p l e) :
  Forall (@proper F p l e) cs -> proper c -> cl_init c <> None ->
  (forall d, In d cs -> ~ (cl_A d = cl_A c /\ same_set (cl_I c) (cl_I d))) ->
  (do_call cf (run cf (fresh F p l e caching) cs) c).2 = fit cf (cl_A c) (cl_I c) (cl_init c) (cl_rnd c).
Proof.
move=> G PR EI NK; have [SA NA SI] := PR.
set P := fun (A : mat) (I : seq nat) (m : model F p l e) => exists d, [/\ In d cs, cl_A d = A & same_set I (cl_I d)].
have P1 A I J m0 : same_set I J -> P A I m0 -> P A J m0.
  by move=> S [d [H1 H2 H3]]; exists d; split=> //; apply: same_set_trans (same_set_sym S) H3.
have P2 A I (m0 m1 : model F p l e) : same_params m0 m1 -> P A I m0 -> P A I m1 by [].
have GS : Forall (good_call cf P) cs.
  apply/Forall_forall => d Hd; split; first exact: (proj1 (Forall_forall _ _) G).
  by move=> m s _; exists d; split=> //; split; apply: incl_refl.
have FC m s := @fit_copy F p l e cf c m s PR.
rewrite /do_call /score_dag; case: (cl_init c) EI FC => // m0 _ FC.
case EF: fit FC => [[m s]|x] FC.
  case: (run_wf P1 P2 caching GS) => [[-> //]|[xs [-> [[SX DX HX] _]]]].
  case: (FC m s erefl) => m' [EC _ _]; rewrite (write_spec _ _ _ _ SX DX SA) EC.
  case: ifP => // K; exfalso; have Hx := In_nth_find (cl_A c, cl_I c, m, s) K.
  have := nth_find (cl_A c, cl_I c, m, s) K; move/(keyP _ SA (SX _ Hx)) => [E1 E2].
  case: (HX _ Hx) => _ [d [H1 H2 H3]]; apply: (NK d H1); split; first by rewrite H2 E1.
  exact: same_set_trans (same_set_sym E2) H3.
by case: (run cf _ cs).
Qed.
