(** The solvers for B: statements. *)
From Coq Require Import ZArith.
From mathcomp Require Import all_ssreflect all_algebra all_fingroup.
From Verif Require Import Base FieldTac GraphModel GraphSpec NumModel NumSpec LinAlgProofs NumProofs ScoreModel ScoreSpec ScoreProofs.
From Verif Require Import NoErrProofs Run2Proofs GradSpec DerivProofs Deriv2Proofs GradProofs BsolveProofs Bsolve2Proofs Bsolve3Proofs Bsolve4Proofs.
Set Implicit Arguments.
Unset Strict Implicit.
Unset Printing Implicit Defensive.
Import Order.Theory GRing.Theory Num.Theory.
Local Open Scope ring_scope.

Lemma grad_terminates_model (F : archiFieldType) (p l e : nat) (cf : conf F p l e) A B0 g o s m rnd rnd' :
  square p A -> nonneg A -> new_model (cf_h cf) A B0 g o s = Ok m -> positive o -> (forall a b, 0 <= s a b) ->
  (0 < p)%N -> exact_roots (cf_sqrtm cf) (cf_sigmas cf) g o s -> (forall X, cf_finite cf X) ->
  5%:R / 1000%:R * (\sum_k \tr (invmx (noise g o s k)) * \tr (cf_sigmas cf k)) < 2%:R ->
  exists n B, forall fuel, (n <= fuel)%N -> solve_B_grad (with_fuel cf fuel) m rnd rnd' = Ok B.
Proof.
move=> SA NA Em Ho Hs p0 R fin S.
apply: (grad_terminates (cf := cf) rnd rnd' p0 (model_inv SA NA Em Ho Hs) (model_rootsE R) fin).
by under eq_bigr do rewrite -noiseE.
Qed.

Section Adaptive.
Variables (F : realFieldType) (p l e : nat) (cf : conf F p l e).
Lemma adaptive_loop_le k lik Ms A lr cur cs X : lik cur = Ok cs -> adaptive_loop cf k lik Ms A lr cur cs = Ok X ->
  exists2 s, lik X = Ok s & s <= cs.
Proof.
elim: k lr cur cs => [|k IH] lr cur cs E //=; case En: (lik _) => [ns|] //=; case: ltP => H; first exact: IH.
case: (amax _) => [d|] //=; case: ifP => _; first by case=> <-; exists cs.
by move=> /(IH _ _ _ En) [s Es le]; exists s => //; exact: le_trans le H.
Qed.

Lemma adaptive_no_worse m rnd B : solve_B_adaptive cf m rnd = Ok B ->
  exists m0 m1 s0 s1,
  [/\ new_model (cf_h cf) (mA m) (\matrix_(i, j) (if (i == j) || Z.eqb (get (mA m) i j) Z0 then 0 else - rnd j i))
        (mgamma m) (momegas m) (mpsis m) = Ok m0,
      new_model (cf_h cf) (mA m) B (mgamma m) (momegas m) (mpsis m) = Ok m1,
      mscore cf m0 = Ok s0, mscore cf m1 = Ok s1 & s1 <= s0].
Proof.
rewrite /solve_B_adaptive; case: (inv_noise m) => [Ms|] //=.
have -> : \matrix_(i, j) (if (i == j) || Z.eqb (get (mA m) i j) Z0 then 0 else - rnd j i) = (1%:M - pattern (mA m) rnd)^T.
  apply/matrixP => i j; rewrite [LHS]mxE [RHS]mxE Bsolve2Proofs.subE [1%:M _ _]mxE [pattern _ _ _ _]mxE eq_sym.
  case: eqP => [->|_] /=; first by rewrite subrr.
  by case: ifP => _; rewrite sub0r ?oppr0.
case E0: (new_model _ _ _ _ _ _) => [m0|] //=; case S0: (mscore cf m0) => [s0|] //=.
case E: adaptive_loop => [X|] //= [<-].
have := adaptive_loop_le _ E; rewrite E0 /= S0 => /(_ erefl) [s1].
case E1: (new_model _ _ (1%:M - X)^T _ _ _) => [m1|] //= S1 le.
by exists m0, m1, s0, s1.
Qed.
End Adaptive.

Section Refuted.
Variables (F : realFieldType) (log : F -> F) (h : hord).

Lemma em_roots (e : nat) (cf : conf F 2 0 e) : (forall k, sqrt_of (cf_sqrtm cf (cf_sigmas cf k)) (cf_sigmas cf k)) ->
  cf_sqrtm cf 1%:M = 1%:M -> exact_roots (cf_sqrtm cf) (cf_sigmas cf) (no_g F) (one_o F e) (no_s F e).
Proof.
by move=> RS R1 k; split=> //; rewrite noise_one' invmx1 R1; split; rewrite ?trmx1 ?mulmx1.
Qed.

Lemma grad_runs_forever : exists (cf : conf F 2 0 1) A g o s m,
  [/\ cf_log cf = log, cf_h cf = h, square 2 A, nonneg A & new_model h A 0 g o s = Ok m] /\
  [/\ positive o, positive s, (forall i, posdef (cf_sigmas cf i)), (forall i, (0 < cf_n_obs cf i)%N) &
      exact_roots (cf_sqrtm cf) (cf_sigmas cf) g o s /\ (forall X, cf_finite cf X)] /\
  forall (rnd rnd' : 'M[F]_2), (10%:R ^+ 10)^-1 < `|rnd 1 0| -> forall fuel,
    solve_B_grad (with_fuel cf fuel) m rnd rnd' = Err OutOfFuel.
Proof.
exists (cf400 log h), A2, (no_g F), (one_o F 1), (no_s F 1), (em 1 0).
split; first by split=> //; [exact: A2_sq | exact: A2_nonneg | apply: (em_new (cf400 log h)) => i j; rewrite mxE eqxx].
split; last by move=> rnd rnd' H fuel; apply: alternate.
split=> //; [exact: one_o_pos | exact: no_s_pos | by move=> i; apply: dg_posdef; rewrite ?ltr0n ?ltr01 |].
by split=> //; apply: em_roots; [move=> k; exact: root400_root | exact: root400_one].
Qed.

Lemma adaptive_runs_forever : exists (cf : conf F 2 0 2) A g o s m,
  [/\ cf_log cf = log, cf_h cf = h, square 2 A, nonneg A & new_model h A 0 g o s = Ok m] /\
  [/\ positive o, positive s, (forall i, posdef (cf_sigmas cf i)), (forall i, (0 < cf_n_obs cf i)%N) &
      exact_roots (cf_sqrtm cf) (cf_sigmas cf) g o s /\ (forall X, cf_finite cf X)] /\
  forall rnd : 'M[F]_2, 2%:R / 5%:R < rnd 1 0 -> rnd 1 0 < 1 -> forall fuel, solve_B_adaptive (with_fuel cf fuel) m rnd = Err OutOfFuel.
Proof.
set cf := cfn log h (fun=> 1%N).
exists cf, A2, (no_g F), (one_o F 2), (no_s F 2), (em 2 0).
split; first by split=> //; [exact: A2_sq | exact: A2_nonneg | apply: (em_new cf) => i j; rewrite mxE eqxx].
split; last by move=> rnd H H' fuel; apply: adaptive_never.
split=> //; [exact: one_o_pos | exact: no_s_pos | by move=> i; apply: sgm_posdef |].
by split=> //; apply: em_roots; [move=> k; exact: root2_root | exact: root2_one].
Qed.

Lemma grad_not_optimal : exists (cf : conf F 2 0 2) A g o s m,
  [/\ cf_log cf = log, cf_h cf = h, square 2 A, nonneg A & new_model h A 0 g o s = Ok m] /\
  [/\ positive o, positive s, (forall i, posdef (cf_sigmas cf i)), (forall i, (0 < cf_n_obs cf i)%N) &
      exact_roots (cf_sqrtm cf) (cf_sigmas cf) g o s /\ (forall X, cf_finite cf X)] /\
  (exists rnd B, nontrivial rnd /\ forall rnd' fuel, (2 <= fuel)%N -> solve_B_grad (with_fuel cf fuel) m rnd rnd' = Ok B) /\
  exists2 B', supported A B' & forall fuel rnd rnd' B, nontrivial rnd -> solve_B_grad (with_fuel cf fuel) m rnd rnd' = Ok B ->
    likelihood log (entailed B' g o s) (cf_sigmas cf) (cf_n_obs cf) + 1 <= likelihood log (entailed B g o s) (cf_sigmas cf) (cf_n_obs cf).
Proof.
set cf := cfn log h n13.
exists cf, A2, (no_g F), (one_o F 2), (no_s F 2), (em 2 0).
split; first by split=> //; [exact: A2_sq | exact: A2_nonneg | apply: (em_new cf) => i j; rewrite mxE eqxx].
split.
  split=> //; [exact: one_o_pos | exact: no_s_pos | by move=> i; apply: sgm_posdef | by move=> i; rewrite /= /n13; case: ifP |].
  by split=> //; apply: em_roots; [move=> k; exact: root2_root | exact: root2_one].
split; first by exists (draw F), (1%:M - tri (2%:R / 5%:R))^T; split=> [|rnd' fuel Hf]; [exact: draw_nontrivial | exact: draw_run].
exists (1%:M - tri (7%:R / 5%:R))^T; first exact: supported_tri.
move=> fuel rnd rnd' B NT E; have [x -> H] := not_optimal NT E.
have U k : noise (no_g F) (one_o F 2) (no_s F 2) k \in unitmx by rewrite noise_one' unitmx1.
rewrite -[log]/(cf_log cf) !(lik_residuals cf) ?(det_sub_dag A2_acyclic) //; try exact: supported_tri.
by rewrite -addrA ler_add2l -ler_subr_addl; apply: H.
Qed.
End Refuted.
