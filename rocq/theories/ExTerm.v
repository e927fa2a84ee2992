(** Concrete inputs that meet the hypotheses of the theorems of PropTerm.v. *)
From Coq Require Import ZArith QArith_base Lia List.
From mathcomp Require Import all_ssreflect all_algebra.
From Verif Require Import Base GraphModel GraphSpec ListModel NumModel NumSpec ScoreModel CacheSpec ScoreSpec OptSpec MainModel MainSpec TermSpec.
From Verif Require Import EnumProofs NumProofs NoErrProofs TermProofs Run2Proofs SeedProofs MainTerm2Proofs MainRunProofs ExMainDefs ExMain ExOpt PropTerm.
Set Implicit Arguments.
Unset Strict Implicit.
Unset Printing Implicit Defensive.
Import Order.Theory GRing.Theory Num.Theory.
Local Open Scope nat_scope.
Local Open Scope ring_scope.

Section Ex.
Variables (F : archiFieldType) (pi : F) (h : hord).

(** The function of ExOpt.v, moved so that it is tangent to a logarithm at the determinant of the samples of ExMain.v *)
Definition cdet : F := (cval 1 ^+ 2)^-1.
Definition moved_log (x : F) : F := inv_log (cdet^-1 * x).
Lemma cdet_gt0 : 0 < cdet.
Proof. by rewrite /cdet invr_gt0 exprn_gt0 // cval_gt0 // oner_neq0. Qed.
Lemma moved_log_tangent : log_tangent moved_log 2 cdet.
Proof.
have [[M T] _ _] := inv_log_tangent F; have c0 := cdet_gt0; have c1 : 0 < cdet^-1 by rewrite invr_gt0.
split=> [x y x0 xy|x x0]; rewrite /moved_log.
  by apply: M; [rewrite mulr_gt0 | rewrite ler_pmul2l].
by rewrite mulrA mulVf ?gt_eqF //; apply: T.
Qed.

(** The world of ExMain.v; one and two latent variables, three rounds *)
Definition exw : world F 2 1 := ex_world moved_log pi h.
Definition exa : args F :=
  Args (Some [:: 2; 1]%N) [:: third; third; third] (Some 2%:R) false 3 0 0 2 (10%:R)^-1 1 Cvx.
Local Notation tr := [:: cross (1 : F)].

Lemma exw_answers : cvx_answers exw.
Proof.
move=> l m [SA _] _; exists (edge_weights F 2 (mA m)); split=> //; first exact: weights_supported.
move=> [i [j Eij]]; have Hi : (i < 2)%N /\ (j < 2)%N.
  case: (boolP ((i < 2)%N && (j < 2)%N)) => [/andP //|H]; case: Eij; apply: (@get_out 2) => //.
  by move=> [/ssrnat.ltP Hi /ssrnat.ltP Hj]; rewrite Hi Hj in H.
move=> /matrixP /(_ (Ordinal Hi.1) (Ordinal Hi.2)) /eqP; rewrite !mxE /=.
by case: Z.eqb_spec Eij => // _ _; rewrite pnatr_eq0 addn1.
Qed.

Lemma exw_cov k : covs exw tr k = (cval 1)%:M.
Proof. by rewrite /covs (ord1 k) /= cov_cross. Qed.
Lemma exw_tangent k : log_tangent (w_log exw) 2 (\det (covs exw tr k))^-1.
Proof. by rewrite exw_cov det_scalar; exact: moved_log_tangent. Qed.
Lemma exw_split : split_data (w_shuffle exw 42) [seq seed_data F k | k <- enum 'I_1] (a_folds exa) =
  Ok [:: tr; [:: cross 2%:R]; [:: cross 3%:R]].
Proof. exact: (ex_split moved_log pi h). Qed.
Lemma exw_data (k : 'I_1) : posdef (covs exw tr k) /\ (1 < n_obs tr k)%N.
Proof. by split; [exact: (ex_posdef moved_log pi h) | exact: ex_nobs]. Qed.
Lemma exw_hs n : List.In n [:: 2; 1]%N -> (n <= 2)%N.
Proof. by move=> /= [<-|[<-|]]. Qed.
Lemma exa_threshold : 0 < a_threshold_score exa.
Proof. by rewrite invr_gt0 ltr0n. Qed.
Lemma exa_psi u : a_psi_max exa = Some u -> 1 < u.
Proof. by move=> [<-]; rewrite ltr1n. Qed.

Example C99_class_ex prune seed : exists x, settles (fun k => equivalence_class (w_with_fuel exw k) exa [:: A2] (seed_data F) prune seed) (Ok x).
Proof.
apply: (C99_class_returns (a := exa) (w := exw) _ _ exw_split erefl) => //.
- exact: exw_hs.
- by constructor; [exact: A2_graph | constructor].
- by constructor; [exact: A2_acyclic | constructor].
- exact: exw_data.
- exact: exw_tangent.
- exact: exa_threshold.
- exact: exa_psi.
exact: exw_answers.
Qed.
Example C99_ges_ex seed : exists x, settles (fun k => equivalence_class_w_ges (w_with_fuel exw k) exa (seed_data F) seed) (Ok x).
Proof.
apply: (C99_ges_returns (a := exa) (w := exw) _ exw_split erefl) => //.
- exact: exw_hs.
- exact: ex_ges.
- by exists A2; exact: (A2_und2 moved_log pi).
- exact: exw_data.
- exact: exw_tangent.
- exact: exa_threshold.
- exact: exa_psi.
exact: exw_answers.
Qed.

(** Without pruning nothing is needed of the convex solver *)
Example C99_ends_ex seed : exists r, settles (fun k => equivalence_class (w_with_fuel exw k) exa [:: A2] (seed_data F) false seed) r /\
  ((exists x, r = Ok x) \/ a_solver exa = Cvx /\ (r = Err TypeError \/ r = Err AssertionError)).
Proof.
apply: (C99_class_ends (a := exa) (w := exw) _ exw_split erefl) => //.
- by move=> n /exw_hs.
- by constructor; [exact: A2_graph | constructor].
- by constructor; [exact: A2_acyclic | constructor].
- exact: exw_data.
- exact: exw_tangent.
- exact: exa_threshold.
- exact: exa_psi.
by move=> n A _ _ _; apply: cvx_ends.
Qed.
End Ex.
