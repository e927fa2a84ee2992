(** Instances of the theorems of PropFixed.v. *)
From Coq Require Import ZArith List Reals.
From mathcomp Require Import all_ssreflect all_algebra.
From Verif Require Import Base GraphModel GraphSpec TopoProofs NumModel NumSpec ScoreModel CacheSpec ScoreSpec OptSpec InitSpec DescentSpec Run2Proofs SingleSpec RealProofs FixedSpec PropOpt ExOpt FixedProofs PropFixed.
Import Order.Theory GRing.Theory Num.Theory.
Local Open Scope ring_scope.

(** C141: the real logarithm and square root, with 5 observations of two independent variables *)
Lemma sqrt_pos (x : R_realFieldType) : 0 <= x -> (sqrt x : R_realFieldType) ^+ 2 = x.
Proof. by move=> /RleP H; rewrite expr2; apply: sqrt_sqrt. Qed.
Example C141_refuted_ex (h : hord) := C141_equal_refuted R_realFieldType ln sqrt h 5 ln_log_like isT (sqrt_pos _ (ler0n _ 4)) (sqrt_pos _ ler01).

(** C141: one latent, two environments and at most 5 rounds; the hypotheses hold for some bound on the inner loops. *)
Section Ex.
Variables (F : archiFieldType) (h : hord) (rnd : nat -> 'M[F]_2 * 'M[F]_2).
Local Notation cf := (@conf_psi_fixed F 2 1 2 (cft F h) true).
Example C141_one_latent_ex : exists k m s,
  [/\ proper (@Call F 2 1 2 A2 [:: 1%N] None rnd), cf_psi_fixed (with_fuel cf k) = true,
    (do_call (with_fuel cf k) (run (with_fuel cf k) (fresh F 2 1 2 false) [::]) (Call A2 [:: 1%N] None rnd)).2 = Ok (m, s)
    & equal_variances (mpsis m)].
Proof.
have [[m s] [k /(_ k (leqnn k)) E]] : exists x, settles (fun k => fit (with_fuel cf k) A2 [:: 1%N] None rnd) (Ok x).
  apply: (C98_cvx_fit_returns (cf := cf) A2_sq A2_nonneg A2_acyclic) => //; first exact: St_posdef.
  - by move=> j; rewrite /=; case: ifP.
  - exact: St_tangent.
  - exact: tenth.
  - by move=> u [<-]; rewrite ltr1n.
  by move=> m _; exists (Bt F); split=> //; apply: Bt_supported.
have P : proper (@Call F 2 1 2 A2 [:: 1%N] None rnd) by split; [exact: A2_sq|exact: A2_nonneg|].
have D : (do_call (with_fuel cf k) (run (with_fuel cf k) (fresh F 2 1 2 false) [::]) (Call A2 [:: 1%N] None rnd)).2 = Ok (m, s).
  by rewrite -[LHS]/(score_dag (with_fuel cf k) None A2 [:: 1%N] None rnd).2 /score_dag E.
exists k, m, s; split=> //.
by apply: (C141_one_latent_partial _ _ _ _ _ _ _ _ _ _ _ P _ _ D).
Qed.
End Ex.
