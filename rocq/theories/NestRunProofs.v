(** Optimal fits: two variables with X1 = X0 + noise in one environment (C138). *)
From Coq Require Import ZArith List.
From mathcomp Require Import all_ssreflect all_algebra.
From Verif Require Import Base GraphModel GraphSpec TopoProofs ListModel NumModel NumSpec LinAlgProofs NumProofs ScoreModel CacheSpec GradSpec OptSpec ScoreSpec ScoreProofs.
From Verif Require Import RunProofs Run2Proofs OptProofs ConsistProofs MainModel MainSpec MainRunProofs SeedProofs LimitSpec LimitProofs LimitRunProofs UnitProofs NestSpec NestProofs.
Set Implicit Arguments.
Unset Strict Implicit.
Unset Printing Implicit Defensive.
Import Order.Theory GRing.Theory Num.Theory.
Local Open Scope ring_scope.

Section Run.
Variables (F : realFieldType) (log : F -> F) (pi : F) (h : hord).
Hypothesis LL : log_like log.
Local Notation cf := (train_conf (lim_world log pi h) (lim_args F) [:: linked F] 0).

(** Without edges and latents, only the variances of the data matter *)
Lemma score_diag (m : model F 2 0 1) (S S' : 'I_1 -> 'M[F]_2) n : mI_B m = 1%:M -> positive (momegas m) -> (forall k i, S k i i = S' k i i) ->
  score log m S n = score log m S' n.
Proof.
move=> EI PO ES; have P0 (a : 'I_1) (b : 'I_0) : 0 <= mpsis m a b by case: b.
rewrite /score inv_noise_ok //=; congr Ok.
have D k : exists d, invmx (mnoise m k) = diag_mx d.
  have -> : mnoise m k = diag_mx (row k (momegas m)).
    by rewrite /mnoise /noise_cov (_ : (mgamma m)^T = 0) ?mul0mx ?add0r //; apply/matrixP => i [].
  set d := row k _; have d0 j : d 0 j != 0 by rewrite mxE gt_eqF.
  exists (\row_j (d 0 j)^-1).
  have U : diag_mx d \in unitmx by rewrite unitmxE unitfE det_diag; apply/prodf_neq0 => j _.
  have DD : diag_mx d *m diag_mx (\row_j (d 0 j)^-1) = 1%:M.
    apply/matrixP => i j; rewrite mul_diag_mx mxE [diag_mx _ _ _]mxE [1%:M _ _]mxE mulrnAr; congr (_ *+ _).
    by rewrite [X in _ * X]mxE mulfV ?d0.
  by rewrite -[LHS]mulmx1 -DD mulKmx.
elim: (enum 'I_1) (0 : F) => [|k ks IH] x //=; rewrite IH; congr (foldl _ _ _); congr ((_ + _ * _) / _).
rewrite /score_term EI; congr (_ + _); rewrite !mul1mx !trmx1 !mulmx1; have [d ->] := D k.
by rewrite /mxtrace; apply: eq_bigr => i _; rewrite !mul_diag_mx !mxE ES.
Qed.

Lemma lim_optimal : optimal_fits cf.
Proof.
move=> A I rnd m s EF GA AA; have [SA NA] := GA.
have [g [s' [x E']]] := lim_fit log pi h I rnd GA AA; rewrite E' in EF; case: EF => Em _.
set o := initialize_omegas _ _ _ in Em E'.
have CS := @coefs_supported F A.
have NM h' B (g1 : 'M[F]_(0, 2)) (o1 : 'M[F]_(1, 2)) (s1 : 'M[F]_(1, 0)) : supported A B -> new_model h' A B g1 o1 s1 = Ok (MkModel A B g1 o1 s1 (1%:M - B^T)).
  by move=> SB; case: (new_model_spec h' B g1 o1 s1 SA NA) => [[_ [_ ->]]|[H _]] //; case: H.
exists m; first by rewrite -Em; exact: NM.
have [[_ _ _ RG] /(_ erefl) INV] := fit_facts SA NA (fun m0 (H : None = Some m0) => ltac:(by [])) E'.
rewrite Em in RG INV; have [PO PS _] := RG; split; first by split=> //; rewrite -Em.
move=> m' y y' [EA' SB' EI' [PO' PS' _] _] Ey Ey'.
have NMm : new_model h A (coefs F A) g o s' = Ok m by rewrite -Em; exact: NM.
have NMm' : new_model h A (mB m') (mgamma m') (momegas m') (mpsis m') = Ok m'.
  by rewrite NM //; congr Ok; case: m' EA' EI' {SB' PO' PS' Ey'} => /= ? ? ? ? ? ? -> ->.
have POo : positive o by move: PO; rewrite -Em.
have P0 (a : 'I_1) (b : 'I_0) : 0 <= s' a b by case: b.
have P0' (a : 'I_1) (b : 'I_0) : 0 <= mpsis m' a b by case: b.
have TG k : log_tangent log 2 (\det (noise g o s' k))^-1.
  have D0 : 0 < (\det (noise g o s' k))^-1 by apply: noise_det => // a [].
  by have [] := log_like_tangent LL 2 D0.
have [z [z' [Ez Ez' LE]]] := score_minimal (cf_n_obs cf) SA NA NMm POo P0 SA NA NMm' PO' P0' TG.
suff H n : (n = m \/ n = m') -> score log n (cf_sigmas cf) (cf_n_obs cf) = score log n (entailed (coefs F A) g o s') (cf_n_obs cf).
  by move: LE Ey Ey'; rewrite -[cf_log _]/log !H ?Ez ?Ez'; [move=> L [<-] [<-] | right | left].
have [/existsP [i /existsP [j Eij]]|NE] := boolP [exists i : 'I_2, exists j : 'I_2, ~~ Z.eqb (get A i j) Z0].
  move=> _; apply: score_ext => k; symmetry; apply: lim_entailed => //; exists i, j => E.
  by rewrite E in Eij.
have CZ (B : 'M[F]_2) : supported A B -> B = 0.
  move=> SB; apply/matrixP => i j; rewrite [RHS]mxE; apply/eqP; apply: contraT => /SB N.
  by move: NE; rewrite negb_exists => /forallP /(_ i); rewrite negb_exists => /forallP /(_ j); rewrite negbK => /Z.eqb_spec.
have C0 := CZ _ CS; move=> HN; apply: score_diag => [||k i].
- by case: HN => ->; [rewrite -Em /= C0 | rewrite EI' (CZ _ SB')]; rewrite trmx0 subr0.
- by case: HN => ->.
rewrite [cf_sigmas _ _]lim_cov /entailed C0 trmx0 subr0 invmx1 trmx1 mul1mx mulmx1 [RHS]mxE big_ord0 add0r eqxx.
rewrite /o C0 [X in _ = X]mxE !big_ord1 [X in if _ then X else _]mxE [X in (X * _) / _]mxE ![cf_sigmas _ _]lim_cov trmx0 subr0 trmx1 mul1mx mulmx1.
by case: memb => //; rewrite mulfK // pnatr_eq0 -lt0n; exact: (lim_nobs F 0).
Qed.
End Run.
