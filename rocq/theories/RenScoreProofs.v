(** The score does not depend on the names of the variables and latents, or the units of the latents. *)
From Coq Require Import ZArith.
From mathcomp Require Import all_ssreflect all_algebra all_fingroup.
From Verif Require Import Base FieldTac GraphSpec NumSpec GradSpec RenameSpec GraphModel NumModel LinAlgProofs NumProofs GradProofs.
From Verif Require Import RenameProofs EquivProofs.
Set Implicit Arguments.
Unset Strict Implicit.
Unset Printing Implicit Defensive.
Import Order.Theory GRing.Theory Num.Theory.
Local Open Scope ring_scope.

Section Perm.
Variables (F : realFieldType) (p : nat) (t : 'S_p).
Definition both (X : 'M[F]_p) : 'M[F]_p := \matrix_(i, j) X (t i) (t j).

Lemma bothE X : both X = row_perm t (col_perm t X).
Proof. by apply/matrixP => i j; rewrite !mxE. Qed.
Lemma both1 : both 1%:M = 1%:M.
Proof. by apply/matrixP => i j; rewrite !mxE (inj_eq perm_inj). Qed.
Lemma bothB X Y : both (X - Y) = both X - both Y.
Proof. by apply/matrixP => i j; rewrite !mxE. Qed.
Lemma both_tr X : (both X)^T = both X^T.
Proof. by apply/matrixP => i j; rewrite !mxE. Qed.
Lemma bothM X Y : both (X *m Y) = both X *m both Y.
Proof.
apply/matrixP => i j; rewrite !mxE (reindex_inj (@perm_inj _ t)) /=.
by apply: eq_bigr => k _; rewrite !mxE.
Qed.
Lemma both_det X : \det (both X) = \det X.
Proof.
rewrite bothE row_permE col_permE !det_mulmx !det_perm mulrCA mulrA -mulrA odd_permV -signr_addb addbb mulr1 //.
Qed.
Lemma both_trace X : \tr (both X) = \tr X.
Proof.
by rewrite /mxtrace [RHS](reindex_inj (@perm_inj _ t)); apply: eq_bigr => i _; rewrite mxE.
Qed.
Lemma both_inv X : X \in unitmx -> invmx (both X) = both (invmx X).
Proof.
move=> uX; have U : both X \in unitmx by rewrite unitmxE both_det -unitmxE.
by apply: (can_inj (mulmxK U)); rewrite mulVmx // -bothM mulVmx // both1.
Qed.
End Perm.

Section Score.
Variables (F : realFieldType) (log : F -> F) (h h' : hord) (p l e : nat).
Add Field ffR : (fieldT F).

Lemma score_rename f g (t : 'S_p) A (B : 'M[F]_p) (gm : 'M[F]_(l, p)) (o : 'M[F]_(e, p)) (s : 'M[F]_(e, l)) m :
  renaming p f g -> (forall i, g (nat_of_ord i) = t i) ->
  square p A -> nonneg A -> new_model h A B gm o s = Ok m -> positive o -> (forall a b, 0 <= s a b) ->
  exists2 m', new_model h' (rename p g A) (both t B) (col_perm t gm) (col_perm t o) s = Ok m' &
    forall sigmas n_obs, score log m' (fun i => both t (sigmas i)) n_obs = score log m sigmas n_obs.
Proof.
move=> R gt SA NA Em Po Ps; have [HA HB EM] := new_model_ok SA NA Em.
have SA' := rename_square p g A; have NA' := rename_nonneg p f g R A SA NA.
have HA' := rename_acyclic p f g R A SA HA.
have HB' : supported (rename p g A) (both t B).
  move=> i j; rewrite mxE => /HB E; apply/(rename_edge p f g R) => //; by rewrite !gt.
exists (MkModel (rename p g A) (both t B) (col_perm t gm) (col_perm t o) s (1%:M - (both t B)^T)).
  by case: (new_model_spec h' (both t B) (col_perm t gm) (col_perm t o) s SA' NA') => [[_ [_ ->]]|[H _]] //; case: H.
have Po' : positive (col_perm t o) by move=> i j; rewrite mxE; apply: Po.
move=> sigmas n_obs; rewrite EM !score_value //.
congr Ok; apply: eq_bigr => i _; congr (_ * _ / _); rewrite /= /mnoise /=.
have EN : noise_cov (col_perm t gm) (col_perm t o) s i = both t (noise_cov gm o s i).
  apply/matrixP => u v; rewrite -!noiseE [in RHS]mxE !mxE (inj_eq perm_inj); congr (_ + _).
  by apply: eq_bigr => a _; rewrite !mxE.
have uN : noise_cov gm o s i \in unitmx by apply/posdef_unit/posdef_noise => j; rewrite mxE.
have EI : 1%:M - (both t B)^T = both t (1%:M - B^T) by rewrite bothB both1 both_tr.
by rewrite EN both_inv // both_det EI both_tr -!bothM both_trace.
Qed.

Lemma score_latents (t : 'S_l) (c : 'I_l -> F) A (B : 'M[F]_p) (gm : 'M[F]_(l, p)) (o : 'M[F]_(e, p)) (s : 'M[F]_(e, l)) m :
  (forall a, c a != 0) ->
  square p A -> nonneg A -> new_model h A B gm o s = Ok m -> positive o -> (forall a b, 0 <= s a b) ->
  exists2 m', new_model h' A B (\matrix_(a, j) (c a * gm (t a) j)) o (\matrix_(i, a) (s i (t a) / c a ^+ 2)) = Ok m' &
    forall sigmas n_obs, score log m' sigmas n_obs = score log m sigmas n_obs.
Proof.
move=> c0 SA NA Em Po Ps; have [HA HB EM] := new_model_ok SA NA Em.
set g2 := \matrix_(a, j) _; set s2 := \matrix_(i, a) _.
have Em' : new_model h' A B g2 o s2 = Ok (MkModel A B g2 o s2 (1%:M - B^T)).
  by case: (new_model_spec h' B g2 o s2 SA NA) => [[_ [_ ->]]|[H _]] //; case: H.
exists (MkModel A B g2 o s2 (1%:M - B^T)) => // sigmas n_obs.
have Em1 : new_model h A B g2 o s2 = Ok (MkModel A B g2 o s2 (1%:M - B^T)).
  by case: (new_model_spec h B g2 o s2 SA NA) => [[_ [_ ->]]|[H _]] //; case: H.
apply: (score_entailed log sigmas n_obs SA NA Em1 Po _ SA NA Em Po Ps) => [a b|i].
  by rewrite mxE divr_ge0 ?exprn_even_ge0.
rewrite /entailed; congr (_ *m _ *m _); apply/matrixP => u v; rewrite !mxE; congr (_ + _).
rewrite [RHS](reindex_inj (@perm_inj _ t)); apply: eq_bigr => a _; rewrite !mxE.
have ca : c a ^+ 2 != 0 by rewrite expf_neq0.
have : c a * c a * (c a ^+ 2)^-1 = 1 by rewrite -expr2 mulfV.
move: (c a) (gm (t a) u) (gm (t a) v) (s i (t a)) (c a ^+ 2)^-1 => x y z w k E.
by rewrite -[RHS]mulr1 -E; rg F.
Qed.
End Score.
