(** scaled_latent_incoherence for other latents that explain the same data, and for other orders of the environments. *)
From Coq Require Import ZArith List.
From mathcomp Require Import all_ssreflect all_algebra all_fingroup.
From Verif Require Import Base GraphModel GraphSpec NumModel NumSpec GenModel GenSpec GenProofs NumProofs IncoProofs IncoSpec Inco2Proofs BasisSpec.
Set Implicit Arguments.
Unset Strict Implicit.
Unset Printing Implicit Defensive.
Import Order.Theory GRing.Theory Num.Theory.
Local Open Scope nat_scope.
Local Open Scope ring_scope.

Section Basis.
Variables (F : realFieldType) (p l e : nat).

Lemma projection_basis (X : 'M[F]_(p, l)) (S : 'M[F]_l) : X^T *m X \in unitmx -> S \in unitmx -> projection (X *m S) = projection X.
Proof.
move=> HG HS; have HT : S^T \in unitmx by rewrite unitmx_tr.
rewrite /projection trmx_mul; set G := X^T *m X in HG *.
have -> : S^T *m X^T *m (X *m S) = S^T *m G *m S by rewrite /G !mulmxA.
suff E : S *m invmx (S^T *m G *m S) *m S^T = invmx G by rewrite -E !mulmxA.
have HM : S^T *m G *m S \in unitmx by rewrite !unitmx_mul HT HG HS.
set P := S *m _ *m _.
have E : P *m G *m S = S.
  have -> : P *m G *m S = S *m (invmx (S^T *m G *m S) *m (S^T *m G *m S)) by rewrite /P !mulmxA.
  by rewrite (mulVmx HM) mulmx1.
by rewrite -[LHS](mulmxK HG) -[P *m G](mulmxK HS) E (mulmxV HS) mul1mx.
Qed.

Lemma factor_gram q (X : 'M[F]_(p, l)) (U : 'M[F]_(p, q)) : q = l -> left_factor X U -> \rank X = l -> X^T *m X \in unitmx.
Proof.
move=> E; case: _ / (esym E) U => {q E} U [HU [K [-> _]]] HR.
have KU : K \in unitmx by rewrite -row_free_unit -row_leq_rank -{1}HR (mxrankM_maxr U K).
by rewrite trmx_mul mulmxA -[K^T *m U^T *m U]mulmxA HU mulmx1 unitmx_mul unitmx_tr KU.
Qed.

Lemma effects_basis (s : 'S_e) (R : 'M[F]_l) (m m' : model F p l e) i : same_but_latents s R m m' ->
  effects m' i = effects m (s i) *m R^T.
Proof.
move=> [_ HB Hg Ho]; rewrite -!effectsE HB Hg trmx_mul !mulmxA.
by congr (_ *m diag_mx _ *m _ *m _); apply/rowP=> j; rewrite !mxE Ho.
Qed.

Lemma incoherence_basis h h' svd svd' (s : 'S_e) (R : 'M[F]_l) (m m' : model F p l e) :
  (0 < p)%N -> (0 < e)%N -> (l <= p)%N -> square p (mA m) -> nonneg (mA m) -> R \in unitmx -> same_but_latents s R m m' ->
  (forall i, left_factor (effects m i) (svd (effects m i)) /\ \rank (effects m i) = l) ->
  (forall i, left_factor (effects m' i) (svd' (effects m' i))) ->
  exists x, scaled_latent_incoherence h svd m = Ok x /\ scaled_latent_incoherence h' svd' m' = Ok x.
Proof.
move=> Hp He Hl SA NA HR HS H1 H2; have HT : R^T \in unitmx by rewrite unitmx_tr.
have EA : mA m' = mA m by case: HS.
have H3 i : left_factor (effects m' i) (svd' (effects m' i)) /\ \rank (effects m' i) = l.
  split; first exact: H2.
  by rewrite (effects_basis _ HS) mxrankMfree ?row_free_unit //; case: (H1 (s i)).
have EP i : projection (effects m' i) = projection (effects m (s i)).
  rewrite (effects_basis _ HS); apply: projection_basis HT; have [L K] := H1 (s i).
  by apply: factor_gram L K; apply/minn_idPr.
have [d [x [E [[v [Hv Hd]] H] X1]]] := incoherence_value h Hp He Hl SA NA H1.
have := @incoherence_value F h' p l e svd' m' Hp He Hl; rewrite EA => /(_ SA NA H3) [d' [x' [E' [[v' [Hv' Hd']] H'] X2]]].
rewrite EA in Hd' H'.
have Ed : d' = d by apply/anti_leq; rewrite (H _ _ Hv' Hd') (H' _ _ Hv Hd).
have X3 : squared_incoherence m x'.
  case: X2 => -[i [j Ex]] Hx; split; first by exists (s i), j; rewrite Ex EP.
  by move=> k k'; have := Hx ((s^-1)%g k) k'; rewrite EP permKV.
by exists (x * d%:R); rewrite E E' Ed (squared_unique X1 X3).
Qed.
End Basis.
