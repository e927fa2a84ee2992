(** Example for C150: two latents rotated by the angle of (3, 4), and two environments exchanged. *)
From Coq Require Import ZArith List.
From mathcomp Require Import all_ssreflect all_algebra all_fingroup.
From Verif Require Import Base GraphModel GraphSpec NumModel NumSpec GenModel GenSpec IncoSpec Inco2Proofs BasisSpec BasisProofs PropBasis.
Import GRing.Theory Num.Theory.
Local Open Scope nat_scope.
Local Open Scope ring_scope.
Notation RQ := rat_realFieldType.

Definition turn : 'M[RQ]_2 := \matrix_(i, j) nth 0 (nth [::] [:: [:: 3%:R / 5%:R; 4%:R / 5%:R]; [:: - (4%:R / 5%:R); 3%:R / 5%:R]] i) j.
Definition turn_omegas : 'M[RQ]_2 := \matrix_(i, j) (if i == 0 then 1 else 2%:R).
Definition turn_model : model RQ 2 2 2 := @MkModel RQ 2 2 2 root_A 0 1%:M turn_omegas (const_mx 1) 1%:M.
Definition turned : model RQ 2 2 2 := @MkModel RQ 2 2 2 root_A 0 turn (\matrix_(i, j) turn_omegas (tperm 0 1 i) j) (const_mx 1) 1%:M.

Lemma turn_same : same_but_latents (tperm 0 1) turn turn_model turned.
Proof. by split=> //= [|i j]; rewrite ?mulmx1 // mxE. Qed.

Lemma turnK : turn^T *m turn = 1%:M.
Proof.
apply/matrixP=> i j; rewrite mxE !big_ord_recr big_ord0 /= add0r !mxE.
by case: i j => [[|[|//]] ?] [[|[|//]] ?]; apply/eqP; vm_compute.
Qed.
Lemma turn_unit : turn \in unitmx.
Proof. by case: (mulmx1_unit turnK). Qed.

(** The effects are multiples of the identity *)
Lemma turn_effects i : exists2 a : RQ, a != 0 & effects turn_model i = a%:M.
Proof.
exists (turn_omegas i 0)^-1; first by rewrite invr_eq0 mxE; case: ifP.
apply/matrixP=> j k; rewrite !mxE bigop.big1 ?subr0; last by move=> j' _; rewrite mxE mul0r.
by rewrite eq_sym; case: (j == k); rewrite ?mul1r ?mul0r.
Qed.

Lemma turn_factor i : left_factor (effects turn_model i) (1%:M : 'M_(2, minn 2 2)) /\ \rank (effects turn_model i) = 2%N.
Proof.
have [a Ha ->] := turn_effects i; split; last by rewrite mxrank_unit // unitmxE det_scalar unitfE expf_neq0.
split; first by rewrite trmx1 mulmx1.
exists a%:M; split; first by rewrite mul1mx.
by rewrite tr_scalar_mx -scalar_mxM scalar_mx_is_diag.
Qed.

Lemma turned_factor i : left_factor (effects turned i) (1%:M : 'M_(2, minn 2 2)).
Proof.
rewrite (effects_basis i turn_same); have [a _ ->] := turn_effects (tperm 0 1 i).
split; first by rewrite trmx1 mulmx1.
exists (a%:M *m turn^T); split; first by rewrite mul1mx.
rewrite trmx_mul trmxK mulmxA -[a%:M *m _ *m _]mulmxA turnK mulmx1 tr_scalar_mx -scalar_mxM.
exact: scalar_mx_is_diag.
Qed.

Definition turn_svd (X : 'M[RQ]_(2, 2)) : 'M[RQ]_(2, minn 2 2) := 1%:M.

Example C150_ex : forall h, exists x,
  scaled_latent_incoherence h turn_svd turn_model = Ok x /\ scaled_latent_incoherence h turn_svd turned = Ok x.
Proof.
move=> h; have [SA NA] := root_square.
exact: (@C150_latents RQ 2 2 2 h h turn_svd turn_svd (tperm 0 1) turn turn_model turned isT isT isT SA NA turn_unit turn_same
  turn_factor turned_factor).
Qed.
