(** Examples for C124. *)
From Coq Require Import ZArith List.
From mathcomp Require Import all_ssreflect all_algebra.
From Verif Require Import Base GraphModel GraphSpec NumModel GenModel GenProofs GenRunProofs ExGen DrawSpec DrawProofs PropDraw.
Import GRing.Theory Num.Theory.
Local Open Scope ring_scope.

(** Draw number 14 is replaced: it is the effect of latent variable 1 on variable 2. *)
Definition dr_u : nat -> Q := fun k => k%:R.
Definition dr_z : nat -> Q := fun k => k%:R.
Definition dr_z' : nat -> Q := fun k => if k == 14%N then 100%:R else k%:R.
Notation dr obs z := (sample_parameters ho_rev (stream_gen dr_u z) 3 2 4 vee tgts (one_two Q) false obs seed7 false).

Lemma dr_ok obs z : dr obs z = Ok (result ho_rev (stream_gen dr_u z) 3 2 4 vee tgts (one_two Q) false obs seed7).
Proof.
have V : false -> (0 < 4)%N /\ (0 < 3)%N by [].
have [[_ [_ //]]|[H _]] := sample_parameters_result ho_rev (stream_gen dr_u z) 2 tgts (one_two Q) false obs seed7 vee_square vee_nonneg V.
by case: H; split; [exact: vee_acyclic | exact: tgts_nodes].
Qed.
Lemma dr_but : same_but 14 dr_z dr_z'. Proof. by move=> k /eqP /negPf E; rewrite /dr_z' E. Qed.

Example draw_ex obs : exists m m', [/\ dr obs dr_z = Ok m, dr obs dr_z' = Ok m', mgamma m 1 2 <> mgamma m' 1 2,
  mgamma m 0 2 = mgamma m' 0 2 & mB m = mB m'].
Proof.
rewrite !dr_ok; do 2 eexists; split; [reflexivity|reflexivity|..].
- by rewrite !mxE /= /dr_z /dr_z' /=; apply/eqP; rewrite eqr_nat.
- have := @C124_columns Q ho_rev 3 2 4 vee tgts (one_two Q) obs dr_u dr_z dr_u dr_z' 14 seed7 seed7 _ _
    vee_square vee_nonneg tgts_nodup (dr_ok obs dr_z) (dr_ok obs dr_z') (fun _ _ => erefl) dr_but (PG 4 1 2) (PG 4 0 2).
  apply=> [|[]] //; by rewrite /= !mxE /= /dr_z /dr_z' /=; apply/eqP; rewrite eqr_nat.
- apply/matrixP => i j.
  have := @C124_columns Q ho_rev 3 2 4 vee tgts (one_two Q) obs dr_u dr_z dr_u dr_z' 14 seed7 seed7 _ _
    vee_square vee_nonneg tgts_nodup (dr_ok obs dr_z) (dr_ok obs dr_z') (fun _ _ => erefl) dr_but (PG 4 1 2) (PB 2 4 i j).
  apply=> //; by rewrite /= !mxE /= /dr_z /dr_z' /=; apply/eqP; rewrite eqr_nat.
Qed.
