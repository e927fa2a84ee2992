(** The deviation metrics of a model in other units of measurement. *)
From Coq Require Import ZArith List.
From mathcomp Require Import all_ssreflect all_algebra.
From Verif Require Import Base GraphModel GraphSpec NumModel NumSpec GenModel GenSpec GenProofs NumProofs IncoProofs CovSpec IncoSpec Inco2Proofs MetricSpec.
Set Implicit Arguments.
Unset Strict Implicit.
Unset Printing Implicit Defensive.
Import Order.Theory GRing.Theory Num.Theory.
Local Open Scope nat_scope.
Local Open Scope ring_scope.

Section Strength.
Variables (F : realFieldType) (p l e : nat).

Lemma foldl_max_mul (k : F) : 0 <= k -> forall s a, foldl Order.max (a * k) [seq x * k | x <- s] = foldl Order.max a s * k.
Proof. by move=> Hk; elim=> [//|x s IH] a /=; rewrite -IH maxr_pmull. Qed.

Lemma strength_units (c : 'I_p -> F) (m m' : model F p l e) j : c j != 0 -> in_units c m m' ->
  intervention_strength m' j = c j ^+ 2 * intervention_strength m j.
Proof.
move=> Hc [_ _ _ Ho _]; rewrite /intervention_strength Ho; set X := momegas m; set k := c j ^+ 2.
have k0 : 0 <= k by apply: sqr_ge0.
have kN : k != 0 by rewrite sqrf_eq0.
have E i : variances_in c X i j = X i j * k by rewrite mxE.
have Em : col_mean (variances_in c X) j = col_mean X j * k.
  by rewrite /col_mean (eq_bigr _ (fun i _ => E i)) -mulr_suml mulrAC.
have Ev : col_var (variances_in c X) j = col_var X j * k ^+ 2.
  rewrite /col_var (eq_bigr (fun i => (X i j - col_mean X j) ^+ 2 * k ^+ 2)); first by rewrite -mulr_suml mulrAC.
  by move=> i _; rewrite E Em -mulrBl exprMn.
have Ex : col_max (variances_in c X) j = col_max X j * k.
  rewrite /col_max (eq_map E) (map_comp (fun x => x * k) (fun i => X i j)).
  by case: [seq X i j | i <- enum 'I_e] => [|x s] /=; [rewrite mul0r | apply: foldl_max_mul].
rewrite Ev Ex invfM mulrACA expr2 mulrK ?unitfE //.
by rewrite mulrC.
Qed.

Lemma strength_order (m : model F p l e) (i j : 'I_p) : i != j -> 0 < intervention_strength m i ->
  exists c : 'I_p -> F, (forall k, 0 < c k) /\
    forall m', in_units c m m' -> intervention_strength m' j < intervention_strength m' i.
Proof.
move=> Hij Hi; set si := intervention_strength m i in Hi *; set sj := intervention_strength m j.
have q0 : 0 <= `|sj| / si by rewrite divr_ge0 ?normr_ge0 // ltW.
have k1 : 1 <= 1 + `|sj| / si by rewrite ler_addl.
exists (fun k => if k == i then 1 + `|sj| / si else 1); split.
  by move=> k; case: ifP => _; [apply: lt_le_trans k1 | ]; rewrite ltr01.
have Hk k : (if k == i then 1 + `|sj| / si else 1) != 0.
  by rewrite gt_eqF //; case: ifP => _; [apply: lt_le_trans k1 | ]; rewrite ltr01.
move=> m' Hm; rewrite (strength_units (Hk j) Hm) (strength_units (Hk i) Hm) eqxx eq_sym (negbTE Hij) expr1n mul1r -/si -/sj.
apply: le_lt_trans (ler_norm _) _; rewrite -ltr_pdivr_mulr //.
apply: lt_le_trans (_ : 1 + `|sj| / si <= _); first by rewrite ltr_addr ltr01.
by rewrite expr2 -[X in X <= _]mul1r ler_wpmul2r // (le_trans ler01).
Qed.

Lemma effects_units (c : 'I_p -> F) (m m' : model F p l e) i : (forall j, c j != 0) -> in_units c m m' ->
  effects m' i = \matrix_(j, k) (effects m i j k / c j).
Proof.
move=> Hc [_ HB Hg Ho _]; apply/matrixP=> j k; rewrite !mxE HB Hg Ho !mxE.
have E j' : mgamma m k j' * c j' / (momegas m i j' * c j' ^+ 2) = mgamma m k j' / momegas m i j' / c j'.
  by rewrite -mulf_div; congr (_ * _); rewrite expr2 invfM mulrA mulfV ?mul1r.
rewrite E mulrBl; congr (_ - _); rewrite mulr_suml; apply: eq_bigr => j' _; rewrite !mxE E.
by rewrite -!mulrA; congr (_ * _); rewrite mulrC -!mulrA mulVf // mulr1 mulrC -!mulrA.
Qed.
End Strength.

(** Two variables with effects 3 and 4 of the latent; in other units the effects are 12 and 5 *)
Definition ex_units (j : 'I_2) : RQ := nth 0 [:: 4%:R^-1; 4%:R / 5%:R] j.
Definition unit_model : model RQ 2 1 1 :=
  @MkModel RQ 2 1 1 root_A (weights_in ex_units 0) (loadings_in ex_units (mgamma root_model)) (variances_in ex_units (momegas root_model))
    (const_mx 1) 1%:M.
Definition unit_v (j : nat) : RQ := nth 0 [:: 12%:R; 5%:R] j.
Definition unit_U : 'M[RQ]_(2, minn 2 1) := \matrix_(j, k) (unit_v j / 13%:R).

Lemma ex_units_gt0 j : 0 < ex_units j.
Proof.
have P n : 0 < n.+1%:R :> RQ by rewrite ltr0n.
by case: j => [[|[|//]] ?]; [rewrite invr_gt0; exact: P | apply: divr_gt0; exact: P].
Qed.
Lemma unit_in : in_units ex_units root_model unit_model.
Proof. by split. Qed.

Lemma unit_UU : unit_U^T *m unit_U = 1%:M.
Proof.
apply/matrixP=> k k'; rewrite mxE !big_ord_recr big_ord0 /= add0r !mxE.
case: k k' => [[|//] ?] [[|//] ?]; apply/eqP; vm_compute; reflexivity.
Qed.

Lemma root_effects i j k : effects root_model i j k = root_v j.
Proof. by rewrite !mxE divr1 bigop.big1 ?subr0 // => j' _; rewrite mxE mul0r. Qed.

Lemma unit_factor i : left_factor (effects unit_model i) unit_U /\ \rank (effects unit_model i) = 1%N.
Proof.
have E : effects unit_model i = unit_U *m (const_mx 13%:R : 'M_(minn 2 1, 1)).
  rewrite (effects_units _ (fun j => lt0r_neq0 (ex_units_gt0 j)) unit_in).
  apply/matrixP=> j k; rewrite mxE root_effects mxE big_ord_recr big_ord0 /= add0r !mxE.
  case: j => [[|[|//]] ?]; apply/eqP; vm_compute; reflexivity.
split.
  split; first exact: unit_UU.
  exists (const_mx 13%:R); split; first exact: E.
  by apply/is_diag_mxP => -[[|//] ?] [[|//] ?].
apply/anti_leq/andP; split; first exact: rank_leq_col.
have /mulmx1_min_rank // : unit_U^T *m effects unit_model i *m const_mx (13%:R)^-1 = 1%:M.
rewrite E mulmxA unit_UU mul1mx; apply/matrixP=> k k'; rewrite mxE big_ord_recr big_ord0 /= add0r !mxE.
case: k k' => [[|//] ?] [[|//] ?]; apply/eqP; vm_compute; reflexivity.
Qed.

Lemma unit_squared : squared_incoherence unit_model ((12%:R / 13%:R) ^+ 2).
Proof.
have E i (j : 'I_2) : projection (effects unit_model i) j j = (unit_v j / 13%:R) ^+ 2.
  have [H R] := unit_factor i; rewrite -(@factor_projection _ _ _ _ _ unit_U _ H R) // mxE big_ord_recr big_ord0 /= add0r !mxE.
  by rewrite expr2.
split; first by exists ord0, ord0; rewrite E.
move=> i j; rewrite E; case: j => [[|[|//]] ?]; first exact: lexx.
rewrite ler_pexpn2r // ?nnegrE ?divr_ge0 ?ler0n //; rewrite ler_pmul2r ?invr_gt0 ?ltr0n //; rewrite ler_nat //.
Qed.

Lemma incoherence_units h : exists (c : 'I_2 -> RQ) (m m' : model RQ 2 1 1) (svd : 'M[RQ]_(2, 1) -> 'M[RQ]_(2, minn 2 1)) y y',
  [/\ forall j, 0 < c j, in_units c m m', square 2 (mA m) /\ nonneg (mA m),
    forall i, left_factor (effects m i) (svd (effects m i)) /\ left_factor (effects m' i) (svd (effects m' i)) &
    [/\ scaled_latent_incoherence h svd m = Ok y, scaled_latent_incoherence h svd m' = Ok y' & y <> y']].
Proof.
have [SA NA] := root_square.
pose svd (X : 'M[RQ]_(2, 1)) := if X 0 0 == 3%:R then root_U else unit_U.
have S1 i : svd (effects root_model i) = root_U by rewrite /svd root_effects eqxx.
have S2 i : svd (effects unit_model i) = unit_U.
  rewrite /svd (effects_units _ (fun j => lt0r_neq0 (ex_units_gt0 j)) unit_in) mxE root_effects.
  suff -> : (root_v (0 : 'I_2) / ex_units 0 == 3%:R) = false by []. by vm_compute.
have F1 i : left_factor (effects root_model i) (svd (effects root_model i)) /\ \rank (effects root_model i) = 1%N.
  by rewrite S1; exact: root_factor.
have F2 i : left_factor (effects unit_model i) (svd (effects unit_model i)) /\ \rank (effects unit_model i) = 1%N.
  by rewrite S2; exact: unit_factor.
have [d [x [E1 [[v [Hv Hd]] H] X1]]] := @incoherence_value RQ h 2 1 1 svd root_model isT isT isT SA NA F1.
have [d' [x' [E2 [[v' [Hv' Hd']] H'] X2]]] := @incoherence_value RQ h 2 1 1 svd unit_model isT isT isT SA NA F2.
have Ed : d' = d by apply/anti_leq; rewrite (H _ _ Hv' Hd') (H' _ _ Hv Hd).
rewrite {}Ed {Hv' Hd' H' d'} in E2.
rewrite (squared_unique X1 root_squared) in E1; rewrite (squared_unique X2 unit_squared) in E2.
exists ex_units, root_model, unit_model, svd, ((4%:R / 5%:R) ^+ 2 * d%:R), ((12%:R / 13%:R) ^+ 2 * d%:R); split.
- exact: ex_units_gt0.
- exact: unit_in.
- exact: root_square.
- by move=> i; split; [exact: (proj1 (F1 i)) | exact: (proj1 (F2 i))].
split; [exact: E1 | exact: E2 |].
have d0 : d%:R != 0 :> RQ by rewrite pnatr_eq0 -lt0n; exact: (H 0%N 1%N isT root_degree).
move=> Ey; have /eqP := mulIf d0 Ey; vm_compute; discriminate.
Qed.
