(** psi_max bounds the variances of the latent variables, not their changes, and excludes no covariances (C143). *)
From Coq Require Import ZArith List.
From mathcomp Require Import all_ssreflect all_algebra.
From Verif Require Import Base GraphModel GraphSpec NumModel NumSpec ScoreModel ScoreSpec GradSpec MainModel MainSpec NestSpec BoundSpec.
From Verif Require Import LoopProofs NestProofs FitProofs ClassProofs GenProofs.
Set Implicit Arguments.
Unset Strict Implicit.
Unset Printing Implicit Defensive.
Import Order.Theory GRing.Theory Num.Theory.
Local Open Scope ring_scope.

Section Scale.
Variables (F : realFieldType) (p l e : nat).

Lemma noise_scale (c : F) (g : 'M[F]_(l, p)) (o : 'M[F]_(e, p)) (s : 'M[F]_(e, l)) (i : 'I_e) : c != 0 ->
  noise_cov (c *: g) o ((c ^+ 2)^-1 *: s) i = noise_cov g o s i.
Proof.
move=> c0; rewrite /noise_cov (_ : diag_mx (row i ((c ^+ 2)^-1 *: s)) = (c ^+ 2)^-1 *: diag_mx (row i s)); last first.
  by apply/matrixP => a b; rewrite !mxE mulrnAr.
have T : (c *: g)^T = c *: g^T by apply/matrixP => a b; rewrite !mxE.
rewrite T -scalemxAr -scalemxAr -!scalemxAl !scalerA.
by rewrite mulrAC -expr2 mulfV ?scale1r // expf_neq0.
Qed.

Lemma large_bound (s : 'M[F]_(e, l)) : exists2 M : F, 0 <= M & forall i j, s i j <= M.
Proof.
exists (\sum_i \sum_j `|s i j|); first by apply: sumr_ge0 => i _; apply: sumr_ge0.
move=> i j; rewrite (bigD1 i) //= (bigD1 j) //= -addrA; apply: le_trans (ler_norm _) _; rewrite ler_addl addr_ge0 //; first exact: sumr_ge0.
by apply: sumr_ge0 => k _; apply: sumr_ge0.
Qed.

Lemma scaled (u : F) pf A I (m : model F p l e) : 0 < u -> allowed None pf A I m ->
  exists m' : model F p l e, [/\ allowed (Some u) pf A I m', mB m' = mB m /\ momegas m' = momegas m, forall i, mnoise m' i = mnoise m i,
    same_changes m m' & forall (log : F -> F) sigmas n_obs, score log m' sigmas n_obs = score log m sigmas n_obs].
Proof.
move=> u0 [EA SU EI [po ps _] [HI HF]]; have [M M0 HM] := large_bound (mpsis m).
pose c := 1 + M / u.
have c1 : 1 <= c by rewrite ler_addl divr_ge0 // ltW.
have c0 : 0 < c by apply: lt_le_trans c1; exact: ltr01.
have c2 : 0 < c ^+ 2 by rewrite exprn_gt0.
pose m' := MkModel A (mB m) (c *: mgamma m) (momegas m) ((c ^+ 2)^-1 *: mpsis m) (mI_B m).
have EN i : mnoise m' i = mnoise m i by apply: noise_scale; rewrite gt_eqF.
exists m'; split=> //; last 2 first.
- by move=> i i' j /=; rewrite !mxE -mulf_div divff ?mul1r // invr_eq0 gt_eqF.
- by move=> log sigmas n_obs; apply: score_same.
split=> //=.
- split=> //= [i j|_ [<-] i j]; rewrite mxE; first by rewrite mulr_gt0 ?invr_gt0.
  rewrite mulrC ltr_pdivr_mulr //; apply: le_lt_trans (HM i j) _.
  have -> : M = u * (M / u) by rewrite mulrCA mulfV ?mulr1 // gt_eqF.
  rewrite ltr_pmul2l // -/c; apply: (@lt_le_trans _ _ c); first by rewrite /c ltr_addr ltr01.
  by rewrite expr2 ler_pmulr.
- by split=> // Ef j a b /=; rewrite !mxE (HF Ef j a b).
Qed.

Lemma unbounded (u : F) pf A I (m : model F p l e) : allowed (Some u) pf A I m -> allowed None pf A I m.
Proof. by move=> [EA SU EI [po ps _] H]; split. Qed.

Lemma scaled_optimal (u : F) pf A I log sigmas n_obs (m : model F p l e) : 0 < u ->
  (optimal log None pf sigmas n_obs A I m ->
     exists2 m' : model F p l e, optimal log (Some u) pf sigmas n_obs A I m' & score log m' sigmas n_obs = score log m sigmas n_obs) /\
  (optimal log (Some u) pf sigmas n_obs A I m -> optimal log None pf sigmas n_obs A I m).
Proof.
move=> u0; split=> -[Al Op].
  have [m' [Al' _ _ _ Sc]] := scaled u0 Al; exists m' => //; split=> // m1 x x1 /unbounded Al1; rewrite Sc; exact: Op.
split; first exact: unbounded Al.
move=> m1 x x1 Al1 Ex E1; have [m2 [Al2 _ _ _ Sc]] := scaled u0 Al1.
by apply: (Op m2 x x1 Al2) => //; rewrite Sc.
Qed.

Lemma range_changes (u : F) (m : model F p l e) : in_range (Some u) m -> changes_below u m.
Proof.
move=> [_ ps H] i i' j; have H' := H u erefl; rewrite ltr_norml ltr_subr_addr; apply/andP; split.
  by apply: lt_trans (ps i j); rewrite addrC subr_lt0.
by rewrite ltr_subl_addr; apply: lt_trans (H' i j) _; rewrite ltr_addl; exact: ps.
Qed.
End Scale.

Section Class.
Variables (F : realFieldType) (p e : nat) (w : world F p e) (a : args F).

Lemma class_changes candidates data prune seed ic J am u : a_psi_max a = Some u -> Forall (graph p) candidates ->
  equivalence_class w a candidates data prune seed = Ok (ic, J, am) -> changes_below u (projT2 am).
Proof.
move=> Eu Hc E; have [_ _ [tr [_ _ _ Rg _]] _] := equivalence_class_spec Hc E; apply: range_changes.
by move: Rg; rewrite /= Eu.
Qed.
Lemma ges_changes data seed ic J am u : a_psi_max a = Some u -> ges_pdag w ->
  equivalence_class_w_ges w a data seed = Ok (ic, J, am) -> changes_below u (projT2 am).
Proof.
move=> Eu Hw E; have [tr [_ [_ [_ [_ _ _ [_ _ _ Rg _] _]]]]] := ges_class_spec Hw E; apply: range_changes.
by move: Rg; rewrite /= Eu.
Qed.

Lemma fitted_small tr J (am : any_model F p e) u : (0 < e)%N -> a_psi_max a = Some u -> u <= 1 ->
  fitted_for (train_conf w a tr (projT1 am)) J (projT2 am) -> projT1 am = 0%N.
Proof.
move=> e0 Eu u1 [[SA NA] _ _ _ [_ [I' [rnd [m' [s [_ E _]]]]]]]; case: (posnP (projT1 am)) => // l0.
have Eu2 : cf_psi_max (train_conf w a tr (projT1 am)) = Some u := Eu.
by case: (fit_psi SA NA l0 e0 Eu2 u1 E).
Qed.

Lemma numbers_positive tr hs h : numbers w a tr = Ok hs -> (forall hs', a_nums_latent a = Some hs' -> ~ List.In 0%N hs') -> List.In h hs -> h <> 0%N.
Proof.
rewrite /numbers; case: (a_nums_latent a) => [hs'|] => [[<-] H Hh E|]; first by apply: (H hs'); rewrite -?E.
case: tr => // X tr; case: (scree_selection _ _ _) => //= k [<-] _ Hh E; move: Hh; rewrite E.
by move/GenProofs.In_mem; rewrite mem_iota.
Qed.

Lemma fit_small data ig prune seed am J sc u : (0 < e)%N -> a_psi_max a = Some u -> u <= 1 ->
  (forall hs, a_nums_latent a = Some hs -> ~ List.In 0%N hs) -> (forall gs, ig = Some gs -> Forall (graph p) gs) ->
  (forall tr gs, ig = None -> fit_ges w tr = Ok gs -> Forall (graph p) gs) ->
  fit_all w a data ig prune None None seed <> Ok (am, J, sc).
Proof.
move=> e0 Eu u1 Hn H1 H2 E.
have [tr [_ [_ [gs [hs [k [v [_ [_ En] [[Hk _] _ _] _ [Ft _ _]]]]]]]]] := fit_all_spec H1 H2 E.
apply: (numbers_positive En Hn (nth_error_In _ _ Hk)); exact: (fitted_small e0 Eu u1 Ft).
Qed.
Lemma class_small candidates data prune seed r u : (0 < e)%N -> a_psi_max a = Some u -> u <= 1 ->
  (forall hs, a_nums_latent a = Some hs -> ~ List.In 0%N hs) -> Forall (graph p) candidates ->
  equivalence_class w a candidates data prune seed <> Ok r.
Proof.
move=> e0 Eu u1 Hn Hc; rewrite /equivalence_class; case E: (fit_all _ _ _ _ _ _ _ _) => [[[am J] sc]|] //=.
by case: (fit_small e0 Eu u1 Hn _ _ E) => // gs [<-].
Qed.
Lemma ges_small data seed r u : (0 < e)%N -> a_psi_max a = Some u -> u <= 1 ->
  (forall hs, a_nums_latent a = Some hs -> ~ List.In 0%N hs) -> ges_pdag w -> equivalence_class_w_ges w a data seed <> Ok r.
Proof.
move=> e0 Eu u1 Hn HP; rewrite /equivalence_class_w_ges; case E: (fit_all _ _ _ _ _ _ _ _) => [[[am J] sc]|] //=.
case: (fit_small e0 Eu u1 Hn _ _ E) => // tr gs _ E1; have [gs' [E' H]] := fit_ges_spec tr HP; move: E'; rewrite E1 => -[Egs]; rewrite -Egs in H.
by apply/Forall_forall => D /H [[SD [BD _]] _]; split=> //; apply: Base.binary_nonneg.
Qed.
End Class.
