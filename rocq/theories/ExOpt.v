(** Concrete instances of the hypotheses in PropOpt.v. *)
From Coq Require Import ZArith List Lia.
From mathcomp Require Import all_ssreflect all_algebra.
From Verif Require Import Base FieldTac GraphSpec NumSpec ScoreSpec GradSpec OptSpec GraphModel NumModel ScoreModel NumProofs ScoreProofs NoErrProofs.
From Verif Require Import GradProofs LinAlgProofs OptProofs ConsistProofs Run2Proofs Bsolve4Proofs PropOpt.
Set Implicit Arguments.
Unset Strict Implicit.
Unset Printing Implicit Defensive.
Import Order.Theory GRing.Theory Num.Theory.
Local Open Scope ring_scope.

Section Log.
Variable F : realFieldType.
Add Field ffE : (fieldT F).

(** A function on any ordered field that is below the logarithm and tangent to it at 1 *)
Definition inv_log (x : F) : F := 1 - x^-1.

Lemma inv_log_smono x y : 0 < x -> x < y -> inv_log x < inv_log y.
Proof.
move=> x0 xy; rewrite /inv_log ltr_add2l ltr_opp2 ltr_pinv ?inE ?unitfE ?gt_eqF //; exact: lt_trans x0 xy.
Qed.
Lemma inv_log_mono x y : 0 < x -> x <= y -> inv_log x <= inv_log y.
Proof. by move=> x0; rewrite le_eqVlt => /orP [/eqP -> // | /(inv_log_smono x0) /ltW]. Qed.

(** The difference for two factors *)
Lemma inv_log_diff x y : 0 < x -> 0 < y ->
  (x - 1 + (y - 1) - inv_log (x * y)) * (x * y * 4%:R) =
  (x + y + 1) * (x + y - 2%:R) ^+ 2 + (3%:R - (x + y)) * (x - y) ^+ 2.
Proof.
move=> x0 y0; rewrite /inv_log.
have N : x * y != 0 by rewrite gt_eqF // mulr_gt0.
have -> : (x - 1 + (y - 1) - (1 - (x * y)^-1)) * (x * y * 4%:R) =
          (x - 1 + (y - 1) - 1) * (x * y * 4%:R) + (x * y)^-1 * (x * y) * 4%:R.
  by move: (4%:R) (x * y)^-1 (x * y) => a b c; rg F.
by rewrite mulVf // ?expr2 /GRing.natmul /=; rg F.
Qed.

Lemma inv_log_two x y : 0 < x -> 0 < y -> inv_log (x * y) <= x - 1 + (y - 1) /\
  (inv_log (x * y) = x - 1 + (y - 1) -> x = 1 /\ y = 1).
Proof.
move=> x0 y0; have D := inv_log_diff x0 y0.
have P : 0 < x * y * 4%:R by rewrite !mulr_gt0 // ltr0n.
have [s3|s3] := leP 3%:R (x + y).
  have lt : inv_log (x * y) < x - 1 + (y - 1).
    apply: lt_le_trans (_ : 1 <= _); first by rewrite /inv_log ltr_subl_addr ltr_addl invr_gt0 mulr_gt0.
    have -> : x - 1 + (y - 1) = x + y - 2%:R by rewrite /GRing.natmul /=; rg F.
    by rewrite ler_subr_addl -[1]/(1%:R) -natrD.
  by split; [exact: ltW | move=> E; rewrite E ltxx in lt].
have A : 0 <= (x + y + 1) * (x + y - 2%:R) ^+ 2 by rewrite mulr_ge0 ?sqr_ge0 // !addr_ge0 ?ler01 ?ltW.
have B : 0 <= (3%:R - (x + y)) * (x - y) ^+ 2 by rewrite mulr_ge0 ?sqr_ge0 // subr_ge0 ltW.
split; first by rewrite -subr_ge0 -(pmulr_lge0 _ P) D addr_ge0.
move=> E; rewrite E subrr mul0r in D.
move/esym/eqP: D; rewrite paddr_eq0 // ![_ * _ ^+ 2 == 0]mulf_eq0.
have -> : (x + y + 1 == 0) = false by rewrite gt_eqF ?addr_gt0 ?ltr01.
have -> /= : (3%:R - (x + y) == 0) = false by rewrite gt_eqF ?subr_gt0.
rewrite !sqrf_eq0 !subr_eq0 => /andP [/eqP s2 /eqP xy].
subst y; suff -> : x = 1 by [].
by apply: (mulfI (x := 2%:R)); rewrite ?pnatr_eq0 // mulr1 mulr_natl mulr2n.
Qed.

Lemma inv_log_tangent : log_tangent_strict inv_log 2 1.
Proof.
have V1 : inv_log 1 = 0 by rewrite /inv_log invr1 subrr.
split; [split | exact: inv_log_smono |].
- exact: inv_log_mono.
- move=> x x0; rewrite mul1r V1 add0r !big_ord_recl !big_ord0 mulr1 addr0.
  by case: (inv_log_two (x0 ord0) (x0 (lift ord0 ord0))).
move=> x x0; rewrite mul1r V1 add0r !big_ord_recl !big_ord0 mulr1 addr0.
case: (inv_log_two (x0 ord0) (x0 (lift ord0 ord0))) => _ H /H [E0 E1] i.
by case: (unliftP ord0 i) => [j|] ->; rewrite ?[j]ord1.
Qed.
End Log.

Section Ex.
Variables (F : archiFieldType) (h : hord).

(** 0 -> 1 with weight 3, one latent variable with an effect on 0, two environments *)
Definition Bt : 'M[F]_2 := \matrix_(i, j) (if (i == 0) && (j == 1) then 3%:R else 0).
Definition gt_ : 'M[F]_(1, 2) := \matrix_(i, j) (if j == 0 then 1 else 0).
Definition st : 'M[F]_(2, 1) := \matrix_(i, j) (if i == 0 then 1 else 2%:R).
Definition ot : 'M[F]_(2, 2) := \matrix_(i, j) (if j == 0 then 1 else if i == 0 then 2%:R^-1 else 3%:R^-1).
Definition mt : model F 2 1 2 := MkModel A2 Bt gt_ ot st (1%:M - Bt^T).

Lemma Bt_supported : supported A2 Bt.
Proof. by move=> [[|[|i]] Hi] [[|[|j]] Hj] //; rewrite mxE /= ?eqxx. Qed.
Lemma mt_new : new_model h A2 Bt gt_ ot st = Ok mt.
Proof.
case: (new_model_spec h Bt gt_ ot st A2_sq A2_nonneg) => [[_ [_ ->]]//|[]].
by case; split; [exact: A2_acyclic | exact: Bt_supported].
Qed.
Lemma ot_pos : positive ot.
Proof. by move=> i j; rewrite mxE; do 2 try (case: ifP => _); rewrite ?ltr01 ?invr_gt0 ?ltr0n. Qed.
Lemma st_ge0 a b : 0 <= st a b.
Proof. by rewrite mxE; case: ifP => _; rewrite ?ler01 ?ler0n. Qed.
Lemma noise_t (i : 'I_2) : noise gt_ ot st i = diag_mx (\row_j (if i == 0 then (if j == 0 then 2%:R else 2%:R^-1) else
                                                             (if j == 0 then 3%:R else 3%:R^-1))).
Proof.
apply/matrixP => u v; rewrite !mxE big_ord1 !mxE.
case: u v i => [[|[|u]] Hu] [[|[|v]] Hv] [[|[|i]] Hi] //=; rewrite ?mulr1 ?mul1r ?mulr0 ?mul0r ?addr0 ?add0r ?mulr1n ?mulr0n //.
by rewrite -[1]/(1%:R) -natrD.
Qed.
Lemma det_t (i : 'I_2) : \det (noise gt_ ot st i) = 1.
Proof.
rewrite noise_t det_diag !big_ord_recl big_ord0 !mxE /=.
by case: ifP => _; rewrite mulr1 mulfV ?pnatr_eq0.
Qed.

(** The empty graph without latent variables *)
Definition A0 : mat := (Z0 :: Z0 :: nil) :: (Z0 :: Z0 :: nil) :: nil.
Lemma A0_sq : square 2 A0. Proof. by split=> //; repeat constructor. Qed.
Lemma A0_nonneg : nonneg A0. Proof. by move=> [|[|[|i]]] [|[|[|j]]] //=; lia. Qed.
Lemma A0_acyclic : acyclic A0.
Proof.
have N i j : ~ edge A0 i j by case: i => [|[|[|i]]]; case: j => [|[|[|j]]] //= H; case: H.
have P i j : Relation_Operators.clos_trans nat (edge A0) i j -> False by elim=> // x y /N.
by move=> i /P.
Qed.
Definition m0 : model F 2 0 2 := MkModel A0 0 (no_g F) (one_o F 2) (no_s F 2) (1%:M - 0^T).
Lemma m0_new : new_model h A0 0 (no_g F) (one_o F 2) (no_s F 2) = Ok m0.
Proof.
case: (new_model_spec h 0 (no_g F) (one_o F 2) (no_s F 2) A0_sq A0_nonneg) => [[_ [_ ->]]//|[]].
by case; split; [exact: A0_acyclic | move=> i j; rewrite mxE eqxx].
Qed.

(** They do not entail the same covariances. *)
Lemma inv_Bt : invmx (1%:M - Bt^T) = 1%:M + Bt^T.
Proof.
have E : (1%:M - Bt^T) *m (1%:M + Bt^T) = 1%:M.
  rewrite mulmxBl mul1mx mulmxDr mulmx1.
  have -> : Bt^T *m Bt^T = 0 by apply/matrixP => -[[|[|i]] Hi] [[|[|j]] Hj] //; rewrite !mxE !big_ord_recl big_ord0 !mxE /= ?mulr0 ?mul0r ?addr0.
  by rewrite addr0 addrK.
have [U _] := mulmx1_unit E; by rewrite -[RHS](mulKmx U) E mulmx1.
Qed.
Lemma entailed_ne : entailed 0 (no_g F) (one_o F 2) (no_s F 2) 0 <> entailed Bt gt_ ot st 0.
Proof.
move/matrixP/(_ 0 1); rewrite /entailed noise_one' trmx0 subr0 invmx1 trmx1 !mulmx1 inv_Bt noise_t.
rewrite linearD /= trmxK trmx1 mulmxDr mulmx1 mulmxDl mul1mx !mxE !big_ord_recl !big_ord0 !mxE /=.
rewrite !big_ord_recl !big_ord0 !mxE /= ?mulr0 ?mul0r ?mulr1n ?mulr0n ?addr0 ?add0r ?mul1r ?mulr1 => /eqP.
by rewrite -natrM eq_sym pnatr_eq0.
Qed.

(** Any numbers of observations *)
Example C96_ex (n_obs : 'I_2 -> nat) : (forall i, (0 < n_obs i)%N) ->
  exists x y, [/\ score (@inv_log F) mt (entailed Bt gt_ ot st) n_obs = Ok x,
                  score (@inv_log F) m0 (entailed Bt gt_ ot st) n_obs = Ok y & x < y].
Proof.
move=> n0; have T i : log_tangent_strict (@inv_log F) 2 (\det (noise gt_ ot st i))^-1.
  by rewrite det_t invr1; apply: inv_log_tangent.
have [x [y [Ex Ey le]]] := C96_consistent n_obs A2_sq A2_nonneg mt_new ot_pos st_ge0 A0_sq A0_nonneg m0_new (@one_o_pos F 2)
  (@no_s_ge0 F 2) (fun i => let: And3 t _ _ := T i in t).
exists x, y; split=> //; rewrite lt_neqAle le andbT; apply/eqP => xy.
apply: entailed_ne; apply: (C96_identified A2_sq A2_nonneg mt_new ot_pos st_ge0 A0_sq A0_nonneg m0_new (@one_o_pos F 2)
  (@no_s_ge0 F 2) T n0).
by rewrite Ex Ey xy.
Qed.

(** The covariances entailed by the first model as those of a sample *)
Definition St (k : 'I_2) : 'M[F]_2 := entailed Bt gt_ ot st k.
Lemma St_posdef k : posdef (St k).
Proof. exact: (entailed_posdef A2_sq A2_nonneg mt_new ot_pos st_ge0). Qed.
Lemma St_tangent k : log_tangent (@inv_log F) 2 (\det (St k))^-1.
Proof.
rewrite /St /entailed !det_mulmx det_tr det_inv (det_sub_dag A2_acyclic Bt_supported) det_t invr1 !mulr1 invr1.
by case: (inv_log_tangent F).
Qed.

Example C97_ex (n_obs : 'I_2 -> nat) : exists x, score (@inv_log F) m0 St n_obs = Ok x /\
  \sum_i (n_obs i)%:R / (\sum_k n_obs k)%N%:R ^+ (2 - i) * (2%:R - inv_log (\det (St i))^-1) <= x.
Proof.
exact: (C97_bounded_below n_obs St_posdef St_tangent A0_sq A0_nonneg m0_new (@one_o_pos F 2) (@no_s_ge0 F 2)).
Qed.

(** At most 5 rounds with 30 and 50 observations *)
Definition cft : conf F 2 1 2 :=
  Conf (@inv_log F) h id (fun=> Some Bt) (fun X => (X, const_mx 1)) id (fun=> true) St (fun k : 'I_2 => if k == 0%R then 30 else 50)%N
    (Some 4%:R) false 5 (10%:R^-1) (10%:R^-1) 2 (10%:R^-1) (10%:R^-1) Cvx 1.
Lemma tenth : 0 < 10%:R^-1 :> F. Proof. by rewrite invr_gt0 ltr0n. Qed.

Example C98_gamma_ex : exists r, settles (fun k => solve_gamma (with_fuel cft k) mt) (Ok r).
Proof.
apply: (C98_gamma_ends (cf := cft) A2_sq A2_nonneg A2_acyclic St_posdef St_tangent tenth) => //;
  [exact: Bt_supported | exact: ot_pos | exact: st_ge0].
Qed.

Lemma mt_range : in_range (cf_psi_max cft) mt.
Proof.
split; [exact: ot_pos | | move=> u [<-] i j]; rewrite ?mxE.
- by move=> i j; rewrite mxE; case: ifP => _; rewrite ?ltr01 ?ltr0n.
- by case: ifP => _; rewrite ?ltr1n ?ltr_nat.
Qed.
Example C98_rest_ex : exists r, settles (fun k => solve_rest (with_fuel cft k) mt [:: 1%N]) (Ok r).
Proof.
apply: (C98_rest_ends (cf := cft) A2_sq A2_nonneg A2_acyclic St_posdef St_tangent tenth) => //;
  [exact: Bt_supported | exact: mt_range | by move=> u [<-]; rewrite ler0n].
Qed.

Example C98_fit_ex rnd : exists x, settles (fun k => fit (with_fuel cft k) A2 [:: 1%N] None rnd) (Ok x).
Proof.
apply: (C98_cvx_fit_returns (cf := cft) A2_sq A2_nonneg A2_acyclic) => //; first exact: St_posdef.
- by move=> k; rewrite /=; case: ifP.
- exact: St_tangent.
- exact: tenth.
- by move=> u [<-]; rewrite ltr1n.
by move=> m _; exists Bt; split=> //; apply: Bt_supported.
Qed.

(** Starting from a given model *)
Example C98_fit_from_ex rnd : exists r, settles (fun k => fit (with_fuel cft k) A2 [:: 1%N] (Some mt) rnd) r /\ r <> Err OutOfFuel.
Proof.
apply: (C98_fit_ends (cf := cft) A2_sq A2_nonneg A2_acyclic St_posdef St_tangent tenth) => //.
- exact: TermProofs.cvx_ends.
- by move=> u [<-]; rewrite ler0n.
by move=> m [<-]; split; [exact: Bt_supported | exact: mt_range | exact: A2_sq].
Qed.
End Ex.
