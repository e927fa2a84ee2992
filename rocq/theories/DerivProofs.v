(** Derivatives at 0 of functions of one variable over a real field. *)
From mathcomp Require Import all_ssreflect all_algebra.
From Verif Require Import FieldTac GradSpec.
Set Implicit Arguments.
Unset Strict Implicit.
Unset Printing Implicit Defensive.
Import Order.Theory GRing.Theory Num.Theory.
Local Open Scope nat_scope.
Local Open Scope ring_scope.

Section Deriv.
Variable F : realFieldType.
Add Field ff : (fieldT F).
Implicit Types (f g : F -> F) (d x y t : F).

Definition near (P : F -> Prop) : Prop := exists2 del : F, 0 < del & forall t, `|t| < del -> P t.
Lemma near_and P Q : near P -> near Q -> near (fun t => P t /\ Q t).
Proof.
case=> d1 H1 K1 [d2 H2 K2]; exists (Num.min d1 d2); first by rewrite lt_minr H1.
by move=> t; rewrite lt_minr => /andP [/K1 ? /K2 ?].
Qed.
Lemma near_imp (P Q : F -> Prop) : (forall t, P t -> Q t) -> near P -> near Q.
Proof. by move=> H [del Hd K]; exists del => // t /K /H. Qed.
Lemma near_all (P : F -> Prop) : (forall t, P t) -> near P.
Proof. by move=> H; exists 1; rewrite ?ltr01. Qed.
Lemma near_lt d : 0 < d -> near (fun t => `|t| < d).
Proof. by move=> H; exists d. Qed.
Lemma near0 P : near P -> P 0.
Proof. by case=> d Hd; apply; rewrite normr0. Qed.

Definition small f : Prop := forall eps, 0 < eps -> near (fun t => `|f t| <= eps * `|t|).
Lemma derivE f d : has_deriv f d <-> small (fun t => f t - f 0 - t * d).
Proof. by split. Qed.

Lemma small_add f g : small f -> small g -> small (fun t => f t + g t).
Proof.
move=> Hf Hg eps He; have He2 : 0 < eps / 2%:R by rewrite divr_gt0 ?ltr0n.
apply: near_imp (near_and (Hf _ He2) (Hg _ He2)) => t [H1 H2].
apply: (le_trans (ler_norm_add _ _)); apply: (le_trans (ler_add H1 H2)).
by rewrite -mulrDl -splitr.
Qed.
Lemma small_mul f g C : small f -> near (fun t => `|g t| <= C) -> small (fun t => f t * g t).
Proof.
move=> Hf Hg eps He; pose C' := `|C| + 1.
have HC : 0 < C' by rewrite ltr_paddl.
have He2 : 0 < eps / C' by rewrite divr_gt0.
apply: near_imp (near_and (Hf _ He2) Hg) => t [H1 H2]; rewrite normrM.
have H3 : `|g t| <= C' by apply: (le_trans H2); apply: (le_trans (ler_norm C)); rewrite ler_addl.
apply: (le_trans (ler_pmul (normr_ge0 _) (normr_ge0 _) H1 H3)).
by rewrite mulrAC divfK ?gt_eqF.
Qed.
Lemma small_near f g : near (fun t => f t = g t) -> small f -> small g.
Proof. by move=> E Hf eps He; apply: near_imp (near_and E (Hf _ He)) => t [<-]. Qed.
Lemma small_ext f g : f =1 g -> small f -> small g.
Proof. by move=> E; apply/small_near/near_all. Qed.
Lemma small_sq f C : near (fun t => `|f t| <= C * `|t|) -> small (fun t => t * f t).
Proof.
move=> Hf eps He; pose C' := `|C| + 1.
have HC : 0 < C' by rewrite ltr_paddl.
have He2 : 0 < eps / C' by rewrite divr_gt0.
apply: near_imp (near_and (near_lt He2) Hf) => t [H1 H2]; rewrite normrM mulrC.
apply: ler_wpmul2r => //; apply: (le_trans H2).
have : C * `|t| <= C' * `|t| by apply: ler_wpmul2r => //; apply: (le_trans (ler_norm C)); rewrite ler_addl.
move/le_trans; apply; apply: (le_trans (ler_wpmul2l (ltW HC) (ltW H1))).
by rewrite mulrC divfK ?gt_eqF.
Qed.

Lemma deriv_lip f d : has_deriv f d -> near (fun t => `|f t - f 0| <= (`|d| + 1) * `|t|).
Proof.
move=> /derivE /(_ 1 ltr01); apply: near_imp => t; rewrite mul1r => H.
have -> : f t - f 0 = t * d + (f t - f 0 - t * d) by rewrite [_ + (_ - _)]addrC subrK.
by apply: (le_trans (ler_norm_add _ _)); rewrite normrM [`|t| * _]mulrC mulrDl mul1r ler_add2l.
Qed.
Lemma deriv_cont f d eps : has_deriv f d -> 0 < eps -> near (fun t => `|f t - f 0| < eps).
Proof.
move=> Hf He; have H1 : 0 < `|d| + 1 by rewrite ltr_paddl.
have He2 : 0 < eps / (`|d| + 1) by rewrite divr_gt0.
apply: near_imp (near_and (near_lt He2) (deriv_lip Hf)) => t [H2 H3].
by apply: (le_lt_trans H3); rewrite mulrC -ltr_pdivl_mulr.
Qed.
Lemma deriv_bnd f d : has_deriv f d -> near (fun t => `|f t| <= `|f 0| + 1).
Proof.
move=> Hf; apply: near_imp (deriv_cont Hf ltr01) => t H.
have -> : f t = f 0 + (f t - f 0) by rewrite addrC subrK.
by apply: (le_trans (ler_norm_add _ _)); rewrite ler_add2l ltW.
Qed.

Lemma deriv_near f g d : near (fun t => f t = g t) -> has_deriv f d -> has_deriv g d.
Proof.
move=> E /derivE H; apply/derivE; apply: small_near H; rewrite -(near0 E).
by apply: near_imp E => t ->.
Qed.
Lemma deriv_ext f g d : f =1 g -> has_deriv f d -> has_deriv g d.
Proof. by move=> E; apply/deriv_near/near_all. Qed.
Lemma deriv_eq f d d' : has_deriv f d -> d = d' -> has_deriv f d'.
Proof. by move=> H <-. Qed.

Lemma deriv_cst (c : F) : has_deriv (fun=> c) 0.
Proof. by apply/derivE => eps He; apply: near_all => t; rewrite subrr mulr0 subr0 normr0; apply: mulr_ge0 (ltW He) (normr_ge0 t). Qed.
Lemma deriv_id : has_deriv (fun t : F => t) 1.
Proof. by apply/derivE => eps He; apply: near_all => t; rewrite mulr1 subr0 subrr normr0; apply: mulr_ge0 (ltW He) (normr_ge0 t). Qed.
Lemma deriv_add f g d d' : has_deriv f d -> has_deriv g d' -> has_deriv (fun t => f t + g t) (d + d').
Proof.
move=> /derivE Hf /derivE Hg; apply/derivE; apply: small_ext (small_add Hf Hg) => t /=; by rg F.
Qed.
Lemma deriv_mul f g d d' : has_deriv f d -> has_deriv g d' ->
  has_deriv (fun t => f t * g t) (d * g 0 + f 0 * d').
Proof.
move=> Hf Hg; apply/derivE.
have H1 := small_mul (proj1 (derivE _ _) Hf) (deriv_bnd Hg).
have H2 : small (fun t => (g t - g 0 - t * d') * f 0).
  by apply: (small_mul (C := `|f 0|) (proj1 (derivE _ _) Hg)); apply: near_all.
have H3 : small (fun t => t * (d * (g t - g 0))).
  apply: (@small_sq _ (`|d| * (`|d'| + 1))); apply: near_imp (deriv_lip Hg) => t H.
  by rewrite normrM -mulrA ler_wpmul2l.
apply: small_ext (small_add (small_add H1 H2) H3) => t /=; by rg F.
Qed.
Lemma deriv_scale c f d : has_deriv f d -> has_deriv (fun t => c * f t) (c * d).
Proof. by move=> H; apply: deriv_eq (deriv_mul (deriv_cst c) H) _; rewrite mul0r add0r. Qed.
Lemma deriv_opp f d : has_deriv f d -> has_deriv (fun t => - f t) (- d).
Proof.
move=> H; apply: (@deriv_ext (fun t => -1 * f t)); first by move=> t; rewrite mulN1r.
by apply: deriv_eq (deriv_scale (-1) H) _; rewrite mulN1r.
Qed.
Lemma deriv_sum (I : Type) (r : seq I) (P : pred I) (f : I -> F -> F) (d : I -> F) :
  (forall i, P i -> has_deriv (f i) (d i)) -> has_deriv (fun t => \sum_(i <- r | P i) f i t) (\sum_(i <- r | P i) d i).
Proof.
move=> H; elim: r => [|i r IH].
  by apply: (@deriv_ext (fun=> 0)) => [t|]; rewrite big_nil //; apply: deriv_cst.
rewrite big_cons; case: ifP => Pi; last first.
  by apply: deriv_ext IH => t; rewrite big_cons Pi.
by apply: deriv_ext (deriv_add (H _ Pi) IH) => t; rewrite big_cons Pi.
Qed.
Lemma deriv_inv f d : has_deriv f d -> f 0 != 0 -> has_deriv (fun t => (f t)^-1) (- d / (f 0 * f 0)).
Proof.
move=> Hf f0; apply/derivE; have n0 : 0 < `|f 0| / 2%:R by rewrite divr_gt0 ?ltr0n // normr_gt0.
pose C := 2%:R / (`|f 0| * `|f 0|).
have low : near (fun t => `|f 0| / 2%:R <= `|f t|).
  apply: near_imp (deriv_cont Hf n0) => t H.
  have : `|f 0| <= `|f t| + `|f t - f 0|.
    by have := ler_norm_sub (f t) (f t - f 0); rewrite opprB [_ + (_ - _)]addrC subrK.
  move=> H1; have := le_trans H1 (ler_add (lexx `|f t|) (ltW H)).
  by rewrite -ler_subl_addr {1}[`|f 0|]splitr addrK.
have bnd : near (fun t => f t != 0 /\ `|(f t * f 0)^-1| <= C).
  apply: near_imp low => t H; have p1 : 0 < `|f t| by exact: lt_le_trans n0 H.
  split; first by rewrite -normr_gt0.
  have p0 : 0 < `|f 0| by rewrite normr_gt0.
  rewrite normfV normrM /C -[2%:R]invrK -invfM lef_pinv ?posrE ?mulr_gt0 ?invr_gt0 ?ltr0n //.
  by rewrite mulrA; apply: ler_wpmul2r => //; rewrite mulrC.
have H1 : small (fun t => (f t - f 0 - t * d) * (- (f t * f 0)^-1)).
  apply: (small_mul (proj1 (derivE _ _) Hf) (C := C)); apply: near_imp bnd => t [_ H]; by rewrite normrN.
have H2 : small (fun t => t * (d * (f t - f 0) * (f t * f 0)^-1 / f 0)).
  apply: (@small_sq _ (`|d| * (`|d| + 1) * C * `|(f 0)^-1|)).
  apply: near_imp (near_and bnd (deriv_lip Hf)) => t [[_ B1] B2].
  have -> : `|d| * (`|d| + 1) * C * `|(f 0)^-1| * `|t| = `|d| * ((`|d| + 1) * `|t|) * C * `|(f 0)^-1| by rg F.
  rewrite !normrM; apply: ler_wpmul2r => //; apply: ler_pmul => //; first by rewrite mulr_ge0.
  exact: ler_wpmul2l.
have H3 := small_add H1 H2.
apply: small_near H3; apply: near_imp bnd => t [ft _]; fd F; split; exact/eqP.
Qed.

Lemma deriv_comp (log : F -> F) f d k : has_deriv f d -> has_deriv (fun x => log (f 0 + x)) k ->
  has_deriv (fun t => log (f t)) (k * d).
Proof.
move=> Hf Hl; apply/derivE.
have Hd : 0 < `|d| + 1 by rewrite ltr_paddl.
have H1 : small (fun t => log (f t) - log (f 0) - (f t - f 0) * k).
  move=> eps He; have He2 : 0 < eps / (`|d| + 1) by rewrite divr_gt0.
  have [del Hdel K] := Hl _ He2.
  apply: near_imp (near_and (deriv_cont Hf Hdel) (deriv_lip Hf)) => t [B1 B2].
  have := K _ B1; rewrite addr0 [_ + (_ - _)]addrC subrK => /le_trans; apply.
  by apply: (le_trans (ler_wpmul2l (ltW He2) B2)); rewrite mulrA divfK ?gt_eqF.
have H2 : small (fun t => (f t - f 0 - t * d) * k).
  by apply: (small_mul (C := `|k|) (proj1 (derivE _ _) Hf)); apply: near_all.
apply: small_ext (small_add H1 H2) => t /=; by rg F.
Qed.

Lemma deriv_unique f d d' : has_deriv f d -> has_deriv f d' -> d = d'.
Proof.
move=> /derivE H1 /derivE H2; apply/eqP; rewrite -subr_eq0; apply/negPn/negP => N.
have P : 0 < `|d - d'| / 4%:R by rewrite divr_gt0 ?ltr0n // normr_gt0.
have [del Hd K] := near_and (H1 _ P) (H2 _ P).
have T : `|del / 2%:R| < del.
  by rewrite ger0_norm ?divr_ge0 ?ltW ?ltr0n // ltr_pdivr_mulr ?ltr0n // mulr_natr mulr2n ltr_addl.
have tp : 0 < `|del / 2%:R| by rewrite normr_gt0 mulf_neq0 ?invr_eq0 ?pnatr_eq0 // gt_eqF.
have [A B] := K _ T; set t := del / 2%:R in A B tp.
have : `|t * (d - d')| <= `|d - d'| / 4%:R * `|t| + `|d - d'| / 4%:R * `|t|.
  have -> : t * (d - d') = (f t - f 0 - t * d') - (f t - f 0 - t * d) by rg F.
  by apply: (le_trans (ler_norm_sub _ _)); rewrite addrC ler_add.
rewrite normrM mulrC -mulrDl ler_pmul2r // => H.
have H4 : `|d - d'| / 4%:R + `|d - d'| / 4%:R = `|d - d'| / 2%:R.
  by rewrite [RHS]splitr -!mulrA -invfM -natrM.
move: H; rewrite H4 => H.
have : `|d - d'| / 2%:R < `|d - d'|.
  by rewrite ltr_pdivr_mulr ?ltr0n // mulr_natr mulr2n ltr_addl normr_gt0.
by rewrite ltNge H.
Qed.
End Deriv.
