(** The alternating minimisation does not worsen the score (C105). *)
From Coq Require Import ZArith List.
From mathcomp Require Import all_ssreflect all_algebra.
From Verif Require Import Base GraphModel GraphSpec NumModel NumSpec LinAlgProofs NumProofs ScoreModel ScoreSpec GDProofs ScoreProofs.
From Verif Require Import GradSpec DerivProofs Deriv2Proofs GradProofs DescentSpec.
Set Implicit Arguments.
Unset Strict Implicit.
Unset Printing Implicit Defensive.
Import Order.Theory GRing.Theory Num.Theory.
Local Open Scope ring_scope.

Section Rounds.
Variables (F : realFieldType) (p l e : nat) (cf : conf F p l e).
Local Notation model := (model F p l e).
Variable A : mat.
Hypothesis SA : square p A.
Hypothesis NA : nonneg A.
Hypothesis SD : solver_descends cf A.

Lemma scores_bind (B : 'M[F]_p) (g : 'M[F]_(l, p)) (o : 'M[F]_(e, p)) (s : 'M[F]_(e, l)) x :
  bind (new_model (cf_h cf) A B g o s) (mscore cf) = Ok x <-> scores cf A B g o s x.
Proof.
split; first by case E: (new_model _ _ _ _ _ _) => [m|] //= H; exists m.
by case=> m -> H.
Qed.
Lemma scores_fun (B : 'M[F]_p) (g : 'M[F]_(l, p)) (o : 'M[F]_(e, p)) (s : 'M[F]_(e, l)) x y :
  scores cf A B g o s x -> scores cf A B g o s y -> x = y.
Proof. by move=> /scores_bind E /scores_bind; rewrite E => -[]. Qed.

Lemma solve_gamma_descends (m : model) g : mA m = A -> solve_gamma cf m = Ok g ->
  exists x y, [/\ scores cf A (mB m) (mgamma m) (momegas m) (mpsis m) x, scores cf A (mB m) g (momegas m) (mpsis m) y & y <= x].
Proof.
move=> EA; rewrite /solve_gamma; case E: gd => [[y ly]|] //= [<-].
case: (gd_ok E) => _ _ [li []]; rewrite /gamma_loss EA => /scores_bind H1 /scores_bind H2 H; by exists li, ly.
Qed.
Lemma solve_rest_descends (m : model) I r : mA m = A -> solve_rest cf m I = Ok r ->
  (positive (momegas m) /\ positive (mpsis m)) /\
  exists x y, [/\ scores cf A (mB m) (mgamma m) (momegas m) (mpsis m) x, scores cf A (mB m) (mgamma m) r.1 r.2 y & y <= x].
Proof.
move=> EA; rewrite /solve_rest; case E: gd => [[y ly]|] //= [<-].
case: (gd_ok E) => [[I0 _]] _ [li []]; rewrite /rest_loss EA => /scores_bind H1 /scores_bind H2 H; split.
  by case: (@rest_inside F p l e cf (momegas m, mpsis m) I0).
by exists li, ly.
Qed.

Lemma round_descends I rnd (pm cm : model) s d x : mA pm = A -> round cf I rnd pm = Ok (cm, s, d) ->
  scores cf A (mB pm) (mgamma pm) (momegas pm) (mpsis pm) x ->
  exists2 y, scores cf A (mB cm) (mgamma cm) (momegas cm) (mpsis cm) y & y <= x.
Proof.
move=> EA; rewrite /round /copy_model EA; case E0: (new_model _ _ _ _ _ _) => [c0|] //=.
case: (new_model_ok SA NA E0) => HA HB E1; rewrite E1 in E0 *; case EB: solve_B => [nB|] //=.
case EG: solve_gamma => [g|] //=; case ER: solve_rest => [r|] //=.
case ED: (amax _) => [d'|] //=; case ES: (mscore _ _) => [s'|] //= [<- _ _] /= Hx.
have [//|[P1 P2] [x2 [y2 [K1 K2 K3]]]] := solve_rest_descends _ ER.
have [//|x1 [y1 [G1 G2 G3]]] := solve_gamma_descends _ EG.
have [y0 B1 B2] := SD E0 P1 P2 EB Hx.
exists y2; first by move: K2; case: (r).
by rewrite (le_trans K3) // -(scores_fun G2 K1) (le_trans G3) // (scores_fun G1 B1).
Qed.

Lemma alt_loop_descends I rnd x0 k i dist flucs (pm : model) ps cur m s x : mA pm = A ->
  scores cf A (mB pm) (mgamma pm) (momegas pm) (mpsis pm) x -> x <= x0 ->
  (forall r, cur = Some r -> mA r.1 = A /\ exists2 y, scores cf A (mB r.1) (mgamma r.1) (momegas r.1) (mpsis r.1) y & y <= x0) ->
  alt_loop cf k I rnd i dist flucs pm ps cur = Ok (Some (m, s)) ->
  mA m = A /\ exists2 y, scores cf A (mB m) (mgamma m) (momegas m) (mpsis m) y & y <= x0.
Proof.
elim: k i dist flucs pm ps cur x => [|k IH] i dist flucs pm ps cur x EA Hx le HC /=; case: ifP => // _.
- by move=> [] /HC.
- case ER: round => [[[cm cs] d]|] //=; have [[_ _ EA' _] _] := round_ok SA NA EA ER.
  have [y Hy ley] := round_descends EA ER Hx; have le0 := le_trans ley le.
  by apply: (IH _ _ _ _ _ _ y) => // r [<-]; split=> //; exists y.
- by move=> [] /HC.
Qed.
Lemma fit_descends I init rnd m s :
  (forall m0, init = Some m0 -> exists B g o ps, new_model (cf_h cf) A B g o ps = Ok m0) ->
  fit cf A I init rnd = Ok (m, s) ->
  exists m0, (init = Some m0 \/ init = None /\ initial_model cf A I = Ok m0) /\ no_worse cf m0 m.
Proof.
move=> HI E; have SI m0 : init = Some m0 -> square p (mA m0).
  by move=> /HI [B [g [o [ps /(new_model_ok SA NA) [_ _ ->]]]]].
case: (fit_start SA NA SI E) => m0 [s0 [EA E1 E2 ES EL]]; exists m0; split.
  by case: (init) E1 E2 => [m1|] E1 E2; [left; rewrite (E2 m1)|right; split; auto].
have [B [g [o [ps EN]]]] : exists B g o ps, new_model (cf_h cf) A B g o ps = Ok m0.
  case: (init) HI E1 E2 => [m1|] HI E1 E2; first by rewrite -(E2 m1 erefl); apply: HI.
  have := E1 erefl; rewrite /initial_model; case: initialize_B => [B|] //=; case: initialize_gamma => [g|] //=.
  by move=> ?; do 4!eexists; eassumption.
have [_ _ Em] := new_model_ok SA NA EN.
have H0 : scores cf A (mB m0) (mgamma m0) (momegas m0) (mpsis m0) s0 by exists m0 => //; rewrite -EN Em.
case: (alt_loop_descends EA H0 (lexx _) _ EL) => // EA' [y Hy le].
by exists s0, y; rewrite EA EA'.
Qed.
End Rounds.

Section OneEnv.
Variables (F : realFieldType) (p l : nat) (cf : conf F p l 1) (A : mat).
Hypothesis SA : square p A.
Hypothesis NA : nonneg A.
Lemma cvx_descends : cf_solver cf = Cvx -> (0 < cf_n_obs cf ord0)%N -> exact_cvx cf A -> solver_descends cf A.
Proof.
move=> SO n0 EX B g o s m rnd rnd' B' x EN Ho Hs; rewrite /solve_B SO /solve_B_cvx.
have [HA SB Em] := new_model_ok SA NA EN.
have Hs' a b : 0 <= s a b by apply/ltW/Hs.
rewrite Em inv_noise_ok //=; case EC: cf_cvx => [B1|] //; case: ifP => // _ [<-].
rewrite Em in EN; have [SB1 LE] := EX _ _ _ _ _ _ EN Ho Hs EC.
have -> : \matrix_(i, j) (if Z.eqb (get A i j) Z0 then 0 else B1 i j) = B1.
  apply/matrixP => i j; rewrite mxE; case: ifP => // /Z.eqb_eq H; symmetry; apply/eqP; apply: contraT => /SB1 E; case: (E H).
have S1 (B2 : 'M[F]_p) y : scores cf A B2 g o s y ->
    y = - cf_log cf (\det (invmx (noise g o s ord0))) + residuals (fun=> 1) (fun k => invmx (noise g o s k)) (cf_sigmas cf) B2.
  case=> m2 /(new_model_ok SA NA) [_ _ ->]; rewrite score_value // => -[<-].
  rewrite /residuals !big_ord1 subn0 expr1 mulrAC mulfV ?pnatr_eq0 -?lt0n // !mul1r /mnoise /= -noiseE !mulmxA //.
move=> Hx; have [m2 E2] : exists m2, new_model (cf_h cf) A B1 g o s = Ok m2.
  by case: (new_model_spec (cf_h cf) B1 g o s SA NA) => [[_ [_ ->]]|[[]]] //; eexists.
exists (- cf_log cf (\det (invmx (noise g o s ord0))) + residuals (fun=> 1) (fun k => invmx (noise g o s k)) (cf_sigmas cf) B1).
  have [_ _ Em2] := new_model_ok SA NA E2.
  have [y Hy] : exists y, scores cf A B1 g o s y by eexists; exists m2 => //; rewrite Em2; apply: score_value.
  by rewrite -(S1 _ _ Hy).
rewrite (S1 _ _ Hx) ler_add2l; have := LE _ SB; rewrite /residuals !big_ord1 !mul1r ler_pmul2l ?ltr0n //.
Qed.
Lemma fit_cvx_descends I init rnd m s : cf_solver cf = Cvx -> (0 < cf_n_obs cf ord0)%N -> exact_cvx cf A ->
  (forall m0, init = Some m0 -> exists B g o ps, new_model (cf_h cf) A B g o ps = Ok m0) ->
  fit cf A I init rnd = Ok (m, s) ->
  exists m0, (init = Some m0 \/ init = None /\ initial_model cf A I = Ok m0) /\ no_worse cf m0 m.
Proof. by move=> SO n0 EX; apply: fit_descends => //; apply: cvx_descends. Qed.
End OneEnv.
