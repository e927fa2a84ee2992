(** Runs with learning rate 0 and the convex solver: only B changes.  Used for concrete runs. *)
From Coq Require Import ZArith Lia List.
From mathcomp Require Import all_ssreflect all_algebra.
From Verif Require Import Base GraphModel GraphSpec TopoProofs NumModel NumSpec LinAlgProofs NumProofs ScoreModel CacheSpec CacheProofs.
From Verif Require Import ScoreSpec GDProofs ScoreProofs LoopProofs.
Set Implicit Arguments.
Unset Strict Implicit.
Unset Printing Implicit Defensive.
Import Order.Theory GRing.Theory Num.Theory.
Local Open Scope ring_scope.

Lemma gd_lr0 (F : realFieldType) (X : Type) (sub : X -> F -> X -> X) flat loss grad thr (kz : F) bounds fuel x0 l0 g :
  0 <= kz -> inside_opt (flat x0) bounds -> loss x0 = Ok l0 -> grad x0 = Ok g -> sub x0 0 g = x0 ->
  gd sub flat loss grad thr 0 kz bounds fuel.+1 x0 = Ok (x0, l0).
Proof.
move=> kz0 I0 L0 G0 S0; rewrite /gd.
have B0 : in_bounds flat bounds x0 = Ok true by case: (in_bounds_spec flat bounds x0) => [[->]|[/(_ I0)]].
by rewrite B0 /= L0 /= G0 /= mulr0 S0 B0 /= L0 /= ltxx /= kz0.
Qed.

Section Lr0.
Variables (F : realFieldType) (p l e : nat) (cf : conf F p l e) (A : mat).
Local Notation h := (cf_h cf).
Local Notation model := (model F p l e).
Hypothesis SA : square p A.
Hypothesis NA : nonneg A.
Hypothesis HA : acyclic A.
Hypothesis LR : cf_learning_rate cf = 0.
Hypothesis FU : (0 < cf_fuel cf)%N.

Lemma kz_ge0 : 0 <= kz F.
Proof. by rewrite invr_ge0 exprn_ge0 ?ler0n. Qed.

Lemma newM_ok (B : 'M[F]_p) (g : 'M[F]_(l, p)) (o : 'M[F]_(e, p)) (s : 'M[F]_(e, l)) : supported A B ->
  new_model h A B g o s = Ok (MkModel A B g o s (1%:M - B^T)).
Proof. by move=> SB; case: (new_model_spec h B g o s SA NA) => [[_ [_ ->]]|[[]]]. Qed.

Lemma mscore_ok (m : model) : positive (momegas m) -> (forall a b, 0 <= mpsis m a b) -> exists s, mscore cf m = Ok s.
Proof. by move=> Ho Hs; eexists; apply: score_value. Qed.

Lemma gamma_loss_ok (m : model) g : mA m = A -> supported A (mB m) -> positive (momegas m) ->
  (forall a b, 0 <= mpsis m a b) -> exists s, gamma_loss cf m g = Ok s.
Proof.
move=> EA SB Ho Hs; rewrite /gamma_loss EA newM_ok //=; exact: mscore_ok.
Qed.
Lemma gamma_gradient_ok (m : model) g : mA m = A -> supported A (mB m) -> positive (momegas m) ->
  (forall a b, 0 <= mpsis m a b) -> exists s, gamma_gradient cf m g = Ok s.
Proof.
by move=> EA SB Ho Hs; rewrite /gamma_gradient EA newM_ok //= inv_noise_ok //=; eexists.
Qed.
Lemma rest_loss_ok (m : model) (x : 'M[F]_(e, p) * 'M[F]_(e, l)) : mA m = A -> supported A (mB m) -> positive x.1 ->
  (forall a b, 0 <= x.2 a b) -> exists s, rest_loss cf m x = Ok s.
Proof.
move=> EA SB Ho Hs; rewrite /rest_loss EA newM_ok //=; exact: mscore_ok.
Qed.
Lemma rest_gradient_ok (m : model) I (x : 'M[F]_(e, p) * 'M[F]_(e, l)) : mA m = A -> supported A (mB m) -> positive x.1 ->
  (forall a b, 0 <= x.2 a b) -> exists s, rest_gradient cf m I x = Ok s.
Proof.
by move=> EA SB Ho Hs; rewrite /rest_gradient EA newM_ok //= inv_noise_ok //=; eexists.
Qed.

Lemma inside_rest (m : model) : in_range (cf_psi_max cf) m ->
  inside_opt [:: entries (momegas m); entries (mpsis m)] (Some (rest_bounds cf)) \/
  exists u, cf_psi_max cf = Some u /\ u < 0.
Proof.
move=> [Ho Hs Hu]; case EU: (cf_psi_max cf) => [u|].
  case: (ltP u 0) => U0; first by right; exists u.
  left=> b [<-]; rewrite /rest_bounds EU; apply/inside_cons; split=> //.
    by move=> v /entriesP [i [j ->]]; split.
  apply/inside_cons; split; [by move=> v [<-] | | exact: inside_nil_l].
  by move=> v /entriesP [i [j ->]]; split=> // w [<-]; apply: Hu.
left=> b [<-]; rewrite /rest_bounds EU; apply/inside_cons; split=> //.
  by move=> v /entriesP [i [j ->]]; split.
apply/inside_cons; split; [by [] | | exact: inside_nil_l].
by move=> v /entriesP [i [j ->]]; split.
Qed.

Lemma solve_gamma_lr0 (m : model) : mA m = A -> supported A (mB m) -> positive (momegas m) ->
  (forall a b, 0 <= mpsis m a b) -> solve_gamma cf m = Ok (mgamma m).
Proof.
move=> EA SB Ho Hs; rewrite /solve_gamma LR; case: (cf_fuel cf) FU => // f _.
have [ls Els] := gamma_loss_ok (mgamma m) EA SB Ho Hs; have [gr Egr] := gamma_gradient_ok (mgamma m) EA SB Ho Hs.
by rewrite (gd_lr0 _ _ kz_ge0 _ Els Egr) //= ?scale0r ?subr0.
Qed.

Lemma solve_rest_lr0 (m : model) I : mA m = A -> supported A (mB m) -> in_range (cf_psi_max cf) m ->
  (forall u, cf_psi_max cf = Some u -> 0 <= u) -> solve_rest cf m I = Ok (momegas m, mpsis m).
Proof.
move=> EA SB R U; have [Ho Hs Hu] := R; rewrite /solve_rest LR; case: (cf_fuel cf) FU => // f _.
have Hs' a b : 0 <= mpsis m a b by apply: ltW.
have [ls Els] := @rest_loss_ok m (momegas m, mpsis m) EA SB Ho Hs'.
have [gr Egr] := @rest_gradient_ok m I (momegas m, mpsis m) EA SB Ho Hs'.
case: (inside_rest R) => [IN|[u [/U U0]]]; last by rewrite ltNge U0.
by rewrite (gd_lr0 _ _ kz_ge0 _ Els Egr) //= /sub2 /= !scale0r !subr0.
Qed.

Lemma round_lr0 I rnd (pm : model) B d : mA pm = A -> supported A (mB pm) -> in_range (cf_psi_max cf) pm ->
  (forall u, cf_psi_max cf = Some u -> 0 <= u) ->
  let c0 := MkModel A (mB pm) (mgamma pm) (momegas pm) (mpsis pm) (1%:M - (mB pm)^T) in
  solve_B cf c0 rnd.1 rnd.2 = Ok B -> supported A B -> amax (mB pm - B) = Ok d ->
  exists s, mscore cf c0 = Ok s /\
    round cf I rnd pm = Ok (MkModel A B (mgamma pm) (momegas pm) (mpsis pm) (1%:M - (mB pm)^T), s, d).
Proof.
move=> EA SP R U c0 EB SB ED; have [Ho Hs Hu] := R.
have Hs' a b : 0 <= mpsis pm a b by apply: ltW.
have [s Es] := @mscore_ok c0 Ho Hs'; exists s; split=> //.
rewrite /round /copy_model EA newM_ok //= EB /= solve_gamma_lr0 //= solve_rest_lr0 //= ED /=.
have -> : mscore cf (set_rest (set_gamma (set_B c0 B) (mgamma pm)) (momegas pm, mpsis pm)) = mscore cf c0 by [].
by rewrite Es.
Qed.

(** One iteration from a given model *)
Lemma fit_lr0 I init rnd (pm : model) s0 B d : cf_max_iter cf = 1%N -> (0 < cf_max_fluctuations cf)%N ->
  (if init is Some m0 then m0 = pm else initial_model cf A I = Ok pm) -> mscore cf pm = Ok s0 ->
  mA pm = A -> supported A (mB pm) -> in_range (cf_psi_max cf) pm ->
  (forall u, cf_psi_max cf = Some u -> 0 <= u) ->
  let c0 := MkModel A (mB pm) (mgamma pm) (momegas pm) (mpsis pm) (1%:M - (mB pm)^T) in
  solve_B cf c0 (rnd 0%N).1 (rnd 0%N).2 = Ok B -> supported A B -> amax (mB pm - B) = Ok d ->
  exists s, mscore cf c0 = Ok s /\
    fit cf A I init rnd = Ok (MkModel A B (mgamma pm) (momegas pm) (mpsis pm) (1%:M - (mB pm)^T), s).
Proof.
move=> MI MF EI Es0 EA SP R U c0 EB SB ED.
case: (round_lr0 I EA SP R U EB SB ED) => s [Es ER]; exists s; split=> //.
rewrite /fit; case: (is_dag_spec h p A SA NA) => b [-> Hb]; have -> : b by apply/Hb.
have -> : match init with Some m => if mateqb (mA m) A then Ok m else Err ValueError | None => initial_model cf A I end = Ok pm.
  case: init EI => [m1|//] ->; have SM : square p (mA pm) by rewrite EA.
  by case: (mateqbP SM SA).
rewrite /= Es0 /= MI /= /continue /= MI MF /= ER /= ?MI ?ltnn ?andbF /=.
by [].
Qed.
End Lr0.
