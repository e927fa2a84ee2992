(** Termination of the fitting procedure. *)
From Coq Require Import ZArith.
From mathcomp Require Import all_ssreflect all_algebra.
From Verif Require Import Base FieldTac GraphSpec TopoProofs NumSpec CacheSpec CacheProofs ScoreSpec GradSpec OptSpec GraphModel NumModel ScoreModel.
From Verif Require Import NumProofs GDProofs ScoreProofs LoopProofs Lr0Proofs NoErrProofs GradProofs OptProofs ConsistProofs.
Set Implicit Arguments.
Unset Strict Implicit.
Unset Printing Implicit Defensive.
Import Order.Theory GRing.Theory Num.Theory.
Local Open Scope ring_scope.

(** If it is an exception, it is one of ok. *)
Definition fine (ok : exn -> Prop) (T : Type) (r : res T) : Prop := forall x, r = Err x -> ok x.

Lemma settles_bind (ok : exn -> Prop) (T U : Type) (f : nat -> res T) (g : nat -> T -> res U) r :
  settles f r -> (forall x, r = Ok x -> exists u, settles (g^~ x) u /\ fine ok u) -> fine ok r ->
  exists u, settles (fun k => bind (f k) (g k)) u /\ fine ok u.
Proof.
case=> n Hf Hg Hr; case: r Hf Hg Hr => [x|y] Hf Hg Hr; last first.
  by exists (Err y); split=> [|z [<-]]; [exists n => k /Hf -> | apply: Hr].
have [u [[n' Hn] Hu]] := Hg x erefl; exists u; split=> //; exists (maxn n n') => k.
by rewrite geq_max => /andP [/Hf -> /Hn].
Qed.
Lemma settles_const (T : Type) (r : res T) : settles (fun=> r) r.
Proof. by exists 0%N. Qed.

Section Term.
Variables (F : archiFieldType) (p l e : nat) (cf : conf F p l e) (A : mat).
Local Notation model := (model F p l e).
Local Notation wf := (with_fuel cf).
Hypothesis SA : square p A.
Hypothesis NA : nonneg A.
Hypothesis HA : acyclic A.
Hypothesis PS : forall k, posdef (cf_sigmas cf k).
Hypothesis LT : forall k, log_tangent (cf_log cf) p (\det (cf_sigmas cf k))^-1.
Hypothesis T0 : 0 < cf_threshold_score cf.

Lemma new_score_bound (B : 'M[F]_p) (g : 'M[F]_(l, p)) (o : 'M[F]_(e, p)) (s : 'M[F]_(e, l)) :
  supported A B -> positive o -> (forall a b, 0 <= s a b) ->
  exists x, bind (new_model (cf_h cf) A B g o s) (mscore cf) = Ok x /\
            saturated (cf_log cf) (cf_sigmas cf) (cf_n_obs cf) <= x.
Proof.
move=> SB Ho Hs; rewrite newM_ok //=.
by have [x E H] := @score_bound _ _ p l e A _ (cf_n_obs cf) HA PS (MkModel A B g o s (1%:M - B^T)) SB erefl Ho Hs LT; exists x.
Qed.

Lemma kz_gt0 : 0 < kz F.
Proof. by rewrite invr_gt0 exprn_gt0 // ltr0n. Qed.

Lemma solve_gamma_term (m : model) : mA m = A -> supported A (mB m) -> positive (momegas m) ->
  (forall a b, 0 <= mpsis m a b) -> exists r, settles (fun k => solve_gamma (wf k) m) (Ok r).
Proof.
move=> EA SB Ho Hs; rewrite /solve_gamma.
set flat := fun x : 'M[F]_(l, p) => [:: entries x].
have ENT : entrywise (fun (x : 'M[F]_(l, p)) (c : F) g => x - c *: g) flat.
  by move=> y c g; rewrite /flat /= entries_sub.
have TG y : inside_opt (flat y) None -> exists g, gamma_gradient cf m y = Ok g.
  by move=> _; apply: (gamma_gradient_ok cf SA NA HA).
have TL y : inside_opt (flat y) None -> exists l0, gamma_loss cf m y = Ok l0 /\
    saturated (cf_log cf) (cf_sigmas cf) (cf_n_obs cf) <= l0.
  by move=> _; rewrite /gamma_loss EA; apply: new_score_bound.
have [//|n [r Hr]] := gd_term (cf_learning_rate cf) ENT TG TL T0 kz_gt0 (x0 := mgamma m).
by exists r.1, n => k Hk; rewrite [gd _ _ _ _ _ _ _ _ _ _](Hr k Hk).
Qed.

Lemma solve_rest_term (m : model) I : mA m = A -> supported A (mB m) -> in_range (cf_psi_max cf) m ->
  (forall u, cf_psi_max cf = Some u -> 0 <= u) -> exists r, settles (fun k => solve_rest (wf k) m I) (Ok r).
Proof.
move=> EA SB R U; rewrite /solve_rest.
set flat := fun x : 'M[F]_(e, p) * 'M[F]_(e, l) => [:: entries x.1; entries x.2].
have ENT : entrywise (@sub2 F p l e) flat.
  by move=> y c g; rewrite /flat /= !entries_sub.
have TG y : inside_opt (flat y) (Some (rest_bounds cf)) -> exists g, rest_gradient cf m I y = Ok g.
  by move=> /rest_inside [Ho Hs _]; apply: (rest_gradient_ok cf SA NA HA) => // a b; apply: ltW.
have TL y : inside_opt (flat y) (Some (rest_bounds cf)) -> exists l0, rest_loss cf m y = Ok l0 /\
    saturated (cf_log cf) (cf_sigmas cf) (cf_n_obs cf) <= l0.
  by move=> /rest_inside [Ho Hs _]; rewrite /rest_loss EA; apply: new_score_bound => // a b; apply: ltW.
have IN : inside_opt (flat (momegas m, mpsis m)) (Some (rest_bounds cf)).
  by case: (inside_rest R) => // -[u [/U U0]]; rewrite ltNge U0.
have [n [r Hr]] := gd_term (cf_learning_rate cf) ENT TG TL T0 kz_gt0 IN.
by exists r.1, n => k Hk; rewrite [gd _ _ _ _ _ _ _ _ _ _](Hr k Hk).
Qed.

Variable ok : exn -> Prop.
Hypothesis BE : forall (m : model) rnd rnd', mA m = A -> positive (momegas m) -> (forall a b, 0 <= mpsis m a b) ->
  exists r, settles (fun k => solve_B (wf k) m rnd rnd') r /\ fine ok r.
Hypothesis p0 : (0 < p)%N.
Hypothesis U : forall u, cf_psi_max cf = Some u -> 0 <= u.

Lemma round_term I rnd (pm : model) : mA pm = A -> supported A (mB pm) -> in_range (cf_psi_max cf) pm ->
  (cf_solver cf = Grad -> nontrivial rnd.1) ->
  exists r, settles (fun k => round (wf k) I rnd pm) r /\ fine ok r.
Proof.
move=> EA SB R HR; have [Ho Hs Hu] := R; have Hs' a b : 0 <= mpsis pm a b by apply: ltW.
rewrite /round /copy_model /= EA newM_ok //=.
set c0 := MkModel A (mB pm) _ _ _ _.
have [rB [BB NB]] := BE (m := c0) rnd.1 rnd.2 erefl Ho Hs'.
apply: (settles_bind BB) => // B EB; subst rB.
have SB' : supported A B.
  have [n Hn] := BB; have := Hn n (leqnn n); exact: (@solve_B_supported _ p l e (wf n) c0).
have [g GG] := @solve_gamma_term (set_B c0 B) erefl SB' Ho Hs'.
apply: (settles_bind GG) => // _ [<-].
have [x XX] := @solve_rest_term (set_gamma (set_B c0 B) g) I erefl SB' R U.
apply: (settles_bind XX) => // _ [<-].
have [d ->] := amax_ok p0 (mB pm - B).
have [n Hn] := XX; have [[Ho2 Hs2 _] _] := solve_rest_spec (Hn n (leqnn n)).
have [sc E] := @mscore_ok F p l e cf (set_rest (set_gamma (set_B c0 B) g) x) Ho2 (fun a b => ltW (Hs2 a b)).
exists (Ok (set_rest (set_gamma (set_B c0 B) g) x, sc, d)); split=> //; exists 0%N => k _.
by rewrite /= [mscore _ _]E.
Qed.

Lemma alt_loop_term I rnd k i dist flucs (pm : model) ps cur :
  (cf_max_iter cf <= i + k)%N -> mA pm = A -> supported A (mB pm) -> in_range (cf_psi_max cf) pm ->
  (cf_solver cf = Grad -> forall k, nontrivial (rnd k).1) ->
  exists r, settles (fun f => alt_loop (wf f) k I rnd i dist flucs pm ps cur) r /\ fine ok r.
Proof.
move=> + + + + HR; elim: k i dist flucs pm ps cur => [|k IH] i dist flucs pm ps cur L EA SB R.
  exists (Ok cur); split=> //; exists 0%N => f _ /=; case: ifP => // C.
  by move: C; rewrite /continue /= ltnNge -[i in (_ <= i)%N]addn0 L /= andbF.
case C: (continue cf i dist flucs); last first.
  by exists (Ok cur); split=> //; exists 0%N => f _ /=; rewrite [continue _ _ _ _]C.
have [rr [RR NR]] := @round_term I (rnd i) pm EA SB R (fun E => HR E i).
have [|u [[n Hn] Nu]] := @settles_bind ok _ _ _ (fun f (r : model * F * F) => let '(cm, cs, d) := r in
      let flucs' := if cf_threshold_fluctuation cf < cs - ps then flucs.+1 else flucs in
      alt_loop (wf f) k I rnd i.+1 (Some d) flucs' cm cs (Some (cm, cs))) _ RR _ NR; last first.
  by exists u; split=> //; exists n => f /Hn <- /=; rewrite [continue _ _ _ _]C.
move=> [[cm cs] d] Er; subst rr; have [n Hn] := RR; have E := Hn n (leqnn n).
have [[_ _ EM _] [EB ER _ _]] := round_ok SA NA EA E.
apply: IH => //; first by rewrite addSnnS.
  by apply: (@solve_B_supported _ p l e (wf n) _ _ _ _ _ EB) => /HR.
by have [] := solve_rest_spec ER.
Qed.

Lemma fit_term_ok I init rnd : ok ValueError -> ok UnboundLocalError ->
  (forall m, init = Some m -> [/\ supported A (mB m), in_range (cf_psi_max cf) m & square p (mA m)]) ->
  (init = None -> [/\ (l <= p)%N, (0 < e)%N, forall k, (0 < cf_n_obs cf k)%N & forall u, cf_psi_max cf = Some u -> 1 < u]) ->
  (cf_solver cf = Grad -> forall k, nontrivial (rnd k).1) ->
  exists r, settles (fun k => fit (wf k) A I init rnd) r /\ fine ok r.
Proof.
move=> OV OU HI HN HR; rewrite /fit /=; case: (is_dag_spec (cf_h cf) p A SA NA) => d [-> Hd].
have -> /= : d by apply/Hd.
have LOOP (m : model) s : mA m = A -> supported A (mB m) -> in_range (cf_psi_max cf) m -> mscore cf m = Ok s ->
  exists r, settles (fun k => bind (mscore (wf k) m) (fun s => bind (alt_loop (wf k) (cf_max_iter cf) I rnd 0 None 0 m s None)
    (fun cur => if cur is Some r then Ok r else Err UnboundLocalError))) r /\ fine ok r.
  move=> EA SB R ES.
  have [rr [RR NR]] := @alt_loop_term I rnd (cf_max_iter cf) 0 None 0 m s None (leqnn _) EA SB R HR.
  have [|u [[n Hn] Nu]] := @settles_bind ok _ _ _ (fun _ (cur : option (model * F)) =>
      if cur is Some r then Ok r else Err UnboundLocalError) _ RR _ NR.
    by move=> [x|] _; eexists; (split; first exact: settles_const) => y // [<-].
  by exists u; split=> //; exists n => k /Hn <- /=; rewrite [mscore _ _]ES.
case: init HI HN => [m|] HI HN.
  have [SB R SM] := HI m erefl; case: (mateqbP SM SA) => EA; last by exists (Err ValueError); split=> [|y [<-]] //; exists 0%N.
  have [Ho Hs _] := R; have [s ES] := @mscore_ok F p l e cf m Ho (fun a b => ltW (Hs a b)).
  exact: (LOOP m s).
have [lp e0 n0 U1] := HN erefl.
have [m [s [EI ES EA SB R]]] := initial_model_ok SA NA HA e0 PS n0 I lp U1.
have [r [[n Hn] Nr]] := LOOP m s EA SB R ES.
by exists r; split=> //; exists n => k /Hn <-; rewrite [initial_model _ _ _]EI.
Qed.
End Term.

Lemma fit_term (F : archiFieldType) (p l e : nat) (cf : conf F p l e) A :
  square p A -> nonneg A -> acyclic A -> (forall k, posdef (cf_sigmas cf k)) ->
  (forall k, log_tangent (cf_log cf) p (\det (cf_sigmas cf k))^-1) -> 0 < cf_threshold_score cf ->
  B_ends cf A -> (0 < p)%N -> (forall u, cf_psi_max cf = Some u -> 0 <= u) ->
  forall I init rnd,
  (forall m, init = Some m -> [/\ supported A (mB m), in_range (cf_psi_max cf) m & square p (mA m)]) ->
  (init = None -> [/\ (l <= p)%N, (0 < e)%N, forall k, (0 < cf_n_obs cf k)%N & forall u, cf_psi_max cf = Some u -> 1 < u]) ->
  (cf_solver cf = Grad -> forall k, nontrivial (rnd k).1) ->
  exists r, settles (fun k => fit (with_fuel cf k) A I init rnd) r /\ r <> Err OutOfFuel.
Proof.
move=> SA NA HA PS LT T0 BE p0 U I init rnd HI HN HR.
have BE' (m : model F p l e) rnd1 rnd' : mA m = A -> positive (momegas m) -> (forall a b, 0 <= mpsis m a b) ->
    exists r, settles (fun k => solve_B (with_fuel cf k) m rnd1 rnd') r /\ fine (fun x => x <> OutOfFuel) r.
  move=> EA Ho Hs; have [r [Hr Nr]] := BE m rnd1 rnd' EA Ho Hs; exists r; split=> // x Ex Ex'.
  by apply: Nr; rewrite Ex Ex'.
have [||r [Hr Nr]] := @fit_term_ok F p l e cf A SA NA HA PS LT T0 _ BE' p0 U I init rnd _ _ HI HN HR => //.
by exists r; split=> // E; apply: (Nr _ E).
Qed.

(** With the convex solver *)
Lemma cvx_ends (F : archiFieldType) (p l e : nat) (cf : conf F p l e) (A : mat) : cf_solver cf = Cvx -> B_ends cf A.
Proof.
move=> EC m rnd rnd' EA Ho Hs; exists (solve_B_cvx cf m).
split; first by exists 0%N => k _; rewrite /solve_B /= EC.
rewrite /solve_B_cvx inv_noise_ok //=; case: (cf_cvx cf m) => // B; by case: ifP.
Qed.
