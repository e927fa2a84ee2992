(** The alternating procedure: limits, returned score, exceptions. *)
From Coq Require Import ZArith Lia List.
From mathcomp Require Import all_ssreflect all_algebra.
From Verif Require Import Base GraphModel GraphSpec TopoProofs NumModel NumSpec LinAlgProofs NumProofs ScoreModel CacheSpec CacheProofs.
From Verif Require Import ScoreSpec GDProofs ScoreProofs HistProofs.
Set Implicit Arguments.
Unset Strict Implicit.
Unset Printing Implicit Defensive.
Import Order.Theory GRing.Theory Num.Theory.
Local Open Scope ring_scope.

Lemma fluctuations_ext (F : realFieldType) (t : F) s s' k : (forall j, (j <= k)%N -> s j = s' j) ->
  fluctuations t s k = fluctuations t s' k.
Proof.
move=> H; rewrite /fluctuations; apply: eq_in_count => j; rewrite mem_iota add0n => /andP [_ Hj].
by rewrite !H // ltnW.
Qed.
Lemma fluctuations_S (F : realFieldType) (t : F) s k :
  fluctuations t s k.+1 = if t < s k.+1 - s k then (fluctuations t s k).+1 else fluctuations t s k.
Proof.
rewrite /fluctuations -[in LHS]addn1 iotaD count_cat /= addn0 add0n.
by case: ifP => _; rewrite ?addn1 ?addn0.
Qed.

Section Loop.
Variables (F : realFieldType) (p l e : nat) (cf : conf F p l e).
Local Notation h := (cf_h cf).
Local Notation model := (model F p l e).
Local Notation newM := (@new_model F h p l e).

Local Notation goes_on := (goes_on cf).

Lemma alt_loop_trace I rnd k i (ms : nat -> model) (ss ds : nat -> F) m s :
  (forall j, (j < i)%N -> goes_on ds ss j /\ round cf I (rnd j) (ms j) = Ok (ms j.+1, ss j.+1, ds j.+1)) ->
  alt_loop cf k I rnd i (if i is 0%N then None else Some (ds i)) (fluctuations (cf_threshold_fluctuation cf) ss i)
           (ms i) (ss i) (if i is 0%N then None else Some (ms i, ss i)) = Ok (Some (m, s)) ->
  exists n ms' ss' ds', [/\ (0 < n <= cf_max_iter cf)%N, ms' 0%N = ms 0%N /\ ss' 0%N = ss 0%N,
    (forall j, (j < n)%N -> goes_on ds' ss' j /\ round cf I (rnd j) (ms' j) = Ok (ms' j.+1, ss' j.+1, ds' j.+1)),
    ~~ goes_on ds' ss' n & m = ms' n /\ s = ss' n].
Proof.
elim: k i ms ss ds => [|k IH] i ms ss ds H /=; case: ifP => C //.
- case: i H C => // i H C [<- <-]; exists i.+1, ms, ss, ds; split=> //.
    by case: (H i (ltnSn i)) => /andP [/andP [_ L] _] _; rewrite ltn0Sn L.
  by apply/negbT; move: C; rewrite /continue /ScoreSpec.goes_on.
- case E: round => [[[cm cs] d]|] //=.
  set ms' := fun j => if j == i.+1 then cm else ms j.
  set ss' := fun j => if j == i.+1 then cs else ss j.
  set ds' := fun j => if j == i.+1 then d else ds j.
  have old j : (j <= i)%N -> (ms' j = ms j) * (ss' j = ss j) * (ds' j = ds j).
    by move=> Hj; rewrite /ms' /ss' /ds' ltn_eqF.
  have new : ((ms' i.+1 = cm) * (ss' i.+1 = cs) * (ds' i.+1 = d))%type by rewrite /ms' /ss' /ds' eqxx.
  have FL j : (j <= i)%N -> fluctuations (cf_threshold_fluctuation cf) ss' j = fluctuations (cf_threshold_fluctuation cf) ss j.
    move=> Hj; apply: fluctuations_ext => a Ha; by rewrite old // (leq_trans Ha Hj).
  have GO j : (j <= i)%N -> goes_on ds' ss' j = goes_on ds ss j.
    by move=> Hj; rewrite /ScoreSpec.goes_on FL //; case: j Hj => // j Hj; rewrite old.
  have Gi : goes_on ds ss i by move: C; rewrite /ScoreSpec.goes_on /continue; case: (i).
  move=> EL; case: (IH i.+1 ms' ss' ds' _ _) => [j|/=|n [ms2 [ss2 [ds2 [H1 H2 H3 H4 H5]]]]].
  + rewrite ltnS leq_eqVlt => /orP [/eqP ->|Hj].
      by rewrite GO // !new !(old i (leqnn i)).
    by rewrite GO ?(ltnW Hj) // !(old _ (ltnW Hj)) !(old _ Hj); apply: H.
  + by rewrite !new fluctuations_S !new !(old i (leqnn i)) FL.
  + by exists n, ms2, ss2, ds2; split=> //; case: H2 => -> ->; rewrite !old.
- case: i H C => // i H C [<- <-]; exists i.+1, ms, ss, ds; split=> //.
    by case: (H i (ltnSn i)) => /andP [/andP [_ L] _] _; rewrite ltn0Sn L.
  by apply/negbT; move: C; rewrite /continue /ScoreSpec.goes_on.
Qed.

Section Fit.
Variable A : mat.
Hypothesis SA : square p A.
Hypothesis NA : nonneg A.

Lemma fit_trace I init rnd m s : (forall m0, init = Some m0 -> square p (mA m0)) -> fit cf A I init rnd = Ok (m, s) ->
  exists n (ms : nat -> model) ss ds, [/\ (0 < n <= cf_max_iter cf)%N,
    (if init is Some m0 then ms 0%N = m0 /\ mA m0 = A else initial_model cf A I = Ok (ms 0%N)) /\ mscore cf (ms 0%N) = Ok (ss 0%N),
    (forall j, (j < n)%N -> goes_on ds ss j /\ round cf I (rnd j) (ms j) = Ok (ms j.+1, ss j.+1, ds j.+1)),
    ~~ goes_on ds ss n & m = ms n /\ s = ss n].
Proof.
move=> SI E; case: (fit_start SA NA SI E) => m0 [s0 [EA E1 E2 ES EL]].
case: (@alt_loop_trace I rnd (cf_max_iter cf) 0 (fun=> m0) (fun=> s0) (fun=> 0) m s) => // n [ms [ss [ds [H1 [H2 H2'] H3 H4 H5]]]].
exists n, ms, ss, ds; split=> //; rewrite H2 H2'; split=> //.
by case: init E1 E2 {E SI} => [m1|] E1 E2; [rewrite -(E2 _ erefl) in EA * | apply: E1].
Qed.

(** The loop itself fails only if a round does. *)
Lemma alt_loop_err I rnd k i dist flucs (pm : model) ps cur x : (cf_max_iter cf <= i + k)%N ->
  alt_loop cf k I rnd i dist flucs pm ps cur = Err x ->
  exists j pm', round cf I (rnd j) pm' = Err x.
Proof.
elim: k i dist flucs pm ps cur => [|k IH] i dist flucs pm ps cur L /=; case: ifP => C //.
  by move: C; rewrite /continue ltnNge -[i in (_ <= i)%N]addn0 L /= andbF.
case E: round => [[[cm cs] d]|ex] //=.
  by apply: IH; rewrite addSnnS.
by case=> <-; exists i, pm.
Qed.

Lemma alt_loop_some I rnd k i dist flucs (pm : model) ps r :
  alt_loop cf k I rnd i dist flucs pm ps (Some r) <> Ok None.
Proof.
elim: k i dist flucs pm ps r => [|k IH] i dist flucs pm ps r /=; case: ifP => // _.
by case: round => [[[cm cs] d]|] //=; apply: IH.
Qed.

Lemma fit_limits I init rnd m0 s0 :
  acyclic A -> (if init is Some m1 then m1 = m0 /\ mA m0 = A else initial_model cf A I = Ok m0) -> mscore cf m0 = Ok s0 ->
  if (0 < cf_max_iter cf)%N && (0 < cf_max_fluctuations cf)%N then
    (exists r, fit cf A I init rnd = Ok r) \/
    (exists x j pm, fit cf A I init rnd = Err x /\ round cf I (rnd j) pm = Err x)
  else fit cf A I init rnd = Err UnboundLocalError.
Proof.
move=> HA HI ES; rewrite /fit; case: (is_dag_spec h p A SA NA) => d [-> Hd].
have -> : d by apply/Hd.
have -> : match init with Some m => if mateqb (mA m) A then Ok m else Err ValueError | None => initial_model cf A I end = Ok m0.
  case: init HI => [m1|//] [-> EA]; have SM : square p (mA m0) by rewrite EA.
  by case: (mateqbP SM SA).
rewrite /= ES /=; case: ifP => C.
  case E: alt_loop => [[r|]|x] /=.
  - by left; exists r.
  - move: E; case EM: (cf_max_iter cf) C => [|n] // C /=.
    rewrite /continue /= EM C; case: round => [[[cm cs] d']|] //= E; by case: (alt_loop_some E).
  - by right; case: (alt_loop_err (leqnn (0 + cf_max_iter cf)) E) => j [pm ER]; exists x, j, pm.
have -> // : alt_loop cf (cf_max_iter cf) I rnd 0 None 0 m0 s0 None = Ok None.
by move: C; case EM: (cf_max_iter cf) => [|n] /= C; rewrite /continue /= EM // C.
Qed.

(** The returned score is that of the B of the round before. *)
Lemma fit_score I init rnd m s : (forall m0, init = Some m0 -> square p (mA m0)) ->
  fit cf A I init rnd = Ok (m, s) ->
  exists B' m' d, [/\ newM A B' (mgamma m) (momegas m) (mpsis m) = Ok m', mscore cf m' = Ok s & amax (B' - mB m) = Ok d].
Proof.
move=> SI E; case: (fit_start SA NA SI E) => m0 [s0 [EA E1 _ _ EL]].
case: (alt_loop_last SA NA EA _ EL) => // j [pm [d [EP ER]]].
case: (round_ok SA NA EP ER) => [[HA HB EM EIB] [EB EG ES ED]].
exists (mB pm), (MkModel A (mB pm) (mgamma m) (momegas m) (mpsis m) (1%:M - (mB pm)^T)), d; split=> //.
  by case: (new_model_spec h (mB pm) (mgamma m) (momegas m) (mpsis m) SA NA) => [[_ [_ ->]]|[[]]].
by rewrite -ES -EIB.
Qed.

(** Without an initial model, psi_max <= 1 is outside of the bounds at the start. *)
Lemma solve_rest_psi (m : model) I u : (0 < l)%N -> (0 < e)%N -> cf_psi_max cf = Some u -> u <= 1 ->
  mpsis m = const_mx 1 -> solve_rest cf m I = Err ValueError.
Proof.
move=> l0 e0 EU U1 EP; rewrite /solve_rest /gd.
case: (in_bounds_spec (fun x : 'M[F]_(e, p) * 'M[F]_(e, l) => [:: entries x.1; entries x.2]) (Some (rest_bounds cf)) (momegas m, mpsis m))
  => [[_ H]|[_ [->|->]]] //.
by case: (rest_inside H) => _ _ /(_ _ EU (Ordinal e0) (Ordinal l0)); rewrite /= EP mxE ltNge U1.
Qed.

Lemma round_psi I rnd (pm : model) u r : (0 < l)%N -> (0 < e)%N -> cf_psi_max cf = Some u -> u <= 1 ->
  mpsis pm = const_mx 1 -> round cf I rnd pm <> Ok r.
Proof.
move=> l0 e0 EU U1 EP; rewrite /round; case EC: (copy_model _ _) => [c0|] //=.
case: solve_B => [nB|] //=; case: solve_gamma => [g|] //=.
rewrite (solve_rest_psi _ l0 e0 EU U1) //=.
by move: EC; rewrite /copy_model /new_model; case: eqP => // _; case: is_dag => [[]|] //=; case: ifP => // _ [<-].
Qed.

Lemma fit_psi I rnd u r : (0 < l)%N -> (0 < e)%N -> cf_psi_max cf = Some u -> u <= 1 -> fit cf A I None rnd <> Ok r.
Proof.
move=> l0 e0 EU U1 E; case: r E => m s E.
have N0 : forall m0 : model, None = Some m0 -> square p (mA m0) by [].
case: (fit_trace N0 E) => n [ms [ss [ds [/andP [n0 _] [EI _] H _ _]]]].
case: (H _ n0) => _; apply: (round_psi l0 e0 EU U1).
by case: (initial_ok SA NA EI).
Qed.

Lemma fit_psi_error I rnd u m0 s0 B g : (0 < l)%N -> (0 < e)%N -> cf_psi_max cf = Some u -> u <= 1 ->
  (0 < cf_max_iter cf)%N -> (0 < cf_max_fluctuations cf)%N ->
  initial_model cf A I = Ok m0 -> mscore cf m0 = Ok s0 -> solve_B cf m0 (rnd 0%N).1 (rnd 0%N).2 = Ok B ->
  solve_gamma cf (set_B m0 B) = Ok g -> fit cf A I None rnd = Err ValueError.
Proof.
move=> l0 e0 EU U1 MI MF EI ES EB EG; have [EA HA SB _ EP] := initial_ok SA NA EI.
rewrite /fit; case: (is_dag_spec h p A SA NA) => d [-> Hd].
have -> : d by apply/Hd.
rewrite /= EI /= ES /=; case EM: (cf_max_iter cf) MI => [|n] // MI /=.
rewrite /continue /= EM MF /= /round.
have EC : copy_model h m0 = Ok m0.
  rewrite /copy_model EA; case: (new_model_spec h (mB m0) (mgamma m0) (momegas m0) (mpsis m0) SA NA) => [[_ [_ ->]]|[[]]] //.
  move: EI; rewrite /initial_model; case: initialize_B => [B0|] //=; case: initialize_gamma => [g0|] //= EN.
  by case: (new_model_ok SA NA EN) => _ _ ->.
by rewrite EC /= EB /= EG /= (solve_rest_psi _ l0 e0 EU U1).
Qed.
End Fit.

(** Histories without initial models *)
Lemma history_psi caching cs c u r : Forall (@proper F p l e) cs -> Forall (fun d => cl_init d = None) cs ->
  proper c -> cl_init c = None -> (0 < l)%N -> (0 < e)%N -> cf_psi_max cf = Some u -> u <= 1 ->
  (do_call cf (run cf (fresh F p l e caching) cs) c).2 <> Ok r.
Proof.
move=> G GI PR EI l0 e0 EU U1.
set P := fun (A : mat) (I : seq nat) (m : model) => False.
have P1 A I J (m0 : model) : same_set I J -> P A I m0 -> P A J m0 by [].
have P2 A I (m0 m1 : model) : same_params m0 m1 -> P A I m0 -> P A I m1 by [].
have GP d : proper d -> cl_init d = None -> good_call cf P d.
  move=> PD ED; split=> // m0 s0; rewrite ED; have [SA NA SI] := PD.
  by move/(fit_psi SA NA l0 e0 EU U1).
have GS : Forall (good_call cf P) cs.
  by apply/Forall_forall => d Hd; apply: GP; [exact: (proj1 (Forall_forall _ _) G) | exact: (proj1 (Forall_forall _ _) GI)].
have [_ HP] := GP _ PR EI.
case: r => m s; case: (run_wf P1 P2 caching GS) => [[-> _]|[xs [-> [W _]]]].
  by move=> E; case: (call_none PR HP) => _ /(_ _ _ E) [].
case: (call_some P1 P2 PR W HP) => ys [r [-> _ _ HO]] /= E.
by case: (HO _ _ E).
Qed.

(** With a cache, an initial model for a pair that was scored before is an error. *)
Lemma init_after_scored cs c m s c' r : Forall (@proper F p l e) cs -> proper c -> proper c' ->
  cl_A c' = cl_A c -> same_set (cl_I c') (cl_I c) -> cl_init c' <> None ->
  let st := run cf (fresh F p l e true) cs in
  (do_call cf st c).2 = Ok (m, s) ->
  fit cf (cl_A c') (cl_I c') (cl_init c') (cl_rnd c') = Ok r ->
  do_call cf (do_call cf st c).1 c' = ((do_call cf st c).1, Err ValueError).
Proof.
move=> G PR PR' EA SS EI st; have [SA NA SI] := PR; rewrite {}/st => E EF.
have T1 : forall (A : mat) I J (m : model), same_set I J -> True -> True by [].
have T2 : forall (A : mat) (I : seq nat) (m m' : model), same_params m m' -> True -> True by [].
move: E; case: (@run_wf F p l e cf (fun _ _ _ => True) T1 T2 true cs (good_proper cf G)) => [[_ //]|[xs [-> [W _]]]].
case: (@call_some F p l e cf (fun _ _ _ => True) T1 T2 _ c PR W (fun _ _ _ => Logic.I)) => ys [r' [-> [SX DX _] _ HO]] /= E.
case: (HO _ _ E) => _ _ HX; have [x0 _] : exists x0 : mat * seq nat * model * F, true by exists (cl_A c, [::], m, s).
case: (HX x0) => K _.
rewrite /do_call /score_dag; case: (cl_init c') EI EF => // mi _ ->; case: r => m1 s1.
have EK : @key model F (cl_A c) (cl_I c') =1 key (cl_A c) (cl_I c).
  move=> x; rewrite /key; congr (_ && _); apply/set_eqbP/set_eqbP => H.
    exact: same_set_trans H SS.
  exact: same_set_trans H (same_set_sym SS).
by rewrite EA (write_spec _ _ _ _ SX DX SA) (eq_has EK) K.
Qed.
End Loop.
