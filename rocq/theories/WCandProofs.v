(** equivalence_class and weighted candidates (C133, C135). *)
From Coq Require Import ZArith Lia List.
From mathcomp Require Import all_ssreflect all_algebra.
From Verif Require Import Base GraphModel GraphSpec ListModel NumModel NumSpec ScoreModel CacheSpec CacheProofs ScoreSpec ScoreProofs.
From Verif Require Import MainModel MainSpec PruneProofs PruneIProofs WeightSpec WeightProofs NamesSpec NamesProofs ClassNamesProofs StatProofs ClassProofs NegProofs WCandSpec.
Set Implicit Arguments.
Unset Strict Implicit.
Unset Printing Implicit Defensive.
Import Order.Theory GRing.Theory Num.Theory.
Local Open Scope ring_scope.

Section Weigh.
Variables (p : nat) (v : nat -> nat -> Z).
Hypothesis NV : forall i j, v i j <> Z0.
Local Notation wt := (weigh p v).

Lemma weigh_square A : square p (wt A). Proof. exact: mk_square. Qed.
Lemma get_weigh A i j : square p A -> get (wt A) i j = Z.mul (v i j) (get A i j).
Proof.
move=> SA; rewrite get_mk'; case: (Nat.ltb_spec i p) => Hi; case: (Nat.ltb_spec j p) => Hj //=; rewrite (get_out SA); lia.
Qed.
Lemma weigh_zero A i j : square p A -> Z.eqb (get (wt A) i j) Z0 = Z.eqb (get A i j) Z0.
Proof. by move=> SA; rewrite get_weigh //; have H := @NV i j; apply/Z.eqb_spec/Z.eqb_spec; nia. Qed.
Lemma weigh_mask A : square p A -> same_mask p (wt A) A.
Proof.
move=> SA; split; first exact: weigh_square; split=> // i j; rewrite /edge get_weigh //; have := @NV i j; nia.
Qed.
Lemma weigh_mateqb A B : square p A -> square p B -> mateqb (wt A) (wt B) = mateqb A B.
Proof.
move=> SA SB; have M := mateqb_eq SA SB; have M' := mateqb_eq (weigh_square A) (weigh_square B).
apply/idP/idP => [/M' E|/M E]; last by apply/M'; rewrite E.
apply/M; apply: (mat_ext SA SB) => i j _ _; have := congr1 (fun X => get X i j) E; rewrite /= !get_weigh //.
have := @NV i j; nia.
Qed.
Lemma weigh_upd A i j : square p A -> (i < p)%N -> (j < p)%N -> upd (wt A) i j Z0 = wt (upd A i j Z0).
Proof.
move=> SA /ssrnat.ltP Hi /ssrnat.ltP Hj; have SW := weigh_square A; have SU := upd_square i j Z0 SA.
apply: (mat_ext (upd_square i j Z0 SW) (weigh_square _)) => x y _ _.
rewrite (get_upd _ _ _ SW) // !get_weigh // (get_upd _ _ _ SA) //; case: (_ && _) => //; lia.
Qed.

(** The graphs whose weighted form passes for a DAG as they do, and the two flags for which the weighted candidates
    are pruned as the others *)
Variable ok : mat -> Prop.
Hypothesis OKG : forall A, ok A -> graph p A.
Hypothesis OKD : forall h A, ok A -> is_dag h (wt A) = is_dag h A.
Hypothesis OKU : forall A i j, ok A -> ok (upd A i j Z0).
Variables prune prune' : bool.
Definition pruned_alike : Prop :=
  (prune' = prune /\ forall A, ok A -> Z.ltb Z0 (msum (wt A)) = Z.ltb Z0 (msum A)) \/
  (prune = false /\ forall A, ok A -> Z.ltb Z0 (msum (wt A)) = false).
Hypothesis HP : pruned_alike.

Section Fit.
Variables (F : realFieldType) (l e : nat) (cf : conf F p l e).
Hypothesis HC : forall m m' : model F p l e, same_mask p (mA m) (mA m') -> mB m = mB m' -> mgamma m = mgamma m' -> momegas m = momegas m' ->
  mpsis m = mpsis m' -> mI_B m = mI_B m' -> cf_cvx cf m = cf_cvx cf m'.
Local Notation model := (model F p l e).
Local Notation wm := (@weigh_model F p e l v).
Local Notation h := (cf_h cf).

Lemma new_weigh A B ga om ps : ok A -> new_model h (wt A) B ga om ps = res_map wm (new_model (F := F) (e := e) (l := l) h A B ga om ps).
Proof.
move=> GA; have [SA _] := OKG GA; rewrite /new_model OKD // !(square_length SA) !(square_length (weigh_square A)).
case: (_ != _) => //; case: is_dag => //= d; case: ifP => // _.
have -> : respects (wt A) B = respects A B.
  by apply: eq_forallb => i; apply: eq_forallb => j; rewrite weigh_zero.
by case: ifP.
Qed.
Lemma new_weigh_bind T A B ga om ps (k : model -> res T) : ok A -> (forall m, k (wm m) = k m) ->
  bind (new_model h (wt A) B ga om ps) k = bind (new_model h A B ga om ps) k.
Proof. by move=> GA H; rewrite new_weigh //; case: new_model => //= m. Qed.
Lemma pattern_weigh A (X : 'M[F]_p) : square p A -> pattern (wt A) X = pattern A X.
Proof. by move=> SA; apply/matrixP => r c; rewrite !mxE weigh_zero. Qed.
Lemma aloop_weigh A k lik lik' Ms lr cur cs : square p A -> (forall X, lik' X = lik X) ->
  adaptive_loop cf k lik' Ms (wt A) lr cur cs = adaptive_loop cf k lik Ms A lr cur cs.
Proof.
move=> SA HL; elim: k lr cur cs => //= k IH lr cur cs; rewrite pattern_weigh // HL; apply: bind_ext => ns; case: ifP => // _.
by apply: bind_ext => d; case: ifP.
Qed.
Lemma adaptive_weigh m rnd : ok (mA m) -> solve_B_adaptive cf (wm m) rnd = solve_B_adaptive cf m rnd.
Proof.
move=> GA; have [SA _] := OKG GA; rewrite /solve_B_adaptive; apply: bind_ext => Ms /=; rewrite pattern_weigh // new_weigh_bind //.
apply: bind_ext => cs; congr bind; apply: aloop_weigh => // X; exact: new_weigh_bind.
Qed.
Lemma grad_weigh A k Ms init lr B Bn : square p A -> grad_loop cf k Ms (wt A) init lr B Bn = grad_loop cf k Ms A init lr B Bn.
Proof.
move=> SA; elim: k lr B Bn => [|k IH] lr B Bn //=; apply: bind_ext => d; case: ifP => // _; case: ifP => // _.
by rewrite pattern_weigh // !IH.
Qed.
Lemma solve_B_weigh m rnd rnd' : ok (mA m) -> solve_B cf (wm m) rnd rnd' = solve_B cf m rnd rnd'.
Proof.
move=> GA; have [SA _] := OKG GA; rewrite /solve_B; case: cf_solver.
- rewrite /solve_B_cvx; apply: bind_ext => _; rewrite (HC (m' := m)) //; last exact: weigh_mask.
  case: cf_cvx => // B /=; have -> : [forall i : 'I_p, forall j : 'I_p, Z.eqb (get (wt (mA m)) i j) Z0 ==> (`|B i j| <= (10%:R ^+ 8)^-1)] =
    [forall i : 'I_p, forall j : 'I_p, Z.eqb (get (mA m) i j) Z0 ==> (`|B i j| <= (10%:R ^+ 8)^-1)].
    by apply: eq_forallb => i; apply: eq_forallb => j; rewrite weigh_zero.
  by case: ifP => // _; congr Ok; apply/matrixP => i j; rewrite !mxE weigh_zero.
- rewrite /solve_B_grad; apply: bind_ext => Ms; rewrite grad_weigh //; apply: bind_ext => r; by rewrite adaptive_weigh.
exact: adaptive_weigh.
Qed.
Lemma solve_gamma_weigh m : ok (mA m) -> solve_gamma cf (wm m) = solve_gamma cf m.
Proof.
by move=> GA; rewrite /solve_gamma; congr bind; apply: gd_ext => x; [rewrite /gamma_loss|rewrite /gamma_gradient]; rewrite new_weigh_bind.
Qed.
Lemma solve_rest_weigh m I : ok (mA m) -> solve_rest cf (wm m) I = solve_rest cf m I.
Proof.
by move=> GA; rewrite /solve_rest; congr bind; apply: gd_ext => x; [rewrite /rest_loss|rewrite /rest_gradient]; rewrite new_weigh_bind.
Qed.
Lemma round_weigh I rnd pm : ok (mA pm) -> round cf I rnd (wm pm) = res_map (fun x => (wm x.1.1, x.1.2, x.2)) (round cf I rnd pm).
Proof.
move=> GA; rewrite /round /copy_model new_weigh //; case E : new_model => [c0|] //=.
have EA : mA c0 = mA pm by move: E; rewrite /new_model; case: ifP => // _; case: is_dag => //= d; case: ifP => // _; case: ifP => // _ [<-].
rewrite solve_B_weigh ?EA //; case: solve_B => //= nB; rewrite -[set_B (wm c0) nB]/(wm (set_B c0 nB)) solve_gamma_weigh ?EA //.
case: solve_gamma => //= g; rewrite -[set_gamma (wm _) g]/(wm (set_gamma (set_B c0 nB) g)) solve_rest_weigh ?EA //.
case: solve_rest => //= x; case: amax => //= d.
rewrite -[mscore cf (set_rest (wm _) x)]/(mscore cf (set_rest (set_gamma (set_B c0 nB) g) x)).
by case: mscore.
Qed.
Lemma alt_weigh k I rnd i d n pm ps cur : ok (mA pm) ->
  alt_loop cf k I rnd i d n (wm pm) ps (omap (fun x => (wm x.1, x.2)) cur) =
  res_map (omap (fun x => (wm x.1, x.2))) (alt_loop cf k I rnd i d n pm ps cur).
Proof.
elim: k i d n pm ps cur => [|k IH] i d n pm ps cur GA /=; case: ifP => // _; rewrite round_weigh //.
case E : round => [[[cm cs] dd]|] //=; rewrite -(IH _ _ _ _ _ (Some (cm, cs))) //.
move: E; rewrite /round /copy_model /new_model; case: ifP => // _; case: is_dag => //= b; case: ifP => // _; case: ifP => // _ /=.
by case: solve_B => //= nB; case: solve_gamma => //= g; case: solve_rest => //= x; case: amax => //= d'; case: mscore => //= s [<- _ _].
Qed.
Lemma pa_weigh A (j : 'I_p) : square p A -> pa_of (wt A) j = pa_of A j.
Proof. by move=> SA; apply: eq_filter => i; rewrite weigh_zero. Qed.
Lemma initial_weigh A I : ok A -> initial_model cf (wt A) I = res_map wm (initial_model cf A I).
Proof.
move=> GA; have [SA _] := OKG GA; rewrite /initial_model.
have -> : initialize_B cf (wt A) = initialize_B cf A.
  by rewrite /initialize_B; elim: (enum 'I_p) 0 => //= j js IH B; rewrite pa_weigh //; apply: bind_ext.
by case: initialize_B => //= B; case: initialize_gamma => //= g; exact: new_weigh.
Qed.
Lemma fit_weigh A I rnd : ok A -> fit cf (wt A) I None rnd = res_map (fun x => (wm x.1, x.2)) (fit cf A I None rnd).
Proof.
move=> GA; rewrite /fit OKD //; case: is_dag => //= d; case: ifP => // _; rewrite initial_weigh //.
case E : initial_model => [m|] //=; have EM : mscore cf (wm m) = mscore cf m by [].
rewrite EM; case: mscore => //= s; have H := @alt_weigh (cf_max_iter cf) I rnd 0 None 0 m s None.
suff GM : ok (mA m) by rewrite (H GM); case: alt_loop => [[r|]|].
move: E; rewrite /initial_model; case: initialize_B => //= B; case: initialize_gamma => //= g.
by rewrite /new_model; case: ifP => // _; case: is_dag => //= b; case: ifP => // _; case: ifP => // _ [<-].
Qed.

(** The cache *)
Definition weigh_cache (c : cache model F) : cache model F := MkCache (map wt (cAs c)) (cIs c) (cscores c) (map wm (cmodels c)).
Definition graphs (c : option (cache model F)) : Prop :=
  if c is Some c then Forall (ok) (cAs c) /\ Forall (fun m => ok (mA m)) (cmodels c) else True.
Lemma forall_nth (T : Type) (P : T -> Prop) (d : T) xs k : Forall P xs -> (k < size xs)%N -> P (nth d xs k).
Proof. by move=> H; elim: H k => [|x ys Px _ IH] [|k] //=; exact: IH. Qed.
Lemma find_weigh c A I : graphs (Some c) -> ok A -> find (weigh_cache c) (wt A) I = find c A I.
Proof.
move=> [GC _] GA; have [SA _] := OKG GA; rewrite /find /=.
have -> : [seq k <- iota 0 (size (map wt (cAs c))) | mateqb (wt A) (nth [::] (map wt (cAs c)) k)] =
  [seq k <- iota 0 (size (cAs c)) | mateqb A (nth [::] (cAs c) k)].
  rewrite size_map; apply: eq_in_filter => k; rewrite mem_iota add0n => /andP [_ Hk]; rewrite (nth_map [::]) //.
  by apply: weigh_mateqb => //; have [] := OKG (forall_nth [::] GC Hk).
by case: (cAs c).
Qed.
Lemma write_weigh c A I m s : graphs (Some c) -> ok A -> ok (mA m) ->
  let r := write (@copy_model F h p l e) c A I m s in
  write (@copy_model F h p l e) (weigh_cache c) (wt A) I (wm m) s = (weigh_cache r.1, r.2) /\ graphs (Some r.1).
Proof.
move=> GC GA GM; rewrite /write find_weigh //; have [H1 H2] := GC; case: find => [[k|]|x] //=.
have HA : Forall (ok) (rcons (cAs c) A) by rewrite -cats1; apply/Forall_app; split=> //; constructor.
rewrite /copy_model new_weigh //; case E : new_model => [m'|x] /=; rewrite /weigh_cache /= !map_rcons; split=> //; split=> //=.
rewrite -cats1; apply/Forall_app; split=> //; constructor=> //.
by move: E; rewrite /new_model; case: ifP => // _; case: is_dag => //= d; case: ifP => // _; case: ifP => // _ [<-].
Qed.
Lemma read_weigh c A I : graphs (Some c) -> ok A ->
  read (weigh_cache c) (wt A) I = res_map (omap (fun x => (wm x.1, x.2))) (read c A I) /\
  (forall m s, read c A I = Ok (Some (m, s)) -> ok (mA m)).
Proof.
move=> GC GA; rewrite /read find_weigh //; case: find => [[k|]|x] //=; split.
  rewrite -[map wm _]/(List.map wm _) List.nth_error_map; case: List.nth_error => //= m; by case: List.nth_error.
move=> m s; case E : (List.nth_error (cmodels c) k) => [m'|] //; case: (List.nth_error (cscores c) k) => // s' [<- _].
by have [_ H] := GC; move: H => /Forall_forall; apply; apply: nth_error_In E.
Qed.
Lemma score_dag_weigh st A I rnd : graphs st -> ok A ->
  let r := score_dag cf st A I None rnd in
  [/\ score_dag cf (omap weigh_cache st) (wt A) I None rnd = (omap weigh_cache r.1, res_map (fun x => (wm x.1, x.2)) r.2), graphs r.1
    & forall m s, r.2 = Ok (m, s) -> ok (mA m)].
Proof.
move=> GS GA; have [SA NA] := OKG GA.
have G : let r := go cf st A I None rnd in
  [/\ go cf (omap weigh_cache st) (wt A) I None rnd = (omap weigh_cache r.1, res_map (fun x => (wm x.1, x.2)) r.2), graphs r.1
    & forall m s, r.2 = Ok (m, s) -> ok (mA m)].
  rewrite /go fit_weigh //; case E : fit => [[m s]|x] //=.
  have [[_ EA _ _] _] := fit_facts SA NA (I := I) (init := None) (rnd := rnd) ltac:(by []) E.
  have GM : ok (mA m) by rewrite EA.
  case: st GS => [c|] GS /=; last by split=> // m' s' [<- _].
  have [EW GC] := write_weigh I s GS GA GM; rewrite EW; move: GC; case: (write _ c A I m s) => c' r /= GC; split=> //; first by case: r.
  by case: r => //= _ m' s' [<- _].
rewrite !score_dagE; case: st GS G => [c|] GS G //=; have [-> HG] := read_weigh I GS GA.
by case: read HG => [[[m s]|]|x] HG //=; split=> // m' s' [E1 E2]; apply: (HG m' s'); rewrite E1 E2.
Qed.

Variable rnds : nat -> nat -> 'M[F]_p * 'M[F]_p.
Local Notation sobj := (sobj F p l e).
Definition wrel (s s' : sobj) : Prop := s' = (omap weigh_cache s.1, s.2) /\ graphs s.1.
Lemma wbind (A A' B B' : Type) (P : A -> A' -> Prop) (Q : B -> B' -> Prop) (r : sobj * res A) (r' : sobj * res A') c c' :
  strel wrel P r r' -> (forall s s' a a', wrel s s' -> P a a' -> strel wrel Q (c s a) (c' s' a')) ->
  strel wrel Q (sbind r c) (sbind r' c').
Proof. by case: r r' => s [a|x] [s' [a'|x']] [/= H1 H2] H //; rewrite /sbind /=; apply: H. Qed.
Definition wmrel (m m' : model) : Prop := m' = wm m /\ ok (mA m).
Lemma sdag_weigh s s' A I : wrel s s' -> ok A ->
  strel wrel (fun x x' => x'.2 = x.2 /\ wmrel x.1 x'.1) (sdag cf rnds s A I) (sdag cf rnds s' (wt A) I).
Proof.
case: s => c n [-> GS] GA; have [E GR HM] := score_dag_weigh I (rnds n) GS GA.
have -> : sdag cf rnds (omap weigh_cache (c, n).1, (c, n).2) (wt A) I =
  ((omap weigh_cache (score_dag cf c A I None (rnds n)).1, n.+1), res_map (fun x => (wm x.1, x.2)) (score_dag cf c A I None (rnds n)).2).
  by rewrite /sdag; cbv zeta; rewrite [(_, (c, n).2).1]/= [(_, (c, n).2).2]/= E.
rewrite /sdag; cbv zeta; rewrite [(c, n).1]/= [(c, n).2]/=; move: (score_dag cf c A I None (rnds n)) GR HM => [c' r] /= GR HM.
by split=> //; case: r HM => [[m x]|x] //= HM; split=> //; split=> //; exact: (HM m x).
Qed.
Lemma prune_loop_weigh fuel I s s' dag m : prune' = prune /\ (forall A, ok A -> Z.ltb Z0 (msum (wt A)) = Z.ltb Z0 (msum A)) -> wrel s s' -> ok dag ->
  strel wrel (Forall2 wmrel) (prune_loop cf rnds fuel I s dag m) (prune_loop cf rnds fuel I s' (wt dag) (wm m)).
Proof.
move=> [_ OKM]; elim: fuel s s' dag m => [|fuel IH] s s' dag m HS GD; rewrite ?prune_loop0 ?prune_loopS OKM //; case: (msum_pos (OKG GD)) => HE; try by split=> //; constructor.
have [SA _] := OKG GD; have [i [j E]] := HE; have [a _] := edge_ord SA E.
have p0 : (0 < p)%N by apply: leq_ltn_trans (ltn_ord a).
have [i' [j' [-> _]]] := weakest_edge_spec (mB m) p0; cbv zeta; rewrite weigh_upd //.
apply: wbind; first by apply: sdag_weigh => //; exact: OKU.
move=> s1 s1' x x' HS1 [_ [-> GX]] /=; apply: wbind; first by apply: IH => //; exact: OKU.
by move=> s2 s2' ms ms' HS2 HM; split=> //=; constructor.
Qed.
Lemma prune_each_weigh fuel I s s' Gs : wrel s s' -> Forall ok Gs ->
  strel wrel (Forall2 wmrel) (prune_each cf rnds fuel prune None I s Gs) (prune_each cf rnds fuel prune' None I s' (map wt Gs)).
Proof.
elim: Gs s s' => [|G Gs IH] s s' HS GG; first by split=> //=; constructor.
have GG0 := Forall_inv GG; rewrite [map wt _]/= !prune_eachS; apply: (wbind (P := Forall2 wmrel)).
  apply: wbind; first exact: (sdag_weigh _ HS GG0).
  move=> s1 s1' x x' HS1 [_ [-> GX]] /=; case: HP => [HP1|[EP HP2]].
    rewrite (proj1 HP1); case: (prune); last by split=> //=; constructor.
    apply: wbind; first exact: prune_loop_weigh.
    by move=> s2 s2' ms ms' HS2 HM; split=> //=; constructor.
  rewrite EP; case: (prune'); last by split=> //=; constructor.
  rewrite (_ : prune_loop cf rnds fuel I s1' (wt G) (wm x.1) = (s1', Ok [::])); first by split=> //=; constructor.
  by case: (fuel) => [|k]; rewrite ?prune_loop0 ?prune_loopS HP2.
move=> s1 s1' ms ms' HS1 HM; apply: wbind; first by apply: IH => //; exact: Forall_inv_tail GG.
by move=> s2 s2' ms2 ms2' HS2 HM2; split=> //=; exact: Forall2_app.
Qed.
Lemma prune_graphs_weigh fuel s s' Gs : wrel s s' -> Forall ok Gs ->
  strel wrel (Forall2 wmrel) (prune_graphs cf rnds fuel prune None s Gs) (prune_graphs cf rnds fuel prune' None s' (map wt Gs)).
Proof.
move=> HS GG; have H := prune_each_weigh fuel (iota 0 p) HS GG.
move: H; rewrite /prune_graphs; case: Gs GG => [|G gs] GG H //=.
by have [SA _] := OKG (Forall_inv GG); rewrite (square_length SA) (square_length (weigh_square G)).
Qed.
Definition targeted (x x' : model * seq nat) : Prop := x'.2 = x.2 /\ wmrel x.1 x'.1.
Lemma prune_I_weigh sort s s' G : wrel s s' -> ok G ->
  strel wrel (Forall2 targeted) (prune_I cf rnds sort None s G) (prune_I cf rnds sort None s' (wt G)).
Proof.
move=> HS GG; have [SA _] := OKG GG; rewrite /prune_I (square_length SA) (square_length (weigh_square G)).
apply: wbind; first exact: sdag_weigh.
move=> s1 s1' x x' HS1 [_ [-> GX]] /=; apply: (wbind (P := Forall2 targeted)).
  rewrite -[variances (wm _)]/(variances x.1); elim: (sort _) s1 s1' (iota 0 p) HS1 => [|j js IH] s1 s1' I HS1; first by split=> //=; constructor.
  rewrite !prune_I_loopS; apply: wbind; first exact: sdag_weigh.
  move=> s2 s2' y y' HS2 [_ [-> GY]] /=; apply: wbind; first exact: IH.
  by move=> s3 s3' ms ms' HS3 HM; split=> //=; constructor.
by move=> s2 s2' ms ms' HS2 HM; split=> //=; constructor.
Qed.
End Fit.
End Weigh.

Section Class.
Variables (F : realFieldType) (p e : nat) (w : world F p e) (a : args F) (v : nat -> nat -> Z).
Hypothesis NV : forall i j, v i j <> Z0.
Hypothesis HC : solver_sees_edges w.
Local Notation wt := (weigh p v).
Local Notation wm := (weigh_model v).
Local Notation sample := (seq 'rV[F]_p).
Variable ok : mat -> Prop.
Hypothesis OKG : forall A, ok A -> graph p A.
Hypothesis OKD : forall h A, ok A -> is_dag h (wt A) = is_dag h A.
Hypothesis OKU : forall A i j, ok A -> ok (upd A i j Z0).
Variables prune prune' : bool.
Hypothesis HP : pruned_alike p v ok prune prune'.
Variables (training test_g test_I : seq sample) (Gs : seq mat).
Hypothesis GG : Forall ok Gs.

Lemma test_scores_weigh l (T T' : Type) (P : T -> T' -> Prop) fold (ms : seq (model F p l e * T)) (ms' : seq (model F p l e * T')) :
  Forall2 (fun x x' => wmrel v ok x.1 x'.1 /\ P x.2 x'.2) ms ms' ->
  rrel (Forall2 (fun y y' => y'.1 = y.1 /\ (wmrel v ok y.2.1 y'.2.1 /\ P y.2.2 y'.2.2))) (test_scores w fold ms) (test_scores w fold ms').
Proof.
elim=> [|x x' xs xs' Px _ IH] /=; first by constructor.
apply: (rbind (P := fun a b => b = a)).
  by case: Px => -[-> _] _; rewrite -[score _ (wm _) _ _]/(score (w_log w) x.1 (covs w fold) (n_obs fold)); case: score.
move=> u u' _ ->; apply: rbind; first exact: IH.
by move=> ys ys' _ HY; constructor.
Qed.

Inductive werel : entry F p e -> entry F p e -> Prop :=
| WERel n h x G xs xs' (s s' : sobj F p h e) : ok G -> wrel v ok s s' -> werel (Entry n x G xs s) (Entry n x (wt G) xs' s').
Lemma werel_h x x' : werel x x' -> en_h x' = en_h x. Proof. by case. Qed.
Lemma werel_key x x' : werel x x' -> (en_score x', en_h x') = (en_score x, en_h x). Proof. by case. Qed.
Lemma fit_h_weigh n h : rrel werel (fit_h w a training test_g prune None Gs n h) (fit_h w a training test_g prune' None (map wt Gs) n h).
Proof.
rewrite /fit_h; case: ifP => // _.
have H0 : wrel v ok (new_sobj F p h e) (new_sobj F p h e) by split=> //; split; constructor.
have HV : forall m m' : model F p h e, same_mask p (mA m) (mA m') -> mB m = mB m' -> mgamma m = mgamma m' -> momegas m = momegas m' ->
  mpsis m = mpsis m' -> mI_B m = mI_B m' -> cf_cvx (train_conf w a training h) m = cf_cvx (train_conf w a training h) m'.
  by move=> m m'; exact: HC.
have [] := prune_graphs_weigh NV OKG OKD OKU HP HV (w_rnds w n) (w_fuel w) H0 GG.
case: prune_graphs => s r; case: prune_graphs => s' r' /= HS HR; apply: rbind; first exact: HR.
move=> ms ms' _ HM; apply: rbind.
  apply: (@test_scores_weigh h _ _ (fun G G' => G' = wt G /\ ok G)).
  by elim: HM => [|m m' ms1 ms1' [-> GM] _ IH] /=; constructor.
move=> xs xs' _ HX; apply: rbind.
  apply: (@best_scoring_rel F _ _ (fun G G' => G' = wt G /\ ok G)).
  by elim: HX => [|x x' ys ys' [E1 [_ E2]] _ IH] /=; constructor.
move=> [x G] [x' G'] _ /= [-> [-> H1]]; exact: WERel.
Qed.
Lemma dict_set_weigh d d' x x' : Forall2 werel d d' -> werel x x' -> Forall2 werel (dict_set d x) (dict_set d' x').
Proof.
move=> HD HX; rewrite /dict_set (werel_h HX).
have -> : has (fun y => en_h y == en_h x) d' = has (fun y => en_h y == en_h x) d.
  by elim: HD => [|y y' ys ys' HY _ IH] //=; rewrite (werel_h HY) IH.
case: ifP => _; last by rewrite -!cats1; apply: Forall2_app => //; constructor.
by elim: HD => [|y y' ys ys' HY _ IH] //=; constructor=> //; rewrite (werel_h HY); case: ifP.
Qed.
Lemma fit_hs_weigh d d' n hs : Forall2 werel d d' ->
  rrel (Forall2 werel) (fit_hs w a training test_g prune None Gs d n hs) (fit_hs w a training test_g prune' None (map wt Gs) d' n hs).
Proof.
elim: hs d d' n => [|h hs IH] d d' n HD //=; apply: rbind; first exact: fit_h_weigh.
by move=> x x' _ HX; apply: IH; exact: dict_set_weigh.
Qed.
Lemma ins_weigh x x' ys ys' : werel x x' -> Forall2 werel ys ys' ->
  rrel (Forall2 werel) (ins_sort1 (fun x => (en_score x, en_h x)) x ys) (ins_sort1 (fun x => (en_score x, en_h x)) x' ys').
Proof.
move=> HX; elim=> [|y y' zs zs' HY HZ IH] /=; first by constructor.
apply: (rbind (P := fun a b => b = a)).
  have [E1 E2] := werel_key HX; have [E3 E4] := werel_key HY; rewrite /tuple_lt E1 E2 E3 E4; by case: ifP => // _; case: ifP.
move=> b b' _ ->; case: b; last by constructor=> //; constructor.
by apply: rbind; [exact: IH|move=> us us' _ HU; constructor].
Qed.
Lemma select_h_weigh d d' : Forall2 werel d d' -> rrel werel (select_h d) (select_h d').
Proof.
move=> HD; apply: (rbind (P := Forall2 werel)); last by move=> xs xs' _ [|x x' ys ys' HX _].
elim: HD => [|x x' ys ys' HX _ IH] /=; first by constructor.
by apply: rbind; [exact: IH|move=> zs zs' _; exact: ins_weigh].
Qed.
Definition wfrel (r r' : any_model F p e * seq nat * F) : Prop :=
  [/\ r'.1.1 = existT (fun l => model F p l e) (projT1 r.1.1) (wm (projT2 r.1.1)), r'.1.2 = r.1.2, r'.2 = r.2 & ok (mA (projT2 r.1.1))].
Lemma fit_I_weigh x x' : werel x x' -> rrel wfrel (fit_I w a training test_I None x) (fit_I w a training test_I None x').
Proof.
case=> n h u G xs xs' s s' HG HS; rewrite /fit_I /=.
have HV : forall m m' : model F p h e, same_mask p (mA m) (mA m') -> mB m = mB m' -> mgamma m = mgamma m' -> momegas m = momegas m' ->
  mpsis m = mpsis m' -> mI_B m = mI_B m' -> cf_cvx (train_conf w a training h) m = cf_cvx (train_conf w a training h) m'.
  by move=> m m'; exact: HC.
have [] := prune_I_weigh NV OKG OKD HV (w_rnds w n) (w_argsort w) HS HG.
case: prune_I => s1 r; case: prune_I => s1' r' /= _ HR; apply: rbind; first exact: HR.
move=> ms ms' _ HM; apply: rbind.
  apply: (@test_scores_weigh h _ _ (fun J J' => J' = J)).
  by elim: HM => [|y y' ys ys' [E1 E2] _ IH] /=; constructor.
move=> ys ys' _ HY; apply: rbind; first exact: (@best_scoring_rel F _ _ (fun z z' => wmrel v ok z.1 z'.1 /\ z'.2 = z.2) _ _ HY).
by move=> [b [m J]] [b' [m' J']] _ /= [-> [[/= -> GM] ->]].
Qed.
End Class.

Lemma fit_all_weigh (F : realFieldType) (p e : nat) (w : world F p e) (a : args F) v (ok : mat -> Prop) prune prune' candidates data seed :
  (forall i j, v i j <> Z0) -> solver_sees_edges w -> (forall A, ok A -> graph p A) -> (forall h A, ok A -> is_dag h (weigh p v A) = is_dag h A) ->
  (forall A i j, ok A -> ok (upd A i j Z0)) -> pruned_alike p v ok prune prune' -> Forall ok candidates ->
  (forall A J, ok A -> dag_to_icpdag (w_h w) (weigh p v A) J = dag_to_icpdag (w_h w) A J) ->
  equivalence_class w a (List.map (weigh p v) candidates) data prune' seed = weigh_class v (equivalence_class w a candidates data prune seed).
Proof.
move=> NV HC OKG OKD OKU HP GG OKI; rewrite /equivalence_class /fit_all; case: split_data => //= -[|tr [|tg [|ti [|? ?]]]] //=; case: numbers => //= hs.
have := fit_hs_weigh a NV HC OKG OKD OKU HP tr tg GG 0 hs (Forall2_nil _).
rewrite /rrel; case: fit_hs => [d|x]; case: fit_hs => [d'|x'] //=; last by move=> ->.
move=> /select_h_weigh; rewrite /rrel; case: select_h => [x|x]; case: select_h => [x'|x'] //=; last by move=> ->.
move=> /(fit_I_weigh a NV HC OKG OKD tr ti); rewrite /rrel; case: fit_I => [[[m J] y]|y]; case: fit_I => [[[m' J'] y']|y'] //=; last by move=> ->.
by move=> [/= -> -> _ GM]; rewrite /= OKI //; case: dag_to_icpdag.
Qed.

Lemma positive_nz v : positive_weights v -> forall i j, v i j <> Z0.
Proof. by move=> PV i j; have := PV i j; lia. Qed.
Lemma negative_nz v : negative_weights v -> forall i j, v i j <> Z0.
Proof. by move=> NV i j; have := NV i j; lia. Qed.
Lemma upd0_graph' p A i j : graph p A -> graph p (upd A i j Z0).
Proof.
move=> [SA NA]; split; first exact: upd_square; move=> x y; rewrite /upd get_mk'; case: (_ && _) => //; case: (_ && _) => //; exact: NA.
Qed.
Lemma upd0_acyclic p A i j : graph p A -> acyclic A -> acyclic (upd A i j Z0).
Proof.
move=> [SA NA]; apply: sub_acyclic => x y; rewrite /edge /upd get_mk'; case: (_ && _) => //; case: (_ && _) => //.
Qed.

Section Pos.
Variables (p : nat) (v : nat -> nat -> Z).
Hypothesis PV : positive_weights v.
Local Notation wt := (weigh p v).
Lemma weigh_edges A : graph p A -> same_edges p (wt A) A.
Proof.
move=> [SA NA]; split; first exact: weigh_square; split=> //; split.
  by move=> i j; rewrite get_weigh //; have := PV i j; have := NA i j; nia.
by split=> // i j; rewrite /edge get_weigh //; have := PV i j; nia.
Qed.
Lemma weigh_graph A : graph p A -> graph p (wt A).
Proof. by move=> /weigh_edges [H1 [_ [H2 _]]]. Qed.
Lemma weigh_dag h A : graph p A -> is_dag h (wt A) = is_dag h A.
Proof. by move=> /weigh_edges E; have [_ [-> _]] := weights_orders p _ _ E h 0 0 0 [::] [::] [::]. Qed.
Lemma weigh_msum A : graph p A -> Z.ltb Z0 (msum (wt A)) = Z.ltb Z0 (msum A).
Proof.
move=> GA; have [_ [_ [_ [_ E]]]] := weigh_edges GA.
by apply/(msum_pos (weigh_graph GA))/(msum_pos GA) => -[i [j H]]; exists i, j; apply/E.
Qed.
End Pos.

Lemma class_weights (F : realFieldType) (p e : nat) (w : world F p e) (a : args F) v candidates data prune seed :
  positive_weights v -> solver_sees_edges w -> Forall (graph p) candidates ->
  equivalence_class w a (List.map (weigh p v) candidates) data prune seed = weigh_class v (equivalence_class w a candidates data prune seed).
Proof.
move=> PV HC GG; apply: (fit_all_weigh _ _ _ (positive_nz PV) HC (ok := graph p)) => //.
- by move=> h A; exact: weigh_dag.
- by move=> A i j; exact: upd0_graph'.
- by left; split=> // A; exact: weigh_msum.
by move=> A J GA; have [_ [_ [-> _]]] := weights_classes p _ _ (weigh_edges PV GA) (w_h w) J.
Qed.

(** Negative weights *)
Lemma weigh_neg p v A : negative_weights v -> graph p A -> neg p (weigh p v A) A.
Proof.
move=> NV [SA NA]; split; first exact: weigh_square; split=> //; split.
  by move=> i j; rewrite get_weigh //; have := NV i j; have := NA i j; nia.
by split=> // i j; rewrite /nz (weigh_zero (negative_nz NV)).
Qed.
Lemma class_negative (F : realFieldType) (p e : nat) (w : world F p e) (a : args F) v candidates data seed :
  negative_weights v -> solver_sees_edges w -> Forall (fun G => graph p G /\ acyclic G) candidates ->
  equivalence_class w a (List.map (weigh p v) candidates) data true seed = weigh_class v (equivalence_class w a candidates data false seed).
Proof.
move=> NV HC GG; apply: (fit_all_weigh _ _ _ (negative_nz NV) HC (ok := fun G => graph p G /\ acyclic G)) => //.
- by move=> A [].
- by move=> h A [GA AA]; apply: (@neg_is_dag _ p) => //; exact: weigh_neg.
- move=> A i j [GA AA]; split; first exact: upd0_graph'.
  exact (@upd0_acyclic p A i j GA AA).
- by right; split=> // A [GA _]; have [S1 [_ [N1 _]]] := weigh_neg NV GA; exact: (@msum_nonpos p).
by move=> A J [GA AA]; apply: (@neg_icpdag _ p) => //; exact: weigh_neg.
Qed.
