(** C118: on exact data, with exact fits, nothing is pruned. *)
From Coq Require Import ZArith QArith_base Lia List.
From mathcomp Require Import all_ssreflect all_algebra.
From Verif Require Import Base GraphModel GraphSpec TopoProofs MeekProofs EnumProofs ListModel NumModel NumSpec LinAlgProofs NumProofs GradSpec OptSpec ScoreModel CacheSpec ScoreSpec.
From Verif Require Import GDProofs ScoreProofs HistProofs LoopProofs ConsistProofs UnitProofs.
From Verif Require Import MainModel MainSpec ListProofs PruneProofs PruneIProofs SelectProofs FitProofs RefineSpec RefineProofs LimitSpec.
Set Implicit Arguments.
Unset Strict Implicit.
Unset Printing Implicit Defensive.
Import Order.Theory GRing.Theory Num.Theory.
Local Open Scope nat_scope.
Local Open Scope ring_scope.

Section Stale.
Variables (F : realFieldType) (p l e : nat) (cf : conf F p l e).
Local Notation model := (model F p l e).

(** I_B is that of the B of the round before *)
Lemma fit_stale A I rnd m s : graph p A -> fit cf A I None rnd = Ok (m, s) ->
  exists2 B', supported A B' & mI_B m = 1%:M - B'^T.
Proof.
move=> [SA NA] E; have SI : forall m0 : model, None = Some m0 -> square p (mA m0) by [].
case: (fit_start SA NA SI E) => m0 [s0 [EA E1 _ _ EL]].
case: (alt_loop_last SA NA EA _ EL) => // j [pm [d [EP ER]]].
by case: (round_ok SA NA EP ER) => [[HA HB EM EIB] _]; exists (mB pm).
Qed.

(** The cache holds copies *)
Definition copies (st : option (cache model F)) : Prop :=
  forall c, st = Some c -> forall m, List.In m (cmodels c) -> mI_B m = 1%:M - (mB m)^T.

Lemma copy_fresh (m m' : model) : copy_model (cf_h cf) m = Ok m' -> mI_B m' = 1%:M - (mB m')^T.
Proof. by rewrite /copy_model /new_model; case: eqP => // _; case: is_dag => [[]|] //=; case: ifP => // _ [<-]. Qed.

Lemma read_In (c : cache model F) A I m s : read c A I = Ok (Some (m, s)) -> List.In m (cmodels c).
Proof.
rewrite /read; case: find => [[k|]|] //=; case E: List.nth_error => [m'|] //; case: List.nth_error => [s'|] // [<- _].
exact: nth_error_In E.
Qed.

Lemma score_dag_copies st A I init rnd : copies st ->
  copies (score_dag cf st A I init rnd).1 /\
  forall m s, (score_dag cf st A I init rnd).2 = Ok (m, s) ->
    (init = None /\ mI_B m = 1%:M - (mB m)^T) \/ fit cf A I init rnd = Ok (m, s).
Proof.
move=> C.
have GO : let go := match fit cf A I init rnd with
    | Err x => (st, Err x)
    | Ok (m, s) =>
        match st with
        | None => (st, Ok (m, s))
        | Some c => let '(c', w) := write (@copy_model F (cf_h cf) p l e) c A I m s in (Some c', bind w (fun _ => Ok (m, s)))
        end
    end in copies go.1 /\ forall m s, go.2 = Ok (m, s) -> fit cf A I init rnd = Ok (m, s).
  case E: fit => [[m s]|x] //=; case: st C => [c|] C; last by split=> // m' s' [<- <-].
  rewrite /write; case: find => [[k|]|x]; try by split.
  case EC: copy_model => [m'|x] /=; last by split=> // c' [<-] /=; apply: C.
  split; last by move=> m2 s2 [<- <-].
  move=> c' [<-] m2 /=; rewrite -cats1 => /in_app_iff [/C|[<-|[]]]; [exact | exact: copy_fresh EC].
rewrite /score_dag; case: init GO => [mi|] [G1 G2]; first by split=> // m s /G2; right.
case: st C G1 G2 => [c|] C G1 G2; last by split=> // m s /G2; right.
case ER: read => [[[m0 s0]|]|x]; [|by split=> // m s /G2; right|by split].
by split=> // m s [<- <-]; left; split=> //; apply: (C _ erefl); apply: read_In ER.
Qed.

Lemma reached_copies st : reached cf st -> copies st.
Proof.
move=> [cs [_ ->]]; have : copies (fresh F p l e true) by move=> c [<-].
by elim: cs (fresh _ _ _ _ _) => [|c cs IH] st0 C //=; apply: IH; apply: (proj1 (score_dag_copies _ _ _ _ C)).
Qed.

(** What score_dag returns: a fitted model, either copied from the cache or with I_B of the round before *)
Definition got (I : list nat) (m : model) : Prop := fitted_for cf I m /\
  (mI_B m = 1%:M - (mB m)^T \/ exists rnd s, fit cf (mA m) I None rnd = Ok (m, s)).

Variable rnds : nat -> nat -> 'M[F]_p * 'M[F]_p.
Local Notation sobj := (sobj F p l e).

Lemma sdag_got (s s' : sobj) A I m x : reached cf s.1 -> graph p A -> sdag cf rnds s A I = (s', Ok (m, x)) ->
  [/\ reached cf s'.1, mA m = A & got I m].
Proof.
move=> HS HA E; have [H1] := sdag_spec rnds I HS HA; rewrite E /= => -[H2 H3 _]; rewrite E in H1; split=> //; split=> //.
have [_ H4] := score_dag_copies A I None (rnds s.2) (reached_copies HS).
have /H4 [[_ ->]|H5] : (score_dag cf s.1 A I None (rnds s.2)).2 = Ok (m, x) by move: E; rewrite /sdag => -[].
  by left.
by right; exists (rnds s.2), x; rewrite H2.
Qed.

Lemma sbind_inv S X Y (x : S * res X) (f : S -> X -> S * res Y) s y : sbind x f = (s, Ok y) ->
  exists s1 x1, x = (s1, Ok x1) /\ f s1 x1 = (s, Ok y).
Proof. by case: x => s1 [x1|?] //=; rewrite /sbind /= => H; exists s1, x1. Qed.

Lemma prune_loop_got fuel I (s s' : sobj) dag (m : model) ms : reached cf s.1 -> graph p dag ->
  prune_loop cf rnds fuel I s dag m = (s', Ok ms) ->
  reached cf s'.1 /\ forall m', List.In m' ms -> got I m' /\ subgraph (mA m') dag.
Proof.
elim: fuel s s' dag m ms => [|fuel IH] s s' dag m ms HS HG; rewrite ?prune_loop0 ?prune_loopS.
  by case: Z.ltb => // -[<- <-].
case: (msum_pos HG) => [HE|_ [<- <-]] //.
have [i [j [-> _]]] := weakest_edge_spec (mB m) (edge_p HG HE).
have HG' := upd0_graph HG (ltn_ord i) (ltn_ord j); have HS' := upd0_sub HG (ltn_ord i) (ltn_ord j).
cbv beta iota zeta => /(@sbind_inv _ _ _ _ _ _ _) [s1 [[m1 x1] [E1 /(@sbind_inv _ _ _ _ _ _ _) [s2 [ms2 [E2 [<- <-]]]]]]].
have [R1 A1 G1] := sdag_got HS HG' E1; have [R2 H2] := IH _ _ _ _ _ R1 HG' E2.
split=> // m' [<-|/H2 [G3 S3]]; first by split=> //; rewrite /= A1.
by split=> //; apply: subgraph_trans S3 HS'.
Qed.

(** The models for one candidate: first the candidate, then subgraphs *)
Definition family (prune : bool) (I : list nat) (G : mat) (ms : list model) : Prop :=
  exists m ms', [/\ ms = m :: ms', mA m = G & forall m', List.In m' ms -> got I m' /\ if prune then subgraph (mA m') G else mA m' = G].

Lemma prune_graph_got fuel prune I (s s' : sobj) G ms : reached cf s.1 -> graph p G ->
  prune_graph cf rnds fuel prune None I s G = (s', Ok ms) -> reached cf s'.1 /\ family prune I G ms.
Proof.
move=> HS HG; rewrite /prune_graph => /(@sbind_inv _ _ _ _ _ _ _) [s1 [[m1 x1] [E1]]].
have [R1 A1 G1] := sdag_got HS HG E1; case: prune => /=.
  move=> /(@sbind_inv _ _ _ _ _ _ _) [s2 [ms2 [E2 [<- <-]]]]; have [R2 H2] := prune_loop_got R1 HG E2.
  by split=> //; exists m1, ms2; split=> // m' [<-|/H2] //; rewrite A1; split.
by move=> [<- <-]; split=> //; exists m1, [::]; split=> // m' [<-|[]]; rewrite A1.
Qed.

Lemma prune_each_got fuel prune I (s s' : sobj) Gs ms : reached cf s.1 -> Forall (graph p) Gs ->
  prune_each cf rnds fuel prune None I s Gs = (s', Ok ms) ->
  reached cf s'.1 /\ exists mss, ms = concat mss /\ Forall2 (family prune I) Gs mss.
Proof.
elim: Gs s s' ms => [|G Gs IH] s s' ms HS HG; first by move=> [<- <-]; split=> //; exists [::]; split.
rewrite prune_eachS => /(@sbind_inv _ _ _ _ _ _ _) [s1 [m1 [E1 /(@sbind_inv _ _ _ _ _ _ _) [s2 [ms2 [E2 [<- <-]]]]]]].
have [R1 F1] := prune_graph_got HS (Forall_inv HG) E1; have [R2 [mss [-> F2]]] := IH _ _ _ R1 (Forall_inv_tail HG) E2.
by split=> //; exists (m1 :: mss); split=> //; constructor.
Qed.

Lemma prune_graphs_got fuel prune (s s' : sobj) Gs ms : reached cf s.1 -> Forall (graph p) Gs ->
  prune_graphs cf rnds fuel prune None s Gs = (s', Ok ms) ->
  reached cf s'.1 /\ exists mss, ms = concat mss /\ Forall2 (family prune (List.seq 0 p)) Gs mss.
Proof.
case: Gs => [|G Gs] // HS HG; rewrite /prune_graphs; have -> : length G = p by have [[]] := Forall_inv HG.
exact: prune_each_got.
Qed.

Lemma prune_I_loop_got (s s' : sobj) G I js rs : reached cf s.1 -> graph p G ->
  prune_I_loop cf rnds s G I js = (s', Ok rs) -> forall m J, List.In (m, J) rs -> mA m = G /\ got J m.
Proof.
elim: js s s' I rs => [|j js IH] s s' I rs HS HG; first by move=> [_ <-].
rewrite prune_I_loopS; cbv zeta => /(@sbind_inv _ _ _ _ _ _ _) [s1 [[m1 x1] [E1 /(@sbind_inv _ _ _ _ _ _ _) [s2 [ms2 [E2 [_ <-]]]]]]].
have [R1 A1 G1] := sdag_got HS HG E1 => m J [[<- <-]|] //; exact: IH E2 _ _.
Qed.

Lemma prune_I_got argsort (s s' : sobj) G rs : reached cf s.1 -> graph p G ->
  prune_I cf rnds argsort None s G = (s', Ok rs) ->
  (exists m rs', rs = (m, List.seq 0 p) :: rs') /\ forall m J, List.In (m, J) rs -> mA m = G /\ got J m.
Proof.
move=> HS HG; rewrite /prune_I; have -> : length G = p by have [[]] := HG.
cbv zeta => /(@sbind_inv _ _ _ _ _ _ _) [s1 [[m1 x1] [E1 /(@sbind_inv _ _ _ _ _ _ _) [s2 [rs2 [E2 [_ <-]]]]]]].
have [R1 A1 G1] := sdag_got HS HG E1; split; first by exists m1, rs2.
by move=> m J [[<- <-]|] //; apply: prune_I_loop_got E2 _ _.
Qed.
End Stale.

Section Explain.
Variables (F : realFieldType) (p l e : nat) (cf : conf F p l e).
Local Notation model := (model F p l e).

Lemma explainable_sub A G I : subgraph A G -> explainable cf A I -> explainable cf G I.
Proof. by move=> SG [m [H1 H2 H3 H4]]; exists m; split=> // i j N; apply: SG; apply: H1. Qed.

Lemma explainable_set A I J : same_set I J -> explainable cf A I -> explainable cf A J.
Proof.
move=> [S1 S2] [m [H1 H2 [H3 H3'] H4]]; exists m; split=> //; split=> // j N; apply: H3 => Hj; apply: N; exact: S1.
Qed.

Lemma got_finds I (m : model) : (forall J, same_set I J -> finds cf (mA m) J) -> explainable cf (mA m) I -> got cf I m ->
  explains (cf_sigmas cf) m /\ mI_B m = 1%:M - (mB m)^T.
Proof.
move=> HF HE [[_ _ _ _ [_ [J [rnd [m' [s [SS Em [_ E2 E3 E4 E5]]]]]]]] [IB|[rnd' [s' Em']]]]; last first.
  by apply: (HF I _ HE _ _ _ Em'); split; apply: incl_refl.
split=> //; have [H _] := HF J SS (explainable_set SS HE) _ _ _ Em.
by move=> k; rewrite -H /explains E2 E3 E4 E5.
Qed.
End Explain.

Section Best.
Variables (F : realFieldType) (log : F -> F) (p e : nat).
Hypothesis LT : forall c, 0 < c -> log_tangent_strict log p c.
Variable sigmas : 'I_e -> 'M[F]_p.
Variable h : hord.

Variables (l0 : nat) (A0 : mat) (m0 : model F p l0 e).
Hypotheses (G0 : graph p A0) (C0 : acyclic A0) (S0 : supported A0 (mB m0)).
Hypotheses (O0 : positive (momegas m0)) (P0 : positive (mpsis m0)) (X0 : explains sigmas m0).

Local Notation t0 := (MkModel A0 (mB m0) (mgamma m0) (momegas m0) (mpsis m0) (1%:M - (mB m0)^T)).
Lemma posge0 a b (X : 'M[F]_(a, b)) : positive X -> forall i j, 0 <= X i j.
Proof. by move=> H i j; apply/ltW/H. Qed.

Lemma new_ok l A (B : 'M[F]_p) (g : 'M[F]_(l, p)) (o : 'M[F]_(e, p)) (s : 'M[F]_(e, l)) : graph p A -> acyclic A -> supported A B ->
  new_model h A B g o s = Ok (MkModel A B g o s (1%:M - B^T)).
Proof. by move=> [SA NA] AC SB; case: (new_model_spec h B g o s SA NA) => [[_ [_ ->]]|[[]]]. Qed.

Lemma noise_det l (g : 'M[F]_(l, p)) (o : 'M[F]_(e, p)) (s : 'M[F]_(e, l)) k : positive o -> positive s -> 0 < (\det (noise g o s k))^-1.
Proof. by move=> Po Ps; rewrite invr_gt0; apply: posdef_det; apply: noise_posdef => //; apply: posge0. Qed.

(** No model does better, and those that do as well explain the covariances *)
Lemma score_best l (m : model F p l e) A B (S : 'I_e -> 'M[F]_p) n y : graph p A -> acyclic A -> supported A B -> mI_B m = 1%:M - B^T ->
  positive (momegas m) -> positive (mpsis m) -> (forall k, S k = sigmas k) -> (forall k, (0 < n k)%N) -> score log m S n = Ok y ->
  exists x, [/\ score log t0 sigmas n = Ok x, x <= y
    & y = x <-> forall k, entailed B (mgamma m) (momegas m) (mpsis m) k = sigmas k].
Proof.
move=> GA AC SB EI Po Ps HS n0; rewrite (score_ext _ _ _ HS) => Ey.
pose m1 := MkModel A B (mgamma m) (momegas m) (mpsis m) (1%:M - B^T).
have Ey1 : score log m1 sigmas n = Ok y by rewrite -Ey /score /m1 /= -EI.
have E0 := new_ok (mgamma m0) (momegas m0) (mpsis m0) G0 C0 S0.
have E1 := new_ok (mgamma m) (momegas m) (mpsis m) GA AC SB.
have [SA NA] := GA; have [SA0 NA0] := G0.
have L0 k : log_tangent_strict log p (\det (noise (mgamma m0) (momegas m0) (mpsis m0) k))^-1 by apply/LT/noise_det.
have L1 k : log_tangent_strict log p (\det (noise (mgamma m) (momegas m) (mpsis m) k))^-1 by apply/LT/noise_det.
have [x [y' [Ex Ey' xy]]] := score_minimal n SA0 NA0 E0 O0 (posge0 P0) SA NA E1 Po (posge0 Ps) (fun k => let: And3 H _ _ := L0 k in H).
move: Ex Ey'; rewrite !(score_ext _ _ _ X0) => Ex Ey'.
have E : y' = y by move: Ey'; rewrite Ey1 => -[].
rewrite {}E {Ey'} in xy; exists x; split=> //; split=> [yx k|HE].
  have U := score_unique SA0 NA0 E0 O0 (posge0 P0) SA NA E1 Po (posge0 Ps) L0 n0.
  by rewrite U ?X0 // !(score_ext _ _ _ X0) Ey1 Ex yx.
have [y2 [x2 [Ey2 Ex2 yx]]] := score_minimal n SA NA E1 Po (posge0 Ps) SA0 NA0 E0 O0 (posge0 P0) (fun k => let: And3 H _ _ := L1 k in H).
move: Ey2 Ex2; rewrite !(score_ext _ _ _ HE) Ex => Ey2 [Ex2]; move: Ey2; rewrite Ey1 => -[Ey2].
by apply/eqP; rewrite eq_le xy andbT Ex2 Ey2.
Qed.
End Best.

Lemma concat_split (T : Type) (xss : list (list T)) us x vs : concat xss = us ++ x :: vs ->
  exists c us' vs' d, us = concat c ++ us' /\ xss = c ++ (us' ++ x :: vs') :: d.
Proof.
elim: xss us => [|xs xss IH] us /=; first by case: us.
move=> /app_eq_app [l [[E1 E2]|[E1 E2]]]; last first.
  have [c [us' [vs' [d [E3 H]]]]] := IH _ E2; exists (xs :: c), us', vs', d; split; last by rewrite H.
  by rewrite E1 E3 /=; exact: app_assoc.
case: l E1 E2 => [|y l] E1 /= E2; last first.
  by case: E2 => E2 _; exists [::], us, l, xss; split=> //; rewrite E1 E2.
have [c [us' [vs' [d [E3 H]]]]] := IH [::] (esym E2).
have E1' : xs = us by rewrite E1; exact: app_nil_r.
exists (xs :: c), us', vs', d; split; last by rewrite H.
by rewrite E1' /=; rewrite -[in LHS](app_nil_r us) E3; exact: app_assoc.
Qed.

Section Main.
Variables (F : realFieldType) (p e : nat) (w : world F p e) (a : args F).
Local Notation sample := (seq 'rV[F]_p).
Variables (tr tg ti : seq sample) (prune : bool) (graphs : seq mat) (hs : seq nat).
Hypothesis LT : forall c, 0 < c -> log_tangent_strict (w_log w) p c.
Hypothesis XF : exact_folds w tr tg ti.
Hypothesis XI : exact_fits w a tr prune graphs hs.
Hypothesis HG : Forall (graph p) graphs.

Variables (l0 : nat) (A0 : mat) (m0 : model F p l0 e).
Hypotheses (G0 : graph p A0) (C0 : acyclic A0) (S0 : supported A0 (mB m0)).
Hypotheses (O0 : positive (momegas m0)) (P0 : positive (mpsis m0)) (X0 : explains (covs w tr) m0).
Local Notation t0 := (MkModel A0 (mB m0) (mgamma m0) (momegas m0) (mpsis m0) (1%:M - (mB m0)^T)).
Local Notation cf h := (train_conf w a tr h).
Local Notation full := (List.seq 0 p).

Lemma got_score h I (m : model F p h e) fold y : got (cf h) I m -> (forall k, covs w fold k = covs w tr k) ->
  (forall k : 'I_e, (0 < n_obs fold k)%N) -> scored w fold m y ->
  exists x, [/\ score (w_log w) t0 (covs w tr) (n_obs fold) = Ok x, x <= y, y = x -> explainable (cf h) (mA m) I
    & mI_B m = 1%:M - (mB m)^T -> explains (covs w tr) m -> y = x].
Proof.
move=> [[GM AM SM [OM PM UM] [IM _]] IB] HS n0 Ey.
have [B SB EB] : exists2 B, supported (mA m) B & mI_B m = 1%:M - B^T.
  by case: IB => [IB|[rnd [s /(fit_stale GM)]]] //; exists (mB m).
have [x [Ex xy EQ]] := score_best LT (w_h w) G0 C0 S0 O0 P0 X0 GM AM SB EB OM PM HS n0 Ey.
exists x; split=> //.
  move=> /EQ H; exists (MkModel (mA m) B (mgamma m) (momegas m) (mpsis m) (1%:M - B^T)).
  by split=> //; split.
move=> EI HX; have [x' [Ex' _ EQ']] := score_best LT (w_h w) G0 C0 S0 O0 P0 X0 GM AM SM EI OM PM HS n0 Ey.
by move: Ex'; rewrite Ex => -[->]; apply/EQ'.
Qed.

Lemma fit_h_best n h x : List.In h hs -> fit_h w a tr tg prune None graphs n h = Ok x ->
  exists v, [/\ score (w_log w) t0 (covs w tr) (n_obs tg) = Ok v, v <= en_score x,
    forall G, List.In G graphs -> explainable (cf h) G full -> en_score x = v
  & en_score x = v -> explainable (cf (en_h x)) (en_graph x) full /\
      exists us vs, graphs = us ++ en_graph x :: vs /\ forall G, List.In G us -> ~ explainable (cf (en_h x)) G full].
Proof.
move=> Hh; rewrite /fit_h; case: ifP => // _.
have R0 : reached (cf h) (new_sobj F p h e).1 := reached0 _.
case EP: prune_graphs => [s r] /(@bindOk _ _ _ _ _) [ms Er].
rewrite {}Er in EP; have [_ [mss [Ems FA]]] := prune_graphs_got R0 HG EP.
move=> /(@bindOk _ _ _ _ _) [xs /test_scores_spec FX /(@bindOk _ _ _ _ _) [b Hb [<-]]] /=.
pose ys := [seq (x.1, x.2.2) | x <- xs].
have FY : Forall2 (fun m y => scored w tg m y.1 /\ y.2 = mA m) ms ys.
  rewrite /ys; elim: (ms) (xs) FX => [|m ms' IH] xs' FX; inversion FX as [|mt y ms2 ys2 [E1 E2] FX']; subst => /=; constructor.
    by rewrite /= E1.
  exact: IH.
case: (best_scoring_spec ys) => [[_]|[b' []]]; rewrite Hb // => -[<-] [us [vs [E H1 H2]]].
have HB y : List.In y ys -> b.1 <= y.1.
  by rewrite E => /in_app_iff [/H1 /ltW //|[->//|/H2 //]].
have C1 k : covs w tg k = covs w tr k by have [] := XF k.
have C2 (k : 'I_e) : (0 < n_obs tg k)%N by have [] := XF k.
have GF m G mm : List.In mm mss -> List.In G graphs -> family (cf h) prune full G mm -> List.In m mm -> got (cf h) full m.
  by move=> _ _ [m1 [mm' [_ _ H]]] /H [].
have HD m G : got (cf h) full m -> mA m = G -> List.In G graphs -> explainable (cf h) G full ->
    explains (covs w tr) m /\ mI_B m = 1%:M - (mB m)^T.
  move=> GM EA IG HE; apply: (@got_finds _ _ _ _ (cf h) full) => //; last by rewrite EA.
  move=> J SJ; apply: (XI Hh IG) => //; rewrite EA; first by move/Forall_forall: HG; apply.
  by case: (prune).
rewrite E in FY; have [mu [mv' [FU [FV Em]]]] := Forall2_app_inv_r _ _ FY.
inversion FV as [|m y mv vs' [SB Eb] FV']; subst y vs' mv'.
have [c [us' [vs' [d [Emu Hmm]]]]] := concat_split (etrans (esym Ems) Em).
have FA' := FA; rewrite Hmm in FA'; have [gu [gv' [FGu [FGv Egs]]]] := Forall2_app_inv_r _ _ FA'.
inversion FGv as [|G mm gv d' HFG FGv']; subst mm d' gv'.
have HIG : List.In G graphs by rewrite Egs; apply/in_app_iff; right; left.
have HU m1 : List.In m1 mu -> exists y, List.In y us /\ (scored w tg m1 y.1 /\ y.2 = mA m1).
  elim: FU => // u0 v0 us0 vs0 Huv _ IH [<-|/IH [y [? ?]]]; first by exists v0; split=> //; left.
  by exists y; split=> //; right.
have GM : got (cf h) full m by have [m1 [mm' [_ _ H]]] := HFG; case: (H m) => //; apply/in_app_iff; right; left.
have [v [Ev vb HX _]] := got_score GM C1 C2 SB; exists v; split=> //.
  move=> G' IG' HE.
  have [mm [IM [m1 [mm' [Emm EA H]]]]] : exists mm, List.In mm mss /\ family (cf h) prune full G' mm.
    elim: FA IG' => // G0' mm Gs' mss' Hf _ IH [<-|/IH [mm' [? ?]]]; first by exists mm; split=> //; left.
    by exists mm'; split=> //; right.
  have Im1 : List.In m1 mm by rewrite Emm; left.
  have [GM1 _] := H _ Im1; have [X1 I1] := HD _ _ GM1 EA IG' HE.
  have [y [Hy [Sy _]]] : exists y, List.In y ys /\ (scored w tg m1 y.1 /\ y.2 = mA m1).
    have : List.In m1 ms by rewrite Ems; apply/in_concat; exists mm.
    rewrite E; elim: FY => // u0 v0 us0 vs0 Huv _ IH [<-|/IH [y [? ?]]]; first by exists v0; split=> //; left.
    by exists y; split=> //; right.
  have [v' [Ev' _ _ HX']] := got_score GM1 C1 C2 Sy.
  move: Ev'; rewrite Ev => -[Ev']; apply/eqP; rewrite eq_le vb andbT Ev' -(HX' I1 X1); exact: HB.
move=> Ebv; have HE := HX Ebv; rewrite Eb; split=> //.
have NE m2 G2 : List.In m2 mu -> got (cf h) full m2 -> mA m2 = G2 -> List.In G2 graphs -> explainable (cf h) G2 full -> False.
  move=> /HU [y [Hy [Sy _]]] GM1 EA IG HSG; have [X1 I1] := HD _ _ GM1 EA IG HSG.
  have [v' [Ev' _ _ HX']] := got_score GM1 C1 C2 Sy.
  by move: Ev'; rewrite Ev => -[Ev']; move: (H1 _ Hy); rewrite (HX' I1 X1) -Ev' Ebv ltxx.
have EG : mA m = G.
  have [m1 [mm' [Emm EA H]]] := HFG.
  case: us' Emm H Emu EA {Hmm HFG FA' FGv} => [|m2 us'] /= [<- _] H Emu EA //; exfalso.
  apply: (NE m2 G) => //; first by rewrite Emu; apply/in_app_iff; right; left.
    by have [] := H m2 (or_introl erefl).
  have [|_ HS] := H m; first by right; apply/in_app_iff; right; left.
  by case: (prune) HS => [HS|<-] //; apply: explainable_sub HS HE.
exists gu, gv; rewrite EG; split=> // G' IG' HE'.
have [mm [IM [m1 [mm' [Emm EA H]]]]] : exists mm, List.In mm c /\ family (cf h) prune full G' mm.
  elim: FGu IG' => // G0' mm Gs' mss' Hf _ IH [<-|/IH [mm' [? ?]]]; first by exists mm; split=> //; left.
  by exists mm'; split=> //; right.
have Im1 : List.In m1 mm by rewrite Emm; left.
apply: (NE m1 G') => //; last by rewrite Egs; apply/in_app_iff; left.
  by rewrite Emu; apply/in_app_iff; left; apply/in_concat; exists mm.
by have [] := H _ Im1.
Qed.

Lemma fit_I_best x am J sc : List.In (en_h x) hs -> List.In (en_graph x) graphs -> explainable (cf (en_h x)) (en_graph x) full ->
  reached (cf (en_h x)) (en_obj x).1 -> fit_I w a tr ti None x = Ok (am, J, sc) ->
  J = full /\ exists m, [/\ am = existT (fun l => model F p l e) (en_h x) m, mA m = en_graph x & explains (covs w tr) m].
Proof.
move=> Hh IG HE HS; rewrite /fit_I; case EP: prune_I => [s r] /(@bindOk _ _ _ _ _) [rs Er].
have GG : graph p (en_graph x) by move/Forall_forall: HG; apply.
rewrite {}Er in EP; have [[m [rs' Ers]] HR] := prune_I_got HS GG EP.
have C1 k : covs w ti k = covs w tr k by have [] := XF k.
have C2 (k : 'I_e) : (0 < n_obs ti k)%N by have [] := XF k.
have [EA GM] : mA m = en_graph x /\ got (cf (en_h x)) full m by apply: HR; rewrite Ers; left.
have [X1 I1] : explains (covs w tr) m /\ mI_B m = 1%:M - (mB m)^T.
  apply: (@got_finds _ _ _ _ (cf (en_h x)) full) => //; last by rewrite EA.
  by move=> J' SJ; apply: (XI Hh IG) => //; rewrite EA //; case: (prune).
move=> /(@bindOk _ _ _ _ _) [xs /test_scores_spec FX /(@bindOk _ _ _ _ _) [b Hb [<- <- _]]].
case: (best_scoring_spec xs) => [[_]|[b' []]]; rewrite Hb // => -[<-] [us [vs [E H1 H2]]].
rewrite Ers in FX; inversion FX as [|mt y rs2 xs2 [E1 E2] FX' Ea Eb]; subst mt rs2.
rewrite -Eb in E.
have [v [Ev vb _ HX]] := got_score GM C1 C2 E2.
case: us E H1 => [|u us] /= [Eu Exs] H1.
  by rewrite -Eu E1 /=; split=> //; exists m.
have : b.1 < y.1 by rewrite Eu; apply: H1; left.
rewrite (HX I1 X1).
have Hbx : List.In b xs2 by rewrite Exs; apply/in_app_iff; right; left.
have [mt [Hmt [E3 E4]]] : exists mt, List.In mt rs' /\ (b.2 = mt /\ score (w_log w) mt.1 (covs w ti) (n_obs ti) = Ok b.1).
  elim: FX' Hbx => // u0 v0 us0 vs0 Huv _ IH [<-|/IH [mt [? ?]]]; first by exists u0; split=> //; left.
  by exists mt; split=> //; right.
have [_ GM2] : mA mt.1 = en_graph x /\ got (cf (en_h x)) mt.2 mt.1 by apply: HR; rewrite Ers; right; case: (mt) Hmt.
have [v' [Ev' vb' _ _]] := got_score GM2 C1 C2 E4.
by move: Ev'; rewrite Ev => -[Ev']; rewrite Ev' ltNge vb'.
Qed.
End Main.

Lemma last_pos (hs : list nat) h : List.In h hs -> exists k, last_at hs k h.
Proof.
elim: hs => // h0 hs IH; case: (List.in_dec Nat.eq_dec h hs) => [/IH [k [H1 H2]] _|N [->|//]].
  by exists k.+1; split=> // -[|k'] //= /H2.
exists 0%N; split=> // -[|k] //= _ H; apply: N; exact: nth_error_In H.
Qed.

Section Run.
Variables (F : realFieldType) (p e : nat) (w : world F p e) (a : args F).
Local Notation cf := (train_conf w a).

Lemma fit_all_limit data gs prune seed am J sc tr tg ti hs : Forall (graph p) gs ->
  fit_all w a data (Some gs) prune None None seed = Ok (am, J, sc) ->
  split_data (w_shuffle w seed) [seq data k | k <- enum 'I_e] (a_folds a) = Ok [:: tr; tg; ti] -> numbers w a tr = Ok hs ->
  log_like (w_log w) -> exact_folds w tr tg ti -> exact_fits w a tr prune gs hs ->
  (exists h G, [/\ List.In h hs, List.In G gs, acyclic G & explainable (cf tr h) G (List.seq 0 p)]) ->
  [/\ explains (covs w tr) (projT2 am), J = List.seq 0 p,
      explainable (cf tr (projT1 am)) (mA (projT2 am)) (List.seq 0 p) /\
      (exists us vs, gs = us ++ mA (projT2 am) :: vs /\ forall G, List.In G us -> ~ explainable (cf tr (projT1 am)) G (List.seq 0 p)),
      List.In (projT1 am) hs
    & forall h G, List.In h hs -> List.In G gs -> explainable (cf tr h) G (List.seq 0 p) -> (projT1 am <= h)%N].
Proof.
move=> GS; rewrite /fit_all => /(@bindOk _ _ _ _ _) [[|tr' [|tg' [|ti' [|? ?]]]] Es] //.
move=> /(@bindOk _ _ _ _ _) [gs' [Eg] /(@bindOk _ _ _ _ _) [hs' Eh /(@bindOk _ _ _ _ _) [d + /(@bindOk _ _ _ _ _) [x Ex Ei]]]].
rewrite Es => Ed [E1 E2 E3]; subst tr' tg' ti' gs'; rewrite Eh => -[E1]; subst hs'.
move=> LL XF XI; have LT c : 0 < c -> log_tangent_strict (w_log w) p c by apply: log_like_tangent.
move=> [h0 [G0 [Hh0 HG0 AG0 XE]]]; have [m0 [S0 [O0 P0 _] _ X0]] := XE.
have GG0 : graph p G0 by move/Forall_forall: GS; apply.
have best := fit_h_best LT XF XI GS GG0 AG0 S0 O0 P0 X0.
have bestI := fit_I_best LT XF XI GS GG0 AG0 S0 O0 P0 X0.
rewrite fit_hs_table in Ed.
have D0 : List.NoDup (List.map (@en_h F p e) [::]) by constructor.
have [D1 _ D3 D4] := table_spec (@fit_hE _ _ _ w a tr tg prune None gs) D0 Ed.
case: (select_h_spec D1) => [[_]|[x' []]]; rewrite Ex // => -[<-] Hx Lx.
case: (D3 _ Hx) => [[//]|[k [Hk Fx Lk]]]; rewrite add0n in Fx.
have Hhx : List.In (en_h x) hs := nth_error_In _ _ Hk.
have [v [Ev vx _ HX]] := best _ _ _ Hhx Fx.
have HY h G : List.In h hs -> List.In G gs -> explainable (cf tr h) G (List.seq 0 p) -> en_score x = v /\ (en_h x <= h)%N.
  move=> Hh HG HE; have [k' [Hk' Lk']] := last_pos Hh; have [y [Fy Hy]] := D4 _ _ Hk' Lk'; rewrite add0n in Fy.
  have [v' [Ev' _ HX' _]] := best _ _ _ Hh Fy; move: Ev'; rewrite Ev => -[Ev']; have Eyv := HX' _ HG HE; rewrite -Ev' in Eyv.
  have [<- _] := fit_hE Fy; case: (Lx _ Hy) => [|[E L]]; last by split=> //; rewrite E.
  by rewrite Eyv ltNge vx.
have [Exv _] := HY _ _ Hh0 HG0 XE.
have [HEG [us [vs [Egs HU]]]] := HX Exv.
have HIG : List.In (en_graph x) gs by rewrite Egs; apply/in_app_iff; right; left.
have [R _] := fit_h_reached GS Fx.
have [EJ [m [Eam EA XM]]] := bestI _ _ _ _ Hhx HIG HEG R Ei.
rewrite Eam /= EA; split=> //; last by move=> h G Hh HG HE; have [] := HY _ _ Hh HG HE.
by split=> //; exists us, vs.
Qed.
End Run.

Section Class.
Variables (F : realFieldType) (p e : nat) (w : world F p e) (a : args F).
Local Notation cf := (train_conf w a).

Lemma dag01_graph A : dag01 p A -> graph p A /\ acyclic A.
Proof. by move=> [SA [BA AA]]; split=> //; split=> // i j; case: (BA i j) => ->; lia. Qed.

Lemma class_limit data gs prune seed ic J am tr tg ti hs : Forall (dag01 p) gs ->
  equivalence_class w a gs data prune seed = Ok (ic, J, am) ->
  split_data (w_shuffle w 42) [seq data k | k <- enum 'I_e] (a_folds a) = Ok [:: tr; tg; ti] -> numbers w a tr = Ok hs ->
  log_like (w_log w) -> exact_folds w tr tg ti -> exact_fits w a tr prune gs hs ->
  (exists h G, [/\ List.In h hs, List.In G gs & explainable (cf tr h) G (List.seq 0 p)]) ->
  [/\ J = List.seq 0 p, ic = mA (projT2 am) & forall D, square p D -> consistent_ext D ic -> forall i j, edge D i j <-> edge ic i j].
Proof.
move=> HD; rewrite /equivalence_class => /(@bindOk _ _ _ _ _) [[[am' J'] sc] Ef /(@bindOk _ _ _ _ _) [ic' Ei [<- <- <-]]] Es Eh LL XF XI [h [G [H1 H2 H3]]].
have GD : Forall (graph p) gs by apply: Forall_impl HD => A /dag01_graph [].
have XE : exists h G, [/\ List.In h hs, List.In G gs, acyclic G & explainable (cf tr h) G (List.seq 0 p)].
  by exists h, G; split=> //; have [] := dag01_graph (proj1 (Forall_forall _ _) HD _ H2).
have [_ EJ [_ [us [vs [Egs _]]]] _ _] := fit_all_limit GD Ef Es Eh LL XF XI XE.
have DM : dag01 p (mA (projT2 am')) by move/Forall_forall: HD; apply; rewrite Egs; apply/in_app_iff; right; left.
have [[SM NM] AC] := dag01_graph DM.
have FI x y : covered_edge (mA (projT2 am')) x y -> List.In x J' \/ List.In y J'.
  by move=> [Exy _]; left; rewrite EJ; apply/in_seq; have [Hx _] := edge_lt _ _ _ _ SM Exy; lia.
have Eic : ic' = mA (projT2 am').
  by have := proj2 (icpdag_identified (w_h w) p _ J' DM) FI; rewrite Ei => -[].
have ASY x y : edge (mA (projT2 am')) x y -> dir (mA (projT2 am')) x y.
  by move=> E1; split=> //; apply: acyclic_asym (AC) (E1).
split=> // D SD [AD [HA [_ HO]]] i j; rewrite Eic; rewrite Eic in HA HO; split=> [E1|/ASY /HO //].
have /HA [//|E2] : adjacent D i j by left.
by case: (acyclic_asym _ _ _ AD E1); apply: HO; apply: ASY.
Qed.
End Class.
