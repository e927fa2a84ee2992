(** Proofs about _fit with all its options (C111, C112). *)
From Coq Require Import ZArith Lia List Permutation.
From mathcomp Require Import all_ssreflect all_algebra.
From Verif Require Import Base GraphModel GraphSpec MeekProofs EnumProofs ListModel NumModel ScoreModel CacheSpec ScoreSpec MainModel MainSpec.
From Verif Require Import FullModel FullSpec PruneProofs PruneIProofs SelectProofs FitProofs RecordProofs.
Set Implicit Arguments.
Unset Strict Implicit.
Unset Printing Implicit Defensive.
Import Order.Theory GRing.Theory Num.Theory.
Local Open Scope nat_scope.
Local Open Scope ring_scope.

Section Nth.
Variable T : Type.
Lemma py_nth_element (xs : seq T) k X : element xs k X -> py_nth xs k = Ok X.
Proof.
move=> [us [vs [-> H]]]; rewrite /py_nth app_length.
have E : List.nth_error (us ++ X :: vs) (length us) = Some X by rewrite nth_error_app2 ?PeanoNat.Nat.sub_diag.
have -> : (if Z.ltb k Z0 then Z.add k (Z.of_nat (length us + length (X :: vs))%coq_nat) else k) = Z.of_nat (length us).
  by move: H => /= H; case: Z.ltb_spec; case: H => ->; lia.
by case: Z.ltb_spec; [lia | rewrite Znat.Nat2Z.id E].
Qed.
Lemma py_nth_error (xs : seq T) k : (forall X, ~ element xs k X) -> py_nth xs k = Err IndexError.
Proof.
move=> H; rewrite /py_nth; set k' := (if Z.ltb k Z0 then _ else _); case: (Z.ltb_spec k' Z0) => // L.
case E : List.nth_error => [X|] //; case: (H X).
have [us [vs [Ex El]]] := @nth_error_split _ _ _ _ E; exists us, vs; split=> //.
have : k' = Z.of_nat (length us) by rewrite El Znat.Z2Nat.id.
rewrite /k' Ex app_length; case: Z.ltb_spec => _ Q; [right | left]; lia.
Qed.
End Nth.

Section Full.
Variables (F : realFieldType) (p e : nat) (w : world F p e) (a : args F).
Variable ges : seq 'rV[F]_p -> seq phase -> F -> mat.
Local Notation full := (fit_full w a ges).

Lemma ges_loop_spec X phases lambdas : ges_pdags ges -> exists gs, ges_loop w ges X phases lambdas = Ok gs /\
  forall D, List.In D gs <-> ges_dag ges (w_log w) X phases lambdas D.
Proof.
move=> HP; elim: lambdas => [|pen ls [gs [E H]]] /=.
  by exists [::]; split=> // D; split=> // -[].
have [SP BP LP OP] := HP X phases (pen / 2%:R * w_log w (size X)%:R).
have [gs' [E' [_ H']]] := all_dags_exact p _ SP BP LP (w_h w) OP; rewrite E' /= E /=; eexists; split=> // D.
rewrite in_app_iff H H'; split=> [[Q|[pen' Q1 Q2]]|[pen' [<-|Q1] Q2]].
- by exists pen; [left |].
- by exists pen'; [right |].
- by left.
- by right; exists pen'.
Qed.

Lemma initial_pooled training o : ges_pdags ges -> training <> [::] -> g_env o = None ->
  exists gs, initial w ges training None o = Ok gs /\
  forall D, List.In D gs <-> ges_dag ges (w_log w) (flatten training)
    (if g_phases o is Some ps then ps else [:: Forward; Backward; Turning]) (if g_lambdas o is Some ls then ls else [:: 2%:R]) D.
Proof. by move=> HP; rewrite /initial => NE -> /=; case: training NE => // X Xs _; apply: ges_loop_spec. Qed.
Lemma initial_env training o k X : ges_pdags ges -> g_env o = Some k -> element training k X ->
  exists gs, initial w ges training None o = Ok gs /\
  forall D, List.In D gs <-> ges_dag ges (w_log w) X
    (if g_phases o is Some ps then ps else [:: Forward; Backward; Turning]) (if g_lambdas o is Some ls then ls else [:: 2%:R]) D.
Proof. move=> HP E H; have EP := py_nth_element H; rewrite /initial E; cbv iota; rewrite EP /= cats0; by apply: ges_loop_spec. Qed.
Lemma initial_no_env training o k : g_env o = Some k -> (forall X, ~ element training k X) ->
  initial w ges training None o = Err IndexError.
Proof. by move=> E H; have EP := py_nth_error H; rewrite /initial E; cbv iota; rewrite EP. Qed.

(** Without penalisations there are no graphs *)
Lemma no_lambdas data prune tg ti o seed store training test_graph test_I h hs :
  split_data (w_shuffle w seed) [seq data k | k <- enum 'I_e] (a_folds a) = Ok [:: training; test_graph; test_I] ->
  training <> [::] -> too_small training = false -> g_env o = None -> g_lambdas o = Some [::] -> a_nums_latent a = Some (h :: hs) ->
  full data None prune tg ti o seed store = Err IndexError.
Proof.
move=> Es NE TS E1 E2 EN; rewrite /fit_full Es /= /initial E1 /= E2; case: training NE TS {Es} => // X Xs _ TS /=.
by rewrite /numbers EN /= /fit_h TS.
Qed.

Lemma finish_store training test t store graphs x :
  finish w a training test t store graphs x =
  bind (finish w a training test t Z0 graphs x) (fun r =>
  bind (let: (s, rs) := prune_I (train_conf w a training (en_h x)) (w_rnds w (en_pos x)) (w_argsort w) t (en_obj x) (en_graph x) in
        bind rs (fun rs => bind (test_scores w test rs) (fun xs => Ok (make_history store graphs xs s))))
    (fun hi => Ok (r.1, hi))).
Proof. by rewrite /finish; case: prune_I => s [rs|?] //=; case: test_scores => //= xs; case: best_scoring. Qed.

Lemma full_store data ig prune tg ti o seed store store' r hi :
  full data ig prune tg ti o seed store = Ok (r, hi) -> exists hi', full data ig prune tg ti o seed store' = Ok (r, hi').
Proof.
rewrite /fit_full => /(@bindOk _ _ _ _ _) [[|tr [|sg [|si [|? ?]]]] -> //] /=.
move=> /(@bindOk _ _ _ _ _) [gs -> /(@bindOk _ _ _ _ _) [hs /= -> /(@bindOk _ _ _ _ _) [d /= -> /(@bindOk _ _ _ _ _) [x /= ->]]]] /=.
rewrite /finish; case: prune_I => s [rs|?] //=; case: test_scores => //= xs; case: best_scoring => //= b [<- _].
by eexists.
Qed.
Lemma full_store_err data ig prune tg ti o seed store store' x :
  full data ig prune tg ti o seed store = Err x -> full data ig prune tg ti o seed store' = Err x.
Proof.
move=> E; case E' : (full data ig prune tg ti o seed store') => [[r hi]|y].
  by have [hi'] := full_store store E'; rewrite E.
move: E E'; rewrite /fit_full; case: split_data => [[|tr [|sg [|si [|? ?]]]]|z] /=; try by move=> -> [->].
case: initial => [gs|z] /=; last by move=> -> [->].
case: numbers => [hs|z] /=; last by move=> -> [->].
case: fit_hs => [d|z] /=; last by move=> -> [->].
case: select_h => [u|z] /=; last by move=> -> [->].
rewrite /finish; case: prune_I => s [rs|?] /=; last by move=> -> [->].
case: test_scores => [xs|?] /=; last by move=> -> [->].
by case: best_scoring => [b|?] //= -> [->].
Qed.

(** fit_all is fit_full without options *)
Lemma full_default data ig prune tg ti seed store : (0 < e)%N ->
  (forall X lambda, w_ges w X lambda = ges X [:: Forward; Backward; Turning] lambda) ->
  fit_all w a data ig prune tg ti seed = bind (full data ig prune tg ti (no_opts F) seed store) (fun r => Ok r.1).
Proof.
move=> e0 HG; rewrite /fit_all /fit_full; case Es : split_data => [[|tr [|sg [|si [|? ?]]]]|] //=.
have NE : tr <> [::].
  move=> Q; subst tr; move: Es; rewrite /split_data; case: ifP => // _; set fs := List.fold_left _ _ _; case: fs => [|f0 fs] //.
  case: PeanoNat.Nat.eqb_spec => // L [Q _]; move: L; rewrite Q -[length (map _ _)]/(size _) size_map size_enum_ord => L.
  by rewrite -L in e0.
have -> : initial w ges tr ig (no_opts F) = if ig is Some gs then Ok gs else fit_ges w tr.
  case: ig => // ; rewrite /initial /= /fit_ges_opts /fit_ges; case: tr NE {Es} => // X Xs _ /=; rewrite HG.
  by case: all_dags => //= gs; rewrite cats0.
have C gs : bind (numbers w a tr) (fun hs => bind (fit_hs w a tr sg prune tg gs [::] 0 hs) (fun d => bind (select_h d) (fun x => fit_I w a tr si ti x))) =
  bind (bind (numbers w a tr) (fun hs => bind (fit_hs w a tr sg prune tg gs [::] 0 hs) (fun d => bind (select_h d) (fun x => finish w a tr si ti store gs x)))) (fun r => Ok r.1).
  case: numbers => //= hs; case: fit_hs => //= d; case: select_h => //= x; rewrite /fit_I /finish; case: prune_I => s [rs|?] //=.
  by case: test_scores => //= xs; case: best_scoring.
by case: ig => [gs|] /=; [exact: C | case: fit_ges => //= gs; exact: C].
Qed.

(** The Score object of the history *)
Lemma prune_I_reached l (cf : conf F p l e) rnds argsort (s : sobj F p l e) G : reached cf s.1 -> graph p G ->
  reached cf (prune_I cf rnds argsort None s G).1.1.
Proof.
move=> HS HG; rewrite /prune_I; case: (sdag_spec rnds (iota 0 (length G)) HS HG).
case: (sdag cf rnds s G _) => s' [[m0 x]|x]; rewrite ?sbindOk ?sbindErr /fst /snd // => HS' _.
suff L I o (s2 : sobj F p l e) : reached cf s2.1 -> reached cf (prune_I_loop cf rnds s2 G I o).1.1.
  have := L (iota 0 (length G)) (argsort (variances m0)) s' HS'.
  by case: prune_I_loop => s2 [rs|y]; rewrite ?sbindOk ?sbindErr.
elim: o I s2 => [|j js IH] I s2 H2 //; rewrite prune_I_loopS /=.
case: (sdag_spec rnds (minus I [:: j]) H2 HG); case: (sdag cf rnds s2 G _) => s3 [[m1 y]|y]; rewrite ?sbindOk ?sbindErr /fst /snd // => H3 _.
by have := IH (minus I [:: j]) s3 H3; case: prune_I_loop => s4 [rs|y']; rewrite ?sbindOk ?sbindErr.
Qed.

Lemma scores_In l (T : Type) fold (ms : seq (model F p l e * T)) xs y : test_scores w fold ms = Ok xs -> List.In y xs ->
  List.In y.2 ms /\ scored w fold y.2.1 y.1.
Proof.
move/test_scores_spec; elim=> // u v us vs [E1 E2] _ IH [<-|/IH [H1 H2]]; first by rewrite E1; split; [left |].
by split; [right |].
Qed.

Lemma fit_h_kept tr sg prune gs n h x : Forall (graph p) gs -> fit_h w a tr sg prune None gs n h = Ok x ->
  forall v G, List.In (v, G) (en_scores x) -> exists m' : model F p (en_h x) e,
    [/\ mA m' = G, scored w sg m' v & kept (train_conf w a tr (en_h x)) (en_obj x).1 (List.seq 0 p) m'].
Proof.
move=> GS; rewrite /fit_h; case: ifP => // _.
have R0 : reached (train_conf w a tr h) (new_sobj F p h e).1 := reached0 _.
case EG : prune_graphs => [s r] /(@bindOk _ _ _ _ _) [ms Em /(@bindOk _ _ _ _ _) [ys Ey /(@bindOk _ _ _ _ _) [c Ec [<-]]]] v G.
rewrite Em in EG; have KG := prune_graphs_kept R0 GS EG.
move=> /in_map_iff [y [[E1 E2] /(scores_In Ey) [/in_map_iff [m' [Q Hm]] Sy]]].
exists m'; split; [by rewrite -E2 -Q | by rewrite -E1; move: Sy; rewrite -Q | exact: KG].
Qed.

(** What the history holds *)
Lemma full_history data ig prune o seed store am J sc hi :
  (forall training gs, initial w ges training ig o = Ok gs -> Forall (graph p) gs) ->
  full data ig prune None None o seed store = Ok (am, J, sc, hi) -> (hi = None <-> store = Z0) /\
  forall H, hi = Some H -> exists training test_graph test_I (m : model F p (hi_num H) e),
  [/\ am = existT (fun l => model F p l e) (hi_num H) m,
      split_data (w_shuffle w seed) [seq data k | k <- enum 'I_e] (a_folds a) = Ok [:: training; test_graph; test_I] /\
        initial w ges training ig o = Ok (hi_initial H),
      (hi_pruned H <> None <-> Z.lt (Zpos xH) store) /\ (hi_cache H <> None <-> Z.lt (Zpos (xO xH)) store),
      forall gs Is, hi_pruned H = Some (gs, Is) ->
        [/\ exists v, first_least gs (v, mA m),
            forall x G, List.In (x, G) gs -> exists m' : model F p (hi_num H) e,
              [/\ mA m' = G, fitted_for (train_conf w a training (hi_num H)) (List.seq 0 p) m', scored w test_graph m' x
                & exists2 G0, List.In G0 (hi_initial H) & if prune then subgraph G G0 else G = G0],
            first_least Is (sc, (m, J))
          & forall x m' J', List.In (x, (m', J')) Is ->
              [/\ mA m' = mA m, fitted_for (train_conf w a training (hi_num H)) J' m' & scored w test_I m' x]]
    & forall s, hi_cache H = Some s -> reached (train_conf w a training (hi_num H)) s.1 /\
        forall gs Is, hi_pruned H = Some (gs, Is) ->
          (forall x G, List.In (x, G) gs -> exists m' : model F p (hi_num H) e,
             [/\ mA m' = G, scored w test_graph m' x & recorded (train_conf w a training (hi_num H)) s.1 (List.seq 0 p) m']) /\
          (forall x m' J', List.In (x, (m', J')) Is -> recorded (train_conf w a training (hi_num H)) s.1 J' m')].
Proof.
move=> HI; rewrite /fit_full => /(@bindOk _ _ _ _ _) [[|tr [|sg [|si [|? ?]]]] Es //] /=.
move=> /(@bindOk _ _ _ _ _) [gs Eg /(@bindOk _ _ _ _ _) [hs /= Eh /(@bindOk _ _ _ _ _) [d /= + /(@bindOk _ _ _ _ _) [x /= Ex]]]] /=.
rewrite fit_hs_table => Ed.
have GS := HI _ _ Eg.
have D0 : List.NoDup (List.map (@en_h F p e) [::]) by constructor.
have [D1 _ D3 _] := table_spec (@fit_hE F p e w a tr sg prune None gs) D0 Ed.
case: (select_h_spec D1) => [[_]|[x' []]]; rewrite Ex // => -[<-] Hx _.
case: (D3 _ Hx) => [[//]|[k [_ Fx _]]]; rewrite add0n in Fx.
have [R [G0 _ [GG _]]] := fit_h_reached GS Fx.
rewrite /finish; have PR := prune_I_reached (w_rnds w (en_pos x)) (w_argsort w) R GG.
have PS := fun rs => @prune_I_sub F p (en_h x) e _ (w_rnds w (en_pos x)) (w_argsort w) _ _ rs R GG.
case EP : prune_I PR PS => [s r] /= PR PS /(@bindOk _ _ _ _ _) [rs Er /(@bindOk _ _ _ _ _) [xs Ext /(@bindOk _ _ _ _ _) [b Eb]]].
rewrite /make_history => -[<- <- <- <-]; case: Z.eqb_spec => E0.
  by split=> // H.
split; first by split.
move=> H [<-] /=.
have FL : first_least xs b by case: (best_scoring_spec xs) => [[_]|[b' []]]; rewrite Eb // => -[<-].
have [Hb Sb] : List.In b.2 rs /\ scored w si b.2.1 b.1.
  by apply: scores_In Ext _; case: FL => us [vs [-> _ _]]; apply/in_app_iff; right; left.
have EA : mA b.2.1 = en_graph x by case: b.2 Hb => m J2 Hb; case: (PS _ Er _ _ Hb).
exists tr, sg, si, b.2.1; split=> //.
- by split; case: Z.ltb_spec => L; split=> //; lia.
- case: Z.ltb_spec => // L gs' Is [<- <-]; split.
  + exists (en_score x); rewrite EA; move: Fx; rewrite /fit_h; case: ifP => // _; case: prune_graphs => s' r'.
    move=> /(@bindOk _ _ _ _ _) [ms _ /(@bindOk _ _ _ _ _) [ys _ /(@bindOk _ _ _ _ _) [c Ec [<-]]]] /=.
    by case: (best_scoring_spec [seq (x.1, x.2.2) | x <- ys]) => [[_]|[c' []]]; rewrite Ec // => -[<-]; case: (c).
  + move=> v G; move: Fx; rewrite /fit_h; case: ifP => // _.
    have R0 : reached (train_conf w a tr (en_h x)) (new_sobj F p (en_h x) e).1 := reached0 _.
    have [_] := prune_graphs_sub (w_rnds w k) (w_fuel w) prune R0 GS.
    case: prune_graphs => s' r' /= PG.
    move=> /(@bindOk _ _ _ _ _) [ms Em /(@bindOk _ _ _ _ _) [ys Ey /(@bindOk _ _ _ _ _) [c Ec Ecx]]].
    have -> : en_scores x = [seq (x.1, x.2.2) | x <- ys] by case: Ecx => /(congr1 (@en_scores F p e)) <-.
    move=> /in_map_iff [y [[E1 E2] /(scores_In Ey) [/in_map_iff [m' [Q Hm]] Sy]]].
    have [FM SM] := PG _ Em _ Hm; exists m'; split=> //; try by rewrite -E2 -Q.
    by rewrite -E1; move: Sy; rewrite -Q.
  + by case: (b) FL => ? [].
  + by move=> v m' J' /(scores_In Ext) [/(PS _ Er) [E1 E2 _] S]; rewrite EA.
- move=> s'; case: Z.ltb_spec => // _ [<-]; split=> // gs' Is; case: Z.ltb_spec => // _ [<- <-].
  rewrite Er in EP; have [LP KP] := prune_I_kept R GG EP; split; last first.
    by move=> v m' J' /(scores_In Ext) [/KP K _]; apply: kept_recorded K.
  by move=> v G /(fit_h_kept GS Fx) [m' [H1 H2 K]]; exists m'; split=> //; apply: kept_recorded (kept_later K LP).
Qed.
End Full.
