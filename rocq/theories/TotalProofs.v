(** _fit returns unless a call of score_dag fails. *)
From Coq Require Import ZArith QArith_base Lia List Permutation Sorted.
From mathcomp Require Import all_ssreflect all_algebra.
From Verif Require Import Base GraphModel GraphSpec MeekProofs EnumProofs ListModel NumModel NumSpec ScoreModel CacheSpec ScoreSpec.
From Verif Require Import NumProofs ScoreProofs MainModel MainSpec ListProofs PruneProofs PruneIProofs SelectProofs FitProofs.
Set Implicit Arguments.
Unset Strict Implicit.
Unset Printing Implicit Defensive.
Import Order.Theory GRing.Theory Num.Theory.
Local Open Scope nat_scope.
Local Open Scope ring_scope.

Section Total.
Variables (F : realFieldType) (p e : nat) (w : world F p e) (a : args F).
Local Notation sample := (seq 'rV[F]_p).
Local Notation model := (model F p).
Local Notation entry := (entry F p e).

Lemma test_scores_ok l (T : Type) fold (ms : seq (model l e * T)) :
  (forall mt, List.In mt ms -> positive (momegas mt.1) /\ forall i j, 0 < mpsis mt.1 i j) ->
  exists xs, test_scores w fold ms = Ok xs /\ size xs = size ms.
Proof.
elim: ms => [|mt ms IH] H /=; first by exists [::].
have [Ho Hs] := H mt (or_introl erefl).
have [xs [-> SZ]] := IH (fun x Hx => H x (or_intror Hx)).
rewrite score_value //; last by move=> i j; apply: ltW.
by eexists; split; first reflexivity; rewrite /= SZ.
Qed.

Lemma best_scoring_ok (T : Type) (ts : seq (F * T)) : (0 < size ts)%N -> exists t, best_scoring ts = Ok t.
Proof. by case: (best_scoring_spec ts) => [[-> //]|[t [-> _]]] _; exists t. Qed.

Lemma prune_graphs_total prune training h n graphs : Forall (graph p) graphs -> graphs <> [::] -> prunable w a prune training h ->
  let r := (prune_graphs (train_conf w a training h) (w_rnds w n) (w_fuel w) prune None (new_sobj F p h e) graphs).2 in
  (exists ms, [/\ r = Ok ms, (0 < size ms)%N & forall m, List.In m ms -> positive (momegas m) /\ forall i j, 0 < mpsis m i j]) \/
  (exists x, r = Err x /\ failed (train_conf w a training h) (w_rnds w n) graphs x).
Proof.
move=> HG NE PR; have R0 : reached (train_conf w a training h) (new_sobj F p h e).1 := reached0 _.
have [_ HS] := prune_graphs_sub (w_rnds w n) (w_fuel w) prune R0 HG; cbv zeta.
have HM ms : (prune_graphs (train_conf w a training h) (w_rnds w n) (w_fuel w) prune None (new_sobj F p h e) graphs).2 = Ok ms ->
    forall m, List.In m ms -> positive (momegas m) /\ forall i j, 0 < mpsis m i j.
  by move=> E m /(HS _ E) [[_ _ _ [H1 H2 _] _] _].
case: prune PR HM {HS} => PR HM.
  have [SW FU] := PR erefl.
  case: (prune_graphs_chain (w_rnds w n) SW R0 HG NE FU) => [[mss [E FA]]|H]; last by right.
  left; exists (concat mss); split=> //; last exact: HM.
  by case: graphs NE FA {HG HM E} => // G gs _ FA; inversion FA as [|? ms ? ? [m [ms' [-> _ _ _]]]].
case: (prune_graphs_plain (w_rnds w n) (w_fuel w) R0 HG NE) => [[ms [E FA]]|H]; last by right.
left; exists ms; split=> //; last exact: HM.
by rewrite -(size_map (@mA F p h e)) FA; case: graphs NE {HG HM E FA}.
Qed.

Lemma fit_h_total training test prune graphs n h : Forall (graph p) graphs -> graphs <> [::] ->
  too_small training = false -> prunable w a prune training h ->
  (exists x, fit_h w a training test prune None graphs n h = Ok x) \/
  (exists x, fit_h w a training test prune None graphs n h = Err x /\ failed (train_conf w a training h) (w_rnds w n) graphs x).
Proof.
move=> HG NE TS PR; rewrite /fit_h TS; have := prune_graphs_total n HG NE PR.
case: prune_graphs => s r /= [[ms [-> SZ HM]]|[x [-> H]]]; last by right; exists x.
left; rewrite /=; have [|xs [-> SX]] := @test_scores_ok h mat test [seq (m, mA m) | m <- ms].
  by move=> mt /in_map_iff [m [<- /HM]].
rewrite size_map in SX; have [|b Eb] := @best_scoring_ok mat [seq (x.1, x.2.2) | x <- xs].
  by rewrite size_map SX.
by rewrite /= Eb; eexists.
Qed.

Lemma fit_hs_total training test prune graphs hs : Forall (graph p) graphs -> graphs <> [::] ->
  too_small training = false -> (forall h, List.In h hs -> prunable w a prune training h) -> forall d n0,
  (exists d', fit_hs w a training test prune None graphs d n0 hs = Ok d') \/
  (exists h n x, [/\ List.In h hs, fit_hs w a training test prune None graphs d n0 hs = Err x
                 & failed (train_conf w a training h) (w_rnds w n) graphs x]).
Proof.
move=> HG NE TS; elim: hs => [|h hs IH] PR d n /=; first by left; eexists.
case: (fit_h_total test n HG NE TS (PR h (or_introl erefl))) => [[x ->]|[x [-> H]]] /=; last first.
  by right; exists h, n, x; split=> //; left.
case: (IH (fun h Hh => PR h (or_intror Hh)) (dict_set d x) n.+1) => [H|[h' [n' [x' [H1 H2 H3]]]]]; first by left.
by right; exists h', n', x'; split=> //; right.
Qed.

Lemma fit_I_total training test x : reached (train_conf w a training (en_h x)) (en_obj x).1 -> graph p (en_graph x) ->
  (exists r, fit_I w a training test None x = Ok r) \/
  (exists y, fit_I w a training test None x = Err y /\ failed (train_conf w a training (en_h x)) (w_rnds w (en_pos x)) [:: en_graph x] y).
Proof.
move=> HS HG; rewrite /fit_I.
have := fun rs => @prune_I_sub F p (en_h x) e _ (w_rnds w (en_pos x)) (w_argsort w) _ _ rs HS HG.
have : (exists rs, (prune_I (train_conf w a training (en_h x)) (w_rnds w (en_pos x)) (w_argsort w) None (en_obj x) (en_graph x)).2 = Ok rs /\ (0 < size rs)%N) \/
  (exists y, (prune_I (train_conf w a training (en_h x)) (w_rnds w (en_pos x)) (w_argsort w) None (en_obj x) (en_graph x)).2 = Err y /\
     failed (train_conf w a training (en_h x)) (w_rnds w (en_pos x)) [:: en_graph x] y).
  rewrite /prune_I; cbv zeta; have -> : length (en_graph x) = p by have [[]] := HG.
  case: (sdag_spec (w_rnds w (en_pos x)) (iota 0 p) HS HG); case: sdag => s' [[m0 y]|y]; rewrite ?sbindOk ?sbindErr /fst /snd; last by move=> _ H; right; exists y.
  move=> HS' _; have := prune_I_loop_spec (w_rnds w (en_pos x)) (iota 0 p) (w_argsort w (variances m0)) HS' HG.
  case: prune_I_loop => s2 [rs|z]; rewrite ?sbindOk ?sbindErr /fst /snd => H; last by right; exists z.
  by left; eexists.
case: prune_I => s r /= [[rs [-> SZ]]|[y [-> H]]] HM; last by right; exists y.
left; rewrite /=; have [|xs [-> SX]] := @test_scores_ok (en_h x) (seq nat) test rs.
  by move=> [m J] /(HM _ erefl) [_ [_ _ _ [H1 H2 _] _] _].
have [|b Eb] := @best_scoring_ok _ xs; first by rewrite SX.
by rewrite /= Eb; eexists.
Qed.

(** Without thresholds _fit fails only if fitting a subgraph of an initial graph fails. *)
Lemma fit_all_total data ig prune seed training test_graph test_I graphs hs :
  split_data (w_shuffle w seed) [seq data k | k <- enum 'I_e] (a_folds a) = Ok [:: training; test_graph; test_I] ->
  (ig = Some graphs \/ ig = None /\ fit_ges w training = Ok graphs) -> numbers w a training = Ok hs ->
  Forall (graph p) graphs -> graphs <> [::] -> hs <> [::] -> too_small training = false ->
  (forall h, List.In h hs -> prunable w a prune training h) ->
  (exists r, fit_all w a data ig prune None None seed = Ok r) \/
  (exists h n x, [/\ List.In h hs, fit_all w a data ig prune None None seed = Err x
                 & failed (train_conf w a training h) (w_rnds w n) graphs x]).
Proof.
move=> Es Eg Eh HG NG NH TS PR; rewrite /fit_all Es /=.
have -> : match ig with Some gs => Ok gs | None => fit_ges w training end = Ok graphs by case: Eg => [->|[-> ->]].
rewrite /= Eh /=; case: (fit_hs_total test_graph HG NG TS PR [::] 0) => [[d Ed]|[h [n [x [H1 -> H2]]]]]; last first.
  by right; exists h, n, x.
rewrite Ed /=; rewrite fit_hs_table in Ed.
have D0 : List.NoDup (List.map (@en_h F p e) ([::] : seq entry)) by constructor.
have [D1 _ D3 D4] := table_spec (@fit_hE F p e w a training test_graph prune None graphs) D0 Ed.
case: (select_h_spec D1) => [[E0 _]|[x [-> Hx _]]].
  exfalso.
  have [k [h LH]] : exists k h, last_at hs k h.
    clear -NH; elim: hs NH => // h hs IH _; case: hs IH => [|h' hs] IH.
      by exists 0%N, h; split=> // -[|[|k]].
    have [k [x [H1 H2]]] := IH ltac:(by []); exists k.+1, x; split=> // -[|k'] //= Lk; exact: H2.
  by have [y [_]] := D4 _ _ LH.1 LH.2; rewrite E0.
case: (D3 _ Hx) => [[//]|[k [Hk Fx Lk]]]; rewrite add0n in Fx.
have [R [G HIG [GG SG]]] := fit_h_reached HG Fx.
case: (fit_I_total test_I R GG) => [H|[y [Ey H]]]; [by left | right; exists (en_h x), (en_pos x), y; split=> //].
  by apply: nth_error_In Hk.
apply: failed_sub H; exists G => //; by case: prune SG {PR Ed D3 D4 Fx} => // <-.
Qed.
End Total.
