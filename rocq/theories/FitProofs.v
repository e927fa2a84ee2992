(** Proofs about _fit, equivalence_class and equivalence_class_w_ges (C55, C56). *)
From Coq Require Import ZArith QArith_base Lia List Permutation Sorted.
From mathcomp Require Import all_ssreflect all_algebra.
From Verif Require Import Base GraphModel GraphSpec MeekProofs EnumProofs ListModel NumModel NumSpec ScoreModel CacheSpec ScoreSpec.
From Verif Require Import MainModel MainSpec ListProofs PruneProofs PruneIProofs SelectProofs.
Set Implicit Arguments.
Unset Strict Implicit.
Unset Printing Implicit Defensive.
Import Order.Theory GRing.Theory Num.Theory.
Local Open Scope nat_scope.
Local Open Scope ring_scope.

Lemma bindOk (A B : Type) (x : res A) (f : A -> res B) b : bind x f = Ok b -> exists2 a, x = Ok a & f a = Ok b.
Proof. by case: x => //= a H; exists a. Qed.

Section Sub.
Variables (F : realFieldType) (p l e : nat) (cf : conf F p l e).
Variable rnds : nat -> nat -> 'M[F]_p * 'M[F]_p.
Lemma prune_I_sub argsort (s : sobj F p l e) G rs : reached cf s.1 -> graph p G ->
  (prune_I cf rnds argsort None s G).2 = Ok rs ->
  forall m J, List.In (m, J) rs -> [/\ mA m = G, fitted_for cf J m & List.incl J (List.seq 0 p)].
Proof.
move=> HS HG; rewrite /prune_I; have -> : length G = p by have [[]] := HG.
cbv zeta; case: (sdag_spec rnds (iota 0 p) HS HG); case: (sdag cf rnds s G _) => s' [[m0 x]|x]; rewrite ?sbindOk ?sbindErr /fst /snd //.
move=> HS' [EA HF _].
have := prune_I_loop_spec rnds (iota 0 p) (argsort (variances m0)) HS' HG.
case: (prune_I_loop cf rnds s' G _ _) => s2 [rs'|y]; rewrite ?sbindOk ?sbindErr /fst /snd //.
move=> [SZ H] [<-] m J [[<- <-]|HI]; first by split.
have [k Hk] := In_nth_error _ _ HI.
have Lk : (k < size (argsort (variances m0)))%N.
  by rewrite -SZ; apply/ssrnat.ltP; apply/nth_error_Some; rewrite Hk.
have [H1 H2 H3] := H k m J Lk Hk; split=> // j /H3 [Hj _].
by have -> : List.seq 0 p = iota 0 p by [].
Qed.
End Sub.

Section Fit.
Variables (F : realFieldType) (p e : nat) (w : world F p e) (a : args F).
Local Notation sample := (seq 'rV[F]_p).
Local Notation model := (model F p).
Local Notation entry := (entry F p e).
Local Notation keys d := (List.map (@en_h F p e) d).

Lemma select_h_spec (d : seq entry) : List.NoDup (keys d) ->
  (d = [::] /\ select_h d = Err IndexError) \/
  exists x, [/\ select_h d = Ok x, List.In x d
    & forall y, List.In y d -> en_score x < en_score y \/ (en_score x = en_score y /\ (en_h x <= en_h y)%N)].
Proof.
case: d => [|y d]; [by left | right]; rewrite /select_h.
have [ys [-> PY SY]] := ins_sort_spec (key := fun x : entry => (en_score x, en_h x)) H.
rewrite /bind; case: ys PY SY => [/Permutation_sym /Permutation_nil //|x ys] PY SY; exists x; split=> //.
  by apply: Permutation_in (Permutation_sym PY) _; left.
move=> z /(Permutation_in _ PY) [<-|Hz]; first by right.
by have [_ FA] := StronglySorted_inv SY; move/Forall_forall: FA => /(_ _ Hz).
Qed.

Lemma has_existsb (T : Type) (f : T -> bool) xs : has f xs = true <-> exists x, List.In x xs /\ f x = true.
Proof. by rewrite -existsb_exists. Qed.

Lemma dict_set_In (d : seq entry) x y : List.In y (dict_set d x) <-> y = x \/ (List.In y d /\ en_h y <> en_h x).
Proof.
rewrite /dict_set; case: ifP => [/has_existsb [z [Hz /eqP Ez]]|N].
  split.
    move/in_map_iff => [y' [<- Hy]]; case: eqP => E; [by left | by right].
  move=> [->|[Hy Ne]]; apply/in_map_iff; [exists z | exists y]; split=> //; first by rewrite Ez eqxx.
  by move/eqP/negbTE: Ne => ->.
have NI z : List.In z d -> en_h z <> en_h x.
  by move=> Hz E; move: N; rewrite (proj2 (has_existsb _ _)) //; exists z; rewrite E eqxx.
have -> : rcons d x = (d ++ [:: x])%list by rewrite -cats1.
rewrite in_app_iff /=; split; last by move=> [->|[]]; tauto.
by move=> [Hy|[->|//]]; [right; split=> //; apply: NI | left].
Qed.

Lemma dict_set_keys (d : seq entry) x : List.NoDup (keys d) -> List.NoDup (keys (dict_set d x)).
Proof.
rewrite /dict_set; case: ifP => N.
  have -> // : keys [seq (if en_h y == en_h x then x else y) | y <- d] = keys d.
  by elim: d {N} => //= y d ->; case: eqP => [->|].
have -> : rcons d x = (d ++ [:: x])%list by rewrite -cats1.
rewrite map_app => D; apply: (Permutation_NoDup (Permutation_app_comm _ _)) => /=; constructor=> //.
move/in_map_iff => [z [E Hz]]; move: N; rewrite (proj2 (has_existsb _ _)) //; exists z; rewrite E; by rewrite eqxx.
Qed.

Section Table.
Variable f : nat -> nat -> res entry.
Hypothesis fE : forall n h x, f n h = Ok x -> en_h x = h /\ en_pos x = n.
Fixpoint table (d : seq entry) (n : nat) (hs : seq nat) : res (seq entry) :=
  if hs is h :: hs' then bind (f n h) (fun x => table (dict_set d x) n.+1 hs') else Ok d.

Lemma table_spec d n hs d' : List.NoDup (keys d) -> table d n hs = Ok d' ->
  [/\ List.NoDup (keys d'),
      forall x, List.In x d -> ~ List.In (en_h x) hs -> List.In x d',
      forall x, List.In x d' -> (List.In x d /\ ~ List.In (en_h x) hs) \/
        exists k, [/\ List.nth_error hs k = Some (en_h x), f (n + k)%N (en_h x) = Ok x
                    & forall k', (k < k')%N -> List.nth_error hs k' <> Some (en_h x)]
    & forall k h, List.nth_error hs k = Some h -> (forall k', (k < k')%N -> List.nth_error hs k' <> Some h) ->
        exists x, f (n + k)%N h = Ok x /\ List.In x d'].
Proof.
elim: hs d n => [|h hs IH] d n D /=.
  move=> [<-]; split=> //; first by move=> x Hx; left; split=> // ?.
  by move=> [|k] h.
move=> /(@bindOk _ _ _ _ _) [x Ex E]; have [Eh En] := fE Ex.
have [H1 H2 H3 H4] := IH _ _ (dict_set_keys x D) E; split=> //.
- move=> y Hy N; apply: H2; last by move=> Q; apply: N; right.
  by apply/dict_set_In; right; split=> // Q; apply: N; left; rewrite Q Eh.
- move=> y /H3 [[/dict_set_In [->|[Hy Ne]] N]|[k [Hk Ey Lk]]].
  + right; exists 0%N; rewrite addn0 Eh; split=> // -[|k] //= _ Q.
    by apply: N; rewrite Eh; apply: nth_error_In Q.
  + by left; split=> // -[Q|//]; apply: Ne; rewrite -Q.
  + by right; exists k.+1; rewrite addnS -addSn; split=> // -[|k'] //= /Lk.
move=> [|k] h' /=.
  move=> [<-] L; exists x; rewrite addn0; split=> //.
  have N : ~ List.In h hs by move=> HI; have [k Hk] := In_nth_error _ _ HI; apply: (L k.+1).
  by apply: H2; [apply/dict_set_In; left | rewrite Eh].
move=> Hk L; rewrite addnS -addSn; apply: H4 Hk _ => k' Lk'; exact: (L k'.+1).
Qed.
End Table.

Lemma fit_hs_table training test prune t graphs d n hs :
  fit_hs w a training test prune t graphs d n hs = table (fit_h w a training test prune t graphs) d n hs.
Proof. by elim: hs d n => //= h hs IH d n; case: fit_h => //= x. Qed.

Lemma fit_hE training test prune t graphs n h x : fit_h w a training test prune t graphs n h = Ok x -> en_h x = h /\ en_pos x = n.
Proof.
rewrite /fit_h; case: ifP => // _; case: prune_graphs => s r.
by move=> /(@bindOk _ _ _ _ _) [ms _ /(@bindOk _ _ _ _ _) [xs _ /(@bindOk _ _ _ _ _) [b _ [<-]]]].
Qed.

Lemma test_scores_spec l (T : Type) fold (ms : seq (model l e * T)) xs : test_scores w fold ms = Ok xs ->
  Forall2 (fun mt x => x.2 = mt /\ score (w_log w) mt.1 (covs w fold) (n_obs fold) = Ok x.1) ms xs.
Proof.
elim: ms xs => [|mt ms IH] xs /=; first by move=> [<-].
by move=> /(@bindOk _ _ _ _ _) [x Ex /(@bindOk _ _ _ _ _) [ys /IH H [<-]]]; constructor.
Qed.

Lemma fit_h_spec training test prune graphs n h x : fit_h w a training test prune None graphs n h = Ok x ->
  validation w a training test prune graphs n h (en_score x) (en_graph x).
Proof.
rewrite /fit_h /validation; case: ifP => // _; case: prune_graphs => s r.
move=> /(@bindOk _ _ _ _ _) [ms -> /(@bindOk _ _ _ _ _) [xs /test_scores_spec H /(@bindOk _ _ _ _ _) [b Hb [<-]]]] /=; exists ms; split=> //.
case: (best_scoring_spec [seq (x.1, x.2.2) | x <- xs]) => [[_]|[b' []]]; rewrite Hb // => -[<-] [us [vs [E H1 H2]]].
have HB y : List.In y xs -> b.1 <= y.1.
  move=> Hy; have : List.In (y.1, y.2.2) [seq (x.1, x.2.2) | x <- xs] by apply/in_map_iff; exists y.
  rewrite E => /in_app_iff [/H1 /ltW //|[->//|/H2 //]].
split.
  have : List.In b [seq (x.1, x.2.2) | x <- xs] by rewrite E; apply/in_app_iff; right; left.
  move/in_map_iff => [y [Eb Hy]].
  have [mt [Hmt [E1 E2]]] : exists mt, List.In mt [seq (m, mA m) | m <- ms] /\ (y.2 = mt /\ score (w_log w) mt.1 (covs w test) (n_obs test) = Ok y.1).
    elim: H Hy => // u v us' vs' Huv _ IH [<-|/IH [mt [A1 A2]]]; first by exists u; split; [left|].
    by exists mt; split; [right|].
  move/in_map_iff: Hmt E1 E2 => [m [<- Hm]] E1 E2 /=; exists m; rewrite -Eb /= E1; split=> //.
move=> m Hm; have Hmt : List.In (m, mA m) [seq (m, mA m) | m <- ms] by apply/in_map_iff; exists m.
elim: H Hmt HB => // u v us' vs' [E1 E2] _ IH [Q|Hu] HB; last by apply: IH => // y Hy; apply: HB; right.
by exists v.1; split; [rewrite /scored -E2 Q | apply: HB; left].
Qed.

Lemma fit_h_reached training test prune graphs n h x : Forall (graph p) graphs ->
  fit_h w a training test prune None graphs n h = Ok x ->
  reached (train_conf w a training (en_h x)) (en_obj x).1 /\
  exists2 G, List.In G graphs & graph p (en_graph x) /\ if prune then subgraph (en_graph x) G else en_graph x = G.
Proof.
move=> HG E; have := fit_h_spec E; move: E; rewrite /fit_h /validation; case: ifP => // _.
have R0 : reached (train_conf w a training h) (new_sobj F p h e).1 := reached0 _.
have [] := prune_graphs_sub (w_rnds w n) (w_fuel w) prune R0 HG.
case: prune_graphs => s r /= HS H.
move=> /(@bindOk _ _ _ _ _) [ms Er /(@bindOk _ _ _ _ _) [xs _ /(@bindOk _ _ _ _ _) [b _ [<-]]]] /= [ms' [Er' [[m [Hm Em _]] _]]].
by split=> //; have [[GM _ _ _ _] [G HIG HS']] := H _ Er' _ Hm; exists G => //; rewrite -Em.
Qed.


Lemma fit_I_spec training test x am J sc : reached (train_conf w a training (en_h x)) (en_obj x).1 -> graph p (en_graph x) ->
  fit_I w a training test None x = Ok (am, J, sc) ->
  exists m, [/\ am = existT (fun l => model l e) (en_h x) m, mA m = en_graph x, fitted_for (train_conf w a training (en_h x)) J m,
                List.incl J (List.seq 0 p) & scored w test m sc].
Proof.
move=> HS HG; rewrite /fit_I.
have := fun rs => @prune_I_sub F p (en_h x) e _ (w_rnds w (en_pos x)) (w_argsort w) _ _ rs HS HG.
case: prune_I => s r /= H.
move=> /(@bindOk _ _ _ _ _) [rs Er /(@bindOk _ _ _ _ _) [xs /test_scores_spec FX /(@bindOk _ _ _ _ _) [b Hb [<- <- <-]]]].
case: (best_scoring_spec xs) => [[_]|[b' []]]; rewrite Hb // => -[<-] [us [vs [E _ _]]].
have HB : List.In b xs by rewrite E; apply/in_app_iff; right; left.
have [mt [Hmt [E1 E2]]] : exists mt, List.In mt rs /\ (b.2 = mt /\ score (w_log w) mt.1 (covs w test) (n_obs test) = Ok b.1).
  elim: FX HB => // u v us' vs' Huv _ IH [<-|/IH [mt [A1 A2]]]; first by exists u; split; [left|].
  by exists mt; split; [right|].
case: mt E1 E2 Hmt => m J' -> E2 /(H _ Er) [H1 H2 H3]; by exists m.
Qed.

(** What a result of _fit without thresholds is *)
Lemma fit_all_spec data ig prune seed am J sc : (forall gs, ig = Some gs -> Forall (graph p) gs) ->
  (forall tr gs, ig = None -> fit_ges w tr = Ok gs -> Forall (graph p) gs) ->
  fit_all w a data ig prune None None seed = Ok (am, J, sc) ->
  exists training test_graph test_I graphs hs k v,
  [/\ split_data (w_shuffle w seed) [seq data k | k <- enum 'I_e] (a_folds a) = Ok [:: training; test_graph; test_I],
      (ig = Some graphs \/ ig = None /\ fit_ges w training = Ok graphs) /\ numbers w a training = Ok hs,
      [/\ last_at hs k (projT1 am), validation w a training test_graph prune graphs k (projT1 am) v (mA (projT2 am))
        & forall k' h, last_at hs k' h -> exists v' G, validation w a training test_graph prune graphs k' h v' G /\
            (v < v' \/ (v = v' /\ (projT1 am <= h)%N))],
      exists2 G, List.In G graphs & if prune then subgraph (mA (projT2 am)) G else mA (projT2 am) = G
    & [/\ fitted_for (train_conf w a training (projT1 am)) J (projT2 am), List.incl J (List.seq 0 p)
        & scored w test_I (projT2 am) sc]].
Proof.
move=> G1 G2; rewrite /fit_all => /(@bindOk _ _ _ _ _) [[|tr [|tg [|ti [|? ?]]]] Es] //.
move=> /(@bindOk _ _ _ _ _) [gs Eg /(@bindOk _ _ _ _ _) [hs Eh /(@bindOk _ _ _ _ _) [d + /(@bindOk _ _ _ _ _) [x Ex Ei]]]].
rewrite fit_hs_table => Ed.
have GS : Forall (graph p) gs by move: Eg; case: ig G1 G2 => [gs0|] G1 G2 => [[<-]|]; [apply: G1 | apply: G2].
have D0 : List.NoDup (keys ([::] : seq entry)) by constructor.
have [D1 _ D3 D4] := table_spec (@fit_hE tr tg prune None gs) D0 Ed.
case: (select_h_spec D1) => [[_]|[x' []]]; rewrite Ex // => -[<-] Hx Lx.
case: (D3 _ Hx) => [[//]|[k [Hk Fx Lk]]]; rewrite add0n in Fx.
have [R [G HIG [GG SG]]] := fit_h_reached GS Fx.
have [m [-> EA HF HJ SC]] := fit_I_spec R GG Ei.
exists tr, tg, ti, gs, hs, k, (en_score x); split=> //=.
- by split=> //; move: Eg; case: ig {G1 G2} => [gs0 [<-]|H]; [left | right].
- split=> //; first by rewrite EA; apply: fit_h_spec.
  move=> k' h [Hk' Lk']; have [y [Fy Hy]] := D4 _ _ Hk' Lk'; rewrite add0n in Fy.
  exists (en_score y), (en_graph y); split; first exact: fit_h_spec.
  by have [<- _] := fit_hE Fy; apply: Lx.
- by exists G => //; rewrite EA.
Qed.

(** C56 *)
Lemma equivalence_class_spec candidates data prune seed icpdag J am : Forall (graph p) candidates ->
  equivalence_class w a candidates data prune seed = Ok (icpdag, J, am) ->
  [/\ exists2 G, List.In G candidates & if prune then subgraph (mA (projT2 am)) G else mA (projT2 am) = G,
      List.incl J (List.seq 0 p),
      exists training, fitted_for (train_conf w a training (projT1 am)) J (projT2 am)
    & (square p icpdag /\ binary icpdag) /\ 
      forall D, square p D -> (consistent_ext D icpdag <-> acyclic D /\ imarkov_equiv J (mA (projT2 am)) D)].
Proof.
move=> HC; rewrite /equivalence_class => /(@bindOk _ _ _ _ _) [[[am' J'] sc] Ef /(@bindOk _ _ _ _ _) [ic Ei [<- <- <-]]].
have [||tr [tg [ti [gs [hs [k [v [Es [[[<-]|[//]] _] _ HG [HF HJ _]]]]]]]]] := fit_all_spec _ _ Ef; [by move=> gs [<-] | by [] |].
split=> //; first by exists tr.
have [[SA NA] AC _ _ _] := HF.
have [M [EM [SM [BM [_ [_ H]]]]]] := dag_to_icpdag_spec (w_h w) p _ J' SA NA AC.
by move: EM; rewrite Ei => -[->].
Qed.

End Fit.
