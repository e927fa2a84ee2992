(** In-place changes of adjacencies are not observable (C115). *)
From Coq Require Import ZArith List.
From mathcomp Require Import all_ssreflect all_algebra.
From Verif Require Import Base GraphModel ListModel NumModel ScoreModel MainModel AliasModel AliasSpec.
Set Implicit Arguments.
Unset Strict Implicit.
Unset Printing Implicit Defensive.
Import Order.Theory GRing.Theory Num.Theory.
Local Open Scope nat_scope.

Lemma nth_error_map S T (f : S -> T) s k : List.nth_error [seq f x | x <- s] k = omap f (List.nth_error s k).
Proof. by elim: s k => [|x s IH] [|k] //=. Qed.
Lemma In_rcons T (s : seq T) x y : List.In y (rcons s x) -> y = x \/ List.In y s.
Proof. by elim: s => [|z s IH] /= [->|]; auto => /IH []; auto. Qed.

Section Alias.
Variables (F : realFieldType) (p l e : nat) (cf : conf F p l e).
Local Notation model := (model F p l e).
Local Notation state := (state F p l e).
Local Notation obj := (obj F p l e).
Variable rnds : nat -> nat -> 'M[F]_p * 'M[F]_p.

(** A reference other than those in bad *)
Definition okr (bad : pred nat) (H : heap) (a : nat) : Prop := a < size H /\ ~~ bad a.
Definition okc (bad : pred nat) (H : heap) (c : rcache F p l e) : Prop :=
  (forall a, a \in rAs c -> okr bad H a) /\ (forall o, List.In o (rmodels c) -> okr bad H (ob_A o)).
(** H' has the arrays of H except for those in bad *)
Definition agree (bad : pred nat) (H H' : heap) : Prop :=
  size H <= size H' /\ forall a, okr bad H a -> at_ H' a = at_ H a.

Lemma agree_refl bad H : agree bad H H. Proof. by []. Qed.
Lemma agree_trans bad H H' H'' : agree bad H H' -> agree bad H' H'' -> agree bad H H''.
Proof.
move=> [L1 E1] [L2 E2]; split=> [|a A]; first exact: leq_trans L1 L2.
by rewrite E2 ?E1 //; case: A => L B; split=> //; exact: leq_trans L L1.
Qed.
Lemma agree_weak bad H H' : agree pred0 H H' -> agree bad H H'.
Proof. by move=> [L E]; split=> // a [? _]; apply: E. Qed.
Lemma agree_rcons bad H A : agree bad H (rcons H A).
Proof. by split=> [|a [L _]]; rewrite ?size_rcons // /at_ nth_rcons L. Qed.
Lemma agree_put H a A : a < size H -> agree (pred1 a) H (put H a A).
Proof.
move=> L; split; first by rewrite /put size_set_nth leq_maxr.
by move=> b [_ /= /negbTE N]; rewrite /at_ /put nth_set_nth /= N.
Qed.
Lemma okr_agree bad H H' a : size H <= size H' -> okr bad H a -> okr bad H' a.
Proof. by move=> L [? ?]; split=> //; apply: leq_trans L. Qed.
Lemma okc_agree bad H H' c : size H <= size H' -> okc bad H c -> okc bad H' c.
Proof. by move=> L [A B]; split=> [a /A|o /B]; apply: okr_agree. Qed.
Lemma model_agree bad H H' (o : obj) : agree bad H H' -> okr bad H (ob_A o) -> the_model H' o = the_model H o.
Proof. by move=> [_ E] /E; rewrite /the_model => ->. Qed.
Lemma map_In S T (f g : S -> T) s : (forall x, List.In x s -> f x = g x) -> [seq f x | x <- s] = [seq g x | x <- s].
Proof. by elim: s => //= x s IH E; rewrite E ?IH //; auto => y Y; apply: E; right. Qed.
Lemma cache_agree bad H H' c : agree bad H H' -> okc bad H c -> the_cache H' c = the_cache H c.
Proof.
move=> G [A B]; rewrite /the_cache; congr MkCache.
  by apply/eq_in_map => a /A; case: G => _; apply.
by apply: map_In => o /B; apply: model_agree G.
Qed.
Lemma cache_parts H H' c : the_cache H c = the_cache H' c ->
  [seq at_ H' a | a <- rAs c] = [seq at_ H a | a <- rAs c] /\ [seq the_model H' o | o <- rmodels c] = [seq the_model H o | o <- rmodels c] :> seq model.
Proof. by move=> E; split; [apply: esym (congr1 (@cAs _ _) E) | apply: esym (congr1 (@cmodels _ _) E)]. Qed.
Lemma at_last H A : at_ (rcons H A) (size H) = A. Proof. by rewrite /at_ nth_rcons ltnn eqxx. Qed.
Lemma model_new H m : the_model (rcons H (mA m)) (Obj (size H) m) = m :> model.
Proof. by rewrite /the_model /= at_last; case: m. Qed.
Lemma okr_last (bad : pred nat) (H : heap) (A : mat) : (forall a, bad a -> a < size H) -> okr bad (rcons H A) (size H).
Proof. by move=> B; split; rewrite ?size_rcons //; apply/negP => /B; rewrite ltnn. Qed.

Definition the_result (H : heap) (r : res (obj * F)) : res (model * F) := bind r (fun x => Ok (the_model H x.1, x.2)).

Lemma rwrite_ok (bad : pred nat) H c a I o s : (forall b, bad b -> b < size H) -> okc bad H c -> a < size H -> okr bad H (ob_A o) ->
  let: (H', c', w) := rwrite cf H c a I o s in
  [/\ agree pred0 H H', okc bad H' c' &
      write (@copy_model F (cf_h cf) p l e) (the_cache H c) (at_ H a) I (the_model H o) s = (the_cache H' c', w)].
Proof.
move=> Hb Hc La Ho; rewrite /rwrite /write; case: find => [[k|]|x] //=.
set H1 := rcons H (at_ H a).
have G1 : agree pred0 H H1 := agree_rcons _ _ _.
have Hc1 : okc bad H1 c by apply: okc_agree Hc; case: G1.
have -> : the_model H1 o = the_model H o by apply: model_agree Ho; apply: agree_weak.
have Hb1 b : bad b -> b < size H1 by move=> /Hb L; rewrite size_rcons ltnW.
have E1 : the_cache H1 c = the_cache H c by apply: cache_agree Hc; apply: agree_weak.
have OA : forall b, b \in rcons (rAs c) (size H) -> okr bad H1 b.
  by move=> b; rewrite mem_rcons in_cons => /orP [/eqP ->|/(proj1 Hc1) //]; apply: okr_last.
case: copy_model => [m|x] /=; last first.
  split=> //; first by split=> //=; exact: (proj2 Hc1).
  by have [-> ->] := cache_parts E1; rewrite /the_cache /= map_rcons at_last.
set H2 := rcons H1 (mA m).
have G2 bad' : agree bad' H1 H2 := agree_rcons _ _ _.
have L12 : size H1 <= size H2 by case: (G2 pred0).
split.
- exact: agree_trans G1 (G2 _).
- split=> /= [b /OA|o' IN]; first exact: okr_agree.
  by have [->|IN'] := In_rcons IN; [exact: okr_last | apply: okr_agree L12 ((proj2 Hc1) _ IN')].
have [-> ->] := cache_parts E1; have [-> ->] := cache_parts (cache_agree (G2 bad) Hc1).
rewrite /the_cache /= !map_rcons model_new; congr (MkCache (rcons _ _) _ _ _, _).
by case: (G2 bad) => _ ->; [rewrite at_last | apply: okr_last].
Qed.

Lemma rscore_dag_ok (bad : pred nat) (st : state) a I : (forall b, bad b -> b < size (st_h st)) -> okc bad (st_h st) (st_c st) -> a < size (st_h st) ->
  let: (st', r) := rscore_dag cf rnds st a I in
  [/\ agree pred0 (st_h st) (st_h st'), okc bad (st_h st') (st_c st'),
      sdag cf rnds (the_sobj st) (at_ (st_h st) a) I = (the_sobj st', the_result (st_h st') r) &
      forall o s, r = Ok (o, s) -> okr bad (st_h st') (ob_A o)].
Proof.
case: st => H c n /= Hb Hc La; rewrite /sdag /score_dag /read /=; case EF : find => [[k|]|x] /=; last by [].
- rewrite nth_error_map; case EM : List.nth_error => [o|] //=; case: List.nth_error => [s|] //=.
  by split=> // o' s' [<- _]; apply: (proj2 Hc); exact: List.nth_error_In EM.
case: fit => [[m s]|x] //=.
have G bad' : agree bad' H (rcons H (mA m)) := agree_rcons _ _ _.
have Ls : size H <= size (rcons H (mA m)) by case: (G pred0).
have Hb1 b : bad b -> b < size (rcons H (mA m)) by move=> /Hb L; apply: leq_trans Ls.
have Hc1 := okc_agree Ls Hc; have La1 := leq_trans La Ls; have Ho := okr_last (mA m) Hb.
have := @rwrite_ok bad (rcons H (mA m)) c a I (Obj (size H) m) s Hb1 Hc1 La1 Ho.
case: rwrite => [[H' c'] w] [G' Hc']; rewrite model_new (cache_agree (G bad) Hc).
have -> : at_ (rcons H (mA m)) a = at_ H a by case: (G pred0) => _; apply.
move=> EW; rewrite /= EW; split=> //.
- exact: agree_trans (G _) G'.
- case: w EW => [u|x] //= EW; rewrite /the_sobj /=; congr (_, Ok (_, _)).
  by rewrite (model_agree (agree_weak bad G')) // model_new.
by case: w EW => [u|x] //= _ o' s' [<- _]; apply: okr_agree Ho; case: G'.
Qed.

Lemma sbOk S A B (s : S) (a : A) (f : S -> A -> S * res B) : sbind (s, Ok a) f = f s a. Proof. by []. Qed.
Lemma sbErr S A B (s : S) x (f : S -> A -> S * res B) : sbind (s, Err x) f = (s, Err x). Proof. by []. Qed.
Arguments rscore_dag : simpl never.
Arguments sdag : simpl never.
Lemma rloop_ok fuel full_I cur st o : cur < size (st_h st) -> okc (pred1 cur) (st_h st) (st_c st) -> okr (pred1 cur) (st_h st) (ob_A o) ->
  let: (st', r) := rprune_loop cf rnds fuel full_I st cur o in
  [/\ agree (pred1 cur) (st_h st) (st_h st'), okc (pred1 cur) (st_h st') (st_c st'),
      prune_loop cf rnds fuel full_I (the_sobj st) (at_ (st_h st) cur) (the_model (st_h st) o) = (the_sobj st', the_models st' r) &
      forall os, r = Ok os -> forall o', List.In o' os -> okr (pred1 cur) (st_h st') (ob_A o')].
Proof.
elim: fuel st o => [|fuel IH] st o Lc Hc Ho /=; case: Z.ltb => /=; try by split=> // os [<-].
case: weakest_edge => [[i j]|x] //=.
set H1 := put _ _ _; set st1 := State H1 _ _.
have G1 : agree (pred1 cur) (st_h st) H1 := agree_put _ Lc.
have Hc1 : okc (pred1 cur) (st_h st1) (st_c st1) by apply: okc_agree Hc; case: G1.
have Lc1 : cur < size (st_h st1) by apply: leq_trans Lc _; case: G1.
have EA : at_ (st_h st1) cur = upd (at_ (st_h st) cur) i j Z0 by rewrite /at_ /= nth_set_nth /= eqxx.
have ES : the_sobj st1 = the_sobj st by rewrite /the_sobj /= (cache_agree G1 Hc).
have B1 b : pred1 cur b -> b < size (st_h st1) by move=> /= /eqP ->.
have := rscore_dag_ok full_I B1 Hc1 Lc1; rewrite EA ES.
case: (rscore_dag cf rnds st1 cur full_I) => st2 r2 [G2 Hc2 E2 O2].
rewrite E2 /sbind /=; case: r2 E2 O2 => [[o2 s2]|x] E2 O2 /=; last first.
  by split=> //; apply: agree_trans G1 (agree_weak _ G2).
have Lc2 : cur < size (st_h st2) by apply: leq_trans Lc1 _; case: G2.
have := IH st2 o2 Lc2 Hc2 (O2 _ _ erefl).
have -> : at_ (st_h st2) cur = upd (at_ (st_h st) cur) i j Z0 by rewrite -EA; case: G2 => _; apply.
case: rprune_loop => st3 r3 [G3 Hc3 E3 O3]; rewrite E3 /=; case: r3 E3 O3 => [os|x] E3 O3 /=.
  split=> //.
  - exact: agree_trans (agree_trans G1 (agree_weak _ G2)) G3.
  - by rewrite (model_agree G3 (O2 _ _ erefl)).
  by move=> os' [<-] o' /= [<-|/(O3 _ erefl) //]; apply: okr_agree (O2 _ _ erefl); case: G3.
by split=> //; apply: agree_trans (agree_trans G1 (agree_weak _ G2)) G3.
Qed.

Lemma rgraph_ok fuel prune threshold full_I st g : okc pred0 (st_h st) (st_c st) -> g < size (st_h st) ->
  let: (st', r) := rprune_graph cf rnds fuel prune threshold full_I st g in
  [/\ agree pred0 (st_h st) (st_h st'), okc pred0 (st_h st') (st_c st'),
      prune_graph cf rnds fuel prune threshold full_I (the_sobj st) (at_ (st_h st) g) = (the_sobj st', the_models st' r) &
      forall os, r = Ok os -> forall o', List.In o' os -> okr pred0 (st_h st') (ob_A o')].
Proof.
move=> Hc Lg; rewrite /rprune_graph /prune_graph.
have B0 H b : @pred0 nat b -> b < size (H : heap) by [].
have := rscore_dag_ok full_I (B0 _) Hc Lg; case: (rscore_dag cf rnds st g full_I) => st1 r1 [G1 Hc1 -> O1].
case: r1 O1 => [[o1 s1]|x] O1; rewrite ?sbOk ?sbErr //; have Ho1 := O1 _ _ erefl.
case: ifP => _; first by split=> // os [<-] o' /= [<-|].
have Lg1 : g < size (st_h st1) by apply: leq_trans Lg _; case: G1.
have Eg : at_ (st_h st1) g = at_ (st_h st) g by case: G1 => _; apply.
case: threshold => [t|].
  case: threshold_graph => [A|x] //; set st2 := State _ _ _.
  have G2 : agree pred0 (st_h st1) (st_h st2) := agree_rcons _ _ _.
  have Hc2 : okc pred0 (st_h st2) (st_c st2) by apply: okc_agree Hc1; case: G2.
  have L2 : size (st_h st1) < size (st_h st2) by rewrite size_rcons.
  have := rscore_dag_ok full_I (B0 _) Hc2 L2; rewrite at_last.
  have -> : the_sobj st2 = the_sobj st1 by rewrite /the_sobj /= (cache_agree G2 Hc1).
  case: (rscore_dag cf rnds st2 _ full_I) => st3 r3 [G3 Hc3 -> O3]; rewrite /=; case: r3 O3 => [[o3 s3]|x] O3 /=.
    split=> //; first exact: agree_trans (agree_trans G1 G2) G3.
    by move=> os [<-] o' /= [<-|//]; apply: O3.
  by split=> //; exact: agree_trans (agree_trans G1 G2) G3.
set st2 := State (rcons _ _) _ _; set cur := size (st_h st1).
have G2 bad : agree bad (st_h st1) (st_h st2) := agree_rcons _ _ _.
have Lc : cur < size (st_h st2) by rewrite size_rcons.
have W a H : okr pred0 (st_h st1) a -> size (st_h st1) <= size H -> okr (pred1 cur) H a.
  by move=> [L _] LH; split; [apply: leq_trans LH | rewrite /= neq_ltn L].
have L12 : size (st_h st1) <= size (st_h st2) by case: (G2 pred0).
have Hc2 : okc (pred1 cur) (st_h st2) (st_c st2) by split=> [a /(proj1 Hc1)|o /(proj2 Hc1)] H; apply: W.
have := @rloop_ok fuel full_I cur st2 o1 Lc Hc2 (W _ _ Ho1 L12).
have -> : the_sobj st2 = the_sobj st1 by rewrite /the_sobj /= (cache_agree (G2 pred0) Hc1).
rewrite (model_agree (G2 pred0) Ho1) at_last Eg.
case: rprune_loop => st3 r3 [G3 Hc3 -> O3].
have G13 : agree pred0 (st_h st1) (st_h st3).
  have [L E] := agree_trans (G2 _) G3; split=> // a A; apply: E; exact: W A (leqnn _).
have V a H : okr (pred1 cur) H a -> okr pred0 H a by move=> [].
have Hc3' : okc pred0 (st_h st3) (st_c st3) by split=> [a /(proj1 Hc3)|o /(proj2 Hc3)]; apply: V.
rewrite /=; case: r3 O3 => [os|x] O3 /=; last by split=> //; exact: agree_trans G1 G13.
split=> //; first exact: agree_trans G1 G13.
  by rewrite (model_agree G13 Ho1).
move=> os' [<-] o' /= [<-|/(O3 _ erefl) /V //]; apply: okr_agree Ho1; by case: G13.
Qed.

Lemma reach_ok fuel prune threshold full_I st gs : okc pred0 (st_h st) (st_c st) -> (forall g, g \in gs -> g < size (st_h st)) ->
  let: (st', r) := rprune_each cf rnds fuel prune threshold full_I st gs in
  [/\ agree pred0 (st_h st) (st_h st'), okc pred0 (st_h st') (st_c st'),
      prune_each cf rnds fuel prune threshold full_I (the_sobj st) [seq at_ (st_h st) g | g <- gs] = (the_sobj st', the_models st' r) &
      forall os, r = Ok os -> forall o', List.In o' os -> okr pred0 (st_h st') (ob_A o')].
Proof.
elim: gs st => [|g gs IH] st Hc Lg /=; first by split=> // os [<-].
have Lg0 : g < size (st_h st) by apply: Lg; rewrite inE eqxx.
have := rgraph_ok fuel prune threshold full_I Hc Lg0; case: rprune_graph => st1 r1 [G1 Hc1 -> O1].
rewrite /sbind /=; case: r1 O1 => [os|x] O1 //=; have Ho1 := O1 _ erefl.
have Lg1 g' : g' \in gs -> g' < size (st_h st1) by move=> I; apply: leq_trans (Lg _ _) _; [rewrite inE I orbT | case: G1].
have := IH st1 Hc1 Lg1.
have -> : [seq at_ (st_h st1) g | g <- gs] = [seq at_ (st_h st) g | g <- gs].
  by apply/eq_in_map => g' I; case: G1 => _; apply; split=> //; apply: Lg; rewrite inE I orbT.
case: rprune_each => st2 r2 [G2 Hc2 -> O2]; rewrite /=; case: r2 O2 => [os2|x] O2 /=; last by split=> //; exact: agree_trans G1 G2.
split=> //; first exact: agree_trans G1 G2.
  by rewrite map_cat; congr (_, Ok (_ ++ _)); apply: map_In => o /Ho1 H; rewrite (model_agree G2 H).
move=> os' [<-] o' /List.in_app_iff [/Ho1|/(O2 _ erefl) //]; apply: okr_agree; by case: G2.
Qed.

Lemma refines fuel prune threshold st gs : no_dangling st -> (forall g, g \in gs -> g < size (st_h st)) ->
  let: (st', r) := rprune_graphs cf rnds fuel prune threshold st gs in
  [/\ prune_graphs cf rnds fuel prune threshold (the_sobj st) [seq at_ (st_h st) g | g <- gs] = (the_sobj st', the_models st' r),
      forall a, a < size (st_h st) -> at_ (st_h st') a = at_ (st_h st) a & no_dangling st'].
Proof.
move=> [Ha Hm] Lg; rewrite /rprune_graphs /prune_graphs; case: gs Lg => [|g gs] Lg //=.
have Hc : okc pred0 (st_h st) (st_c st) by split=> [a /Ha|o /Hm].
have := reach_ok fuel prune threshold (iota 0 (length (at_ (st_h st) g))) Hc Lg; rewrite /=.
case: (sbind _ _) => st' r [G Hc' E O]; split=> //; first by move=> a L; case: G => _; apply.
by split=> [a /(proj1 Hc') []|o /(proj2 Hc') []].
Qed.
End Alias.
