(** Lemmas on the checks of NdModel.v. *)
From Coq Require Import ZArith Lia.
From mathcomp Require Import all_ssreflect all_algebra.
From Verif Require Import Base GraphModel GraphSpec TopoProofs NumModel NumSpec ArraySpec NumProofs NdModel.
Set Implicit Arguments.
Unset Strict Implicit.
Unset Printing Implicit Defensive.
Import GRing.Theory Num.Theory.
Local Open Scope ring_scope.

Lemma list_nth (V : Type) (d : V) s n : List.nth n s d = seq.nth d s n.
Proof. by elim: s n => [|x s IH] [|n] //=. Qed.

Lemma list_In (V : eqType) (x : V) s : List.In x s <-> x \in s.
Proof.
elim: s => [|y s IH] /=; first by split.
rewrite inE; split; first by case=> [->|/IH ->]; rewrite ?eqxx ?orbT.
by case/orP => [/eqP ->|/IH]; [left | right].
Qed.

Lemma flatten_nth V (d : V) (M : seq (seq V)) r c i j : rows r c M -> (i < r)%N -> (j < c)%N ->
  nth d (flatten M) (i * c + j) = nth d (nth [::] M i) j.
Proof.
case=> <-; elim: M i => [|x M IH] [|i] //= Hc Hi Hj.
  by rewrite nth_cat -[size x]/(length x) Hc ?Hj; auto.
rewrite nth_cat -[size x]/(length x) Hc; last by left.
rewrite mulSn -addnA ltnNge leq_addr /= addKn; apply: IH => //.
by move=> y Hy; apply: Hc; right.
Qed.

Lemma size_flatten_rows V (M : seq (seq V)) r c : rows r c M -> size (flatten M) = (r * c)%N.
Proof.
case=> <-; elim: M => [|x M IH] //= Hc; rewrite size_cat IH ?mulSn; last by move=> y Hy; apply: Hc; right.
by rewrite -[size x]/(length x) Hc //; left.
Qed.

Lemma nd_mat_flatten (M : mat) r c : rows r c M -> nd_mat (MkNd [:: r; c] (flatten M)) = M.
Proof.
move=> HM; have [E Hc] := HM; rewrite /nd_mat /=; apply: (@eq_from_nth _ [::]); rewrite size_map size_iota //.
move=> i Hi; rewrite (nth_map 0%N) ?size_iota // nth_iota // add0n.
have Ei : size (nth [::] M i) = c.
  apply: Hc; rewrite -list_nth; apply: List.nth_In; rewrite E; exact/ltP.
apply: (@eq_from_nth _ Z0); rewrite size_map size_iota ?Ei //.
move=> j Hj; rewrite (nth_map 0%N) ?size_iota // nth_iota // add0n /ndget /=.
exact: (flatten_nth _ HM).
Qed.

Lemma has_zip_iota V W (a0 : V) (b0 : W) (P : V * W -> bool) s t n : size s = n -> size t = n ->
  has P (zip s t) = has (fun k => P (nth a0 s k, nth b0 t k)) (iota 0 n).
Proof.
move=> Es Et; rewrite -[in RHS](_ : size (zip s t) = n); last by rewrite size1_zip Es // Et.
rewrite -[in LHS](mkseq_nth (a0, b0) (zip s t)) /mkseq has_map; apply: eq_in_has => k _ /=.
by rewrite nth_zip // Es.
Qed.

Section NdProofs.
Variables (F : realFieldType) (h : hord).

Lemma breaksP r (M : mat) (B : nd F) : rows r r M -> nshape B = [:: r; r] -> size (nvals B) = (r * r)%N ->
  nd_breaks (MkNd [:: r; r] (flatten M)) B = false <->
  (forall i j, (i < r)%N -> (j < r)%N -> entry 0 (nvals B) r i j <> 0 -> edge M i j).
Proof.
move=> HM EB SB; rewrite /nd_breaks (@has_zip_iota _ _ Z0 0 _ _ _ (r * r)%N) ?(size_flatten_rows HM) //=.
have G i j : (i < r)%N -> (j < r)%N -> nth Z0 (flatten M) (i * r + j) = get M i j.
  by move=> Hi Hj; rewrite (flatten_nth _ HM) // /get -!list_nth.
split.
  move=> /hasPn H i j Hi Hj; rewrite /entry list_nth => Nz Ez.
  have In : (i * r + j)%N \in iota 0 (r * r).
    rewrite mem_iota add0n /=; apply: (@leq_trans (i * r + r)%N); first by rewrite ltn_add2l.
    by rewrite addnC -mulSn leq_mul2r Hi orbT.
  move/negP: (H _ In); apply; apply/andP; split; last exact/eqP.
  by apply/Z.eqb_eq; rewrite G.
move=> H; apply/negbTE/hasPn => k; rewrite mem_iota add0n => /= Hk.
apply/negP => /andP [/Z.eqb_eq E1 /eqP E2].
have r0 : (0 < r)%N by case: r Hk {HM EB SB H G E1 E2}.
have Hi : (k %/ r < r)%N by rewrite ltn_divLR.
have Hj : (k %% r < r)%N by rewrite ltn_mod.
apply: (H _ _ Hi Hj); first by rewrite /entry list_nth -divn_eq.
by rewrite -G // -divn_eq.
Qed.

Lemma nd_model_spec r c (M : mat) (B gamma omegas psis : nd F) :
  rows r c M -> nonneg M -> size (nvals B) = foldr muln 1%N (nshape B) ->
  let A := MkNd [:: r; c] (flatten M) in
  let ok := (exists l e, fits r c B gamma omegas psis l e) /\ acyclic M /\
            forall i j, (i < r)%N -> (j < c)%N -> entry 0 (nvals B) c i j <> 0 -> edge M i j in
  (ok /\ exists m, nd_model h A B gamma omegas psis = Ok m /\
         [/\ uA m = A, uB m = B, ugamma m = gamma, uomegas m = omegas & upsis m = psis] /\
         [/\ fits r c B gamma omegas psis (ul m) (ue m), up m = r, nshape (uI_B m) = [:: r; r] &
             forall i j, (i < r)%N -> (j < r)%N ->
               entry 0 (nvals (uI_B m)) r i j = (i == j)%:R - entry 0 (nvals B) r j i]) \/
  (~ ok /\ (nd_model h A B gamma omegas psis = Err ValueError \/
            nd_model h A B gamma omegas psis = Err IndexError /\ r <> c /\ (r = 1%N \/ c = 1%N))).
Proof.
move=> HM NM SB A ok; rewrite /nd_model /A /=; case: eqP => [EB|NB] /=; last first.
  by right; split; [move=> [[l [e [EB _ _ _ _]]] _]; apply: NB; rewrite EB | left].
rewrite /nd_is_dag /nlen /=; case: eqP => [Erc|Nrc]; last first.
  have No : ~ ok by move=> [[l [e []]]].
  right; split=> //; case: ifP => [/orP H|H] /=; last by left.
  by right; split=> //; split=> //; case: H => /eqP; [left | right].
subst c; rewrite (nd_mat_flatten HM).
have SM : square r M.
  by case: HM => E1 E2; split=> //; apply/List.Forall_forall.
case: (is_dag_spec h r M SM NM) => d [-> Hd] /=.
case: d Hd => Hd /=; last by right; split; [move=> [_ [/Hd]] | left].
have SB' : size (nvals B) = (r * r)%N by rewrite SB -EB /= muln1.
have BP := breaksP HM (esym EB) SB'.
case: (nd_breaks _ _) BP => BP /=; first by right; split; [move=> [_ [_ /BP]] | left].
have AC : acyclic M by apply/Hd.
have SU := proj1 BP erefl.
have FAIL : (~ exists l e, fits r r B gamma omegas psis l e) -> ~ ok by move=> N [].
rewrite /ndim; case: ifP => [/negP N|/negbFE /eqP Ng].
  by right; split; [apply: FAIL => -[l [e [_ _ E _ _]]]; apply: N; rewrite E | left].
case: ifP => [/negP N|/negbFE /eqP No].
  by right; split; [apply: FAIL => -[l [e [_ _ _ E _]]]; apply: N; rewrite E | left].
case: ifP => [/negP N|/negbFE /eqP Np].
  by right; split; [apply: FAIL => -[l [e [_ _ _ _ E]]]; apply: N; rewrite E | left].
case: gamma Ng {FAIL} @ok => [[|g0 [|g1 [|? ?]]] gv] //= _.
case: omegas No => [[|o0 [|o1 [|? ?]]] ov] //= _.
case: psis Np => [[|p0 [|p1 [|? ?]]] pv] //= _.
case: ifP => [/negP N|/negbFE /eqP E1].
  by right; split; [move=> [[l [e [_ _ /= [_ E] _ _]]] _]; apply: N; rewrite E | left].
case: ifP => [/negP N|/negbFE /eqP E2].
  by right; split; [move=> [[l [e [_ _ _ /= [_ E] _]]] _]; apply: N; rewrite E | left].
case: ifP => [/negP N|/negbFE /eqP E3].
  by right; split; [move=> [[l [e [_ _ _ /= [E _] [E' _]]]] _]; apply: N; rewrite E E' | left].
case: ifP => [/negP N|/negbFE /eqP E4].
  by right; split; [move=> [[l [e [_ _ /= [E _] _ [_ E']]]] _]; apply: N; rewrite E E' | left].
have FT : fits r r B (MkNd [:: g0; g1] gv) (MkNd [:: o0; o1] ov) (MkNd [:: p0; p1] pv) g0 o0.
  by split=> //=; rewrite -?EB ?E1 ?E2 ?E3 ?E4.
left; split; first by split; [exists g0, o0 | split].
rewrite -EB /=; eexists; split; first by [].
split=> //; split=> //= i j Hi Hj; rewrite /entry list_nth /nd_I_B /=.
have Hr : rows r r [seq [seq (a == b)%:R - ndget 0 B b a | b <- iota 0 r] | a <- iota 0 r].
  split; first by rewrite -[length _]/(size _) size_map size_iota.
  move=> x /List.in_map_iff [a [<- _]]; by rewrite -[length _]/(size _) size_map size_iota.
rewrite -[flatten _]/(flatten [seq [seq (a == b)%:R - ndget 0 B b a | b <- iota 0 r] | a <- iota 0 r]).
rewrite (flatten_nth _ Hr) // (nth_map 0%N) ?size_iota // (nth_map 0%N) ?size_iota //.
by rewrite !nth_iota // !add0n /ndget -EB /= list_nth.
Qed.

(** The constructor on arrays and the one on matrices of fixed sizes agree. *)
Lemma nd_model_typed r (M : mat) (B gamma omegas psis : nd F) l e m :
  rows r r M -> nonneg M -> size (nvals B) = foldr muln 1%N (nshape B) ->
  fits r r B gamma omegas psis l e ->
  nd_model h (MkNd [:: r; r] (flatten M)) B gamma omegas psis = Ok m ->
  new_model h M (to_mx r r B) (to_mx l r gamma) (to_mx e r omegas) (to_mx e l psis) =
  Ok (MkModel M (to_mx r r (uB m)) (to_mx l r (ugamma m)) (to_mx e r (uomegas m)) (to_mx e l (upsis m))
              (to_mx r r (uI_B m))).
Proof.
move=> HM NM SB FT E.
have [[[_ [AC SU]] [m' [E' [[_ EB Eg Eo Ep] [_ _ _ EI]]]]]|[_ [E'|[E' _]]]] := nd_model_spec gamma omegas psis HM NM SB;
  rewrite E in E' => //; case: E' EB Eg Eo Ep EI => <- -> -> -> -> EI.
have SM : square r M by case: HM => E1 E2; split=> //; apply/List.Forall_forall.
case: (new_model_spec h (to_mx r r B) (to_mx l r gamma) (to_mx e r omegas) (to_mx e l psis) SM NM) => [[_ [_ ->]]|[]].
  congr (Ok (MkModel _ _ _ _ _ _)); apply/matrixP => i j; rewrite !mxE EI //.
case; split=> // i j; rewrite !mxE => /eqP; exact: SU.
Qed.
End NdProofs.

(** * Score.__init__ *)
Lemma undup_all_equal (V : eqType) (s : seq V) : (1 < size (undup s))%N = false <-> all_equal s.
Proof.
split.
  move/negbT; rewrite -leqNgt => H x y; rewrite !list_In -![_ \in s]mem_undup.
  case: (undup s) H => [|a [|b t]] //= _; rewrite !inE => /eqP -> /eqP -> //.
move=> H; apply/negbTE; rewrite -leqNgt.
have U := undup_uniq s; case E : (undup s) => [|a [|b t]] //; move: U; rewrite E /= inE negb_or.
case/andP => /andP [/eqP N _] _; case: N; apply: H; apply/list_In; rewrite -mem_undup E !inE eqxx ?orbT //.
Qed.

Section ScoreInit.
Variables (V C : Type) (cov : nd V -> C).

Lemma widths_spec (ys : seq (nd V)) :
  (widths ys = Ok [seq nth 0%N (nshape y) 1 | y <- ys] /\ forall y, List.In y ys -> (2 <= size (nshape y))%N) \/
  (widths ys = Err IndexError /\ exists y, List.In y ys /\ (size (nshape y) < 2)%N).
Proof.
elim: ys => [|y ys IH] /=; first by left.
rewrite /ndim; case: ltnP => Hy; first by right; split=> //; exists y; split; [left|].
case: IH => [[-> H]|[-> [z [Hz Lz]]]] /=; last by right; split=> //; exists z; split; [right|].
by left; split=> // z [<-|/H].
Qed.

Lemma score_init_pair (covs : seq (option nat * C)) ns (solver : bool) :
  let ok := [/\ size covs = size ns, exists w, forall s, List.In s covs -> s.1 = Some w & solver] in
  (ok -> @score_init V C cov (DPair V covs ns) solver = Ok ([seq s.2 | s <- covs], ns)) /\
  (~ ok -> @score_init V C cov (DPair V covs ns) solver = Err ValueError \/
           @score_init V C cov (DPair V covs ns) solver = Err TypeError /\ exists s, List.In s covs /\ s.1 = None).
Proof.
move=> ok; rewrite /score_init; case: eqP => /= Es; last by split; [case | left].
case: (boolP (all _ covs)) => /= Ha; last first.
  have [s [Hs Ns]] : exists s, List.In s covs /\ s.1 = None.
    move: Ha; elim: covs {ok Es} => [|[[w|] x] covs IH] //= H.
      by case: (IH H) => s [Hs Ns]; exists s; split; [right|].
    by exists (None, x); split; [left|].
  split; last by move=> _; right; split=> //; exists s.
  by case=> _ [w /(_ s Hs)]; rewrite Ns.
have HA s : List.In s covs -> exists w, s.1 = Some w.
  elim: covs Ha {ok Es} => [|[o x] covs IH] //= /andP [Ho Hc] [<-|/(IH Hc)] //=.
  by case: o Ho => // w _; exists w.
case: (boolP (1 < _)%N) => Hu /=.
  split; last by left.
  case=> _ [w Hw] _; exfalso; suff E : (1 < size (undup [seq s.1 | s <- covs]))%N = false by rewrite E in Hu.
  apply/undup_all_equal => x y /List.in_map_iff [a [<- Ia]] /List.in_map_iff [b [<- Ib]].
  by rewrite (Hw _ Ia) (Hw _ Ib).
move/negbTE/undup_all_equal: Hu => Hu.
case: solver @ok => ok; last by split; [case | left].
split=> // -[]; split=> //; case: covs Hu HA {Es Ha ok} => [|s covs] Hu HA; first by exists 0%N.
have [w Ew] := HA s (or_introl erefl); exists w => t Ht; rewrite -Ew; apply: Hu.
  exact: (List.in_map fst _ _ Ht).
by left.
Qed.

Lemma score_init_list (xs : seq (option (nd V))) (solver : bool) :
  (exists x, List.In x xs /\ x = None) /\ @score_init V C cov (DList C xs) solver = Err TypeError \/
  exists ys, xs = [seq Some y | y <- ys] /\
  let ok := [/\ forall y, List.In y ys -> nlen y <> 1%N,
                forall y y', List.In y ys -> List.In y' ys -> nth 0%N (nshape y) 1 = nth 0%N (nshape y') 1 & solver] in
  ((exists y, List.In y ys /\ (size (nshape y) < 2)%N) /\
   @score_init V C cov (DList C xs) solver = Err IndexError) \/
  ((forall y, List.In y ys -> (2 <= size (nshape y))%N) /\
   (ok -> @score_init V C cov (DList C xs) solver = Ok ([seq cov y | y <- ys], [seq nlen y | y <- ys])) /\
   (~ ok -> @score_init V C cov (DList C xs) solver = Err ValueError)).
Proof.
rewrite /score_init; case: (boolP (all isSome xs)) => /= Ha; last first.
  left; split=> //; elim: xs Ha => [|[y|] xs IH] //= H; last by exists None; split; [left|].
  by case: (IH H) => x [Hx Nx]; exists x; split; [right|].
right; exists (pmap id xs); split.
  by elim: xs Ha => [|[y|] xs IH] //= /IH {1}->.
case: (widths_spec (pmap id xs)) => [[-> H2]|[-> H2]] /=; last by left.
right; split=> //; set ys := pmap id xs.
case: (boolP (1 < _)%N) => Hu /=.
  split=> // -[_ Hw _]; exfalso.
  suff E : (1 < size (undup [seq nth 0%N (nshape y) 1 | y <- ys]))%N = false by rewrite E in Hu.
  apply/undup_all_equal => x y /List.in_map_iff [a [<- Ia]] /List.in_map_iff [b [<- Ib]]; exact: Hw.
move/negbTE/undup_all_equal: Hu => Hu.
have HW y y' : List.In y ys -> List.In y' ys -> nth 0%N (nshape y) 1 = nth 0%N (nshape y') 1.
  by move=> Hy Hy'; apply: Hu; apply: (List.in_map (fun y => nth 0%N (nshape y) 1)).
case: (boolP (has _ _)) => Hh /=.
  split=> // -[Hl _ _]; exfalso.
  by case/hasP: Hh => n /list_In /List.in_map_iff [y [<- Iy]] /eqP; apply: Hl.
have HL y : List.In y ys -> nlen y <> 1%N.
  move=> Hy E; move/negP: Hh; apply; apply/hasP; exists (nlen y); last by rewrite E.
  by apply/list_In/List.in_map.
by case: solver; split=> // N; [case: N | case: N].
Qed.
End ScoreInit.
Lemma score_init_other (V C : Type) (cov : nd V -> C) (solver : bool) :
  score_init cov (DOther V C) solver = Err TypeError.
Proof. by []. Qed.

Lemma nd_model_index_error (F : realFieldType) (h : hord) :
  exists (M : mat) (B gamma omegas psis : nd F),
    rows 1 2 M /\ nonneg M /\ size (nvals B) = foldr muln 1%N (nshape B) /\
    nd_model h (MkNd [:: 1%N; 2%N] (flatten M)) B gamma omegas psis = Err IndexError.
Proof.
exists (cons (cons Z0 (cons Z0 nil)) nil), (MkNd [:: 1%N; 2%N] [:: 0; 0]), (MkNd [::] [::]), (MkNd [::] [::]), (MkNd [::] [::]).
split; first by split=> // x [<-|[]].
by split=> // -[|[|i]] [|[|[|j]]] //=; lia.
Qed.
