(** The pruning orders and the units of the variables (C109). *)
From Coq Require Import ZArith List.
From mathcomp Require Import all_ssreflect all_algebra.
From Verif Require Import Base FieldTac GraphSpec NumSpec CovSpec NumModel ScoreModel MainModel MainSpec PruneProofs UtilNumModel UtilNumProofs.
Set Implicit Arguments.
Unset Strict Implicit.
Unset Printing Implicit Defensive.
Import Order.Theory GRing.Theory Num.Theory.
Local Open Scope ring_scope.

Section Edges.
Variables (F : realFieldType) (p : nat).
Definition unit_at (k : 'I_p) (t : F) (i : 'I_p) : F := if i == k then t else 1.
Lemma unit_at_gt0 k t i : 0 < t -> 0 < unit_at k t i.
Proof. by move=> t0; rewrite /unit_at; case: ifP => // _; exact: ltr01. Qed.

Lemma weaker (B : 'M[F]_p) (i j x y : 'I_p) : i != j -> x != y -> (i, j) != (x, y) -> B i j != 0 -> B x y != 0 ->
  exists c, (forall k, 0 < c k) /\ `|weights_in c B i j| < `|weights_in c B x y|.
Proof.
move=> ij xy N Bij Bxy; pose t := 1 + `|B i j| / `|B x y|.
have b0 : 0 < `|B x y| by rewrite normr_gt0.
have a0 : 0 < `|B i j| by rewrite normr_gt0.
have t1 : 1 < t by rewrite ltr_addl divr_gt0.
have t0 : 0 < t by apply: lt_trans t1.
have tb : `|B i j| < t * `|B x y| by rewrite mulrDl mul1r divfK ?gt_eqF // ltr_addr.
have [ix|ix] := boolP (i == x).
  have jy : y != j by apply: contraNneq N => ->; rewrite (eqP ix).
  exists (unit_at j t^-1); split=> [k|]; first by rewrite unit_at_gt0 ?invr_gt0.
  have xj : x == j = false by rewrite -(eqP ix) (negbTE ij).
  rewrite !mxE /unit_at eqxx (negbTE ij) (negbTE jy) xj invr1 !mulr1 normrM normfV (gtr0_norm t0).
  by rewrite ltr_pdivr_mulr // [X in _ < X]mulrC.
exists (unit_at i t); split=> [k|]; first by rewrite unit_at_gt0.
rewrite !mxE /unit_at eqxx [j == i]eq_sym (negbTE ij) [x == i]eq_sym (negbTE ix) invr1 !mulr1 normrM normfV (gtr0_norm t0).
rewrite ltr_pdivr_mulr //; case: ifP => _; last by rewrite mulr1 [X in _ < X]mulrC.
rewrite normrM (gtr0_norm t0) -mulrA [X in _ < X]mulrC; apply: lt_le_trans tb _.
by rewrite ler_wpmul2r ?(ltW b0) // -[X in X <= _]mulr1 ler_wpmul2l ?ltW.
Qed.
Lemma edge_units (B : 'M[F]_p) (i j x y : 'I_p) : (forall k, B k k = 0) -> (i, j) <> (x, y) -> B i j != 0 -> B x y != 0 ->
  exists c, (forall k, 0 < c k) /\ weakest_edge (weights_in c B) <> weakest_edge B.
Proof.
move=> D N Bij Bxy; have p0 : (0 < p)%N by apply: leq_ltn_trans (ltn_ord i).
have [a [b [E [[Bab H]|[Z]]]]] := weakest_edge_spec B p0; last by rewrite Z mxE eqxx in Bij.
have [u [v [Nuv Buv]]] : exists u v, (u, v) != (a, b) /\ B u v != 0.
  have [/eqP E1|] := boolP ((i, j) == (a, b)); last by exists i, j.
  by exists x, y; split=> //; rewrite -E1; apply/eqP => E2; apply: N.
have off s t : B s t != 0 -> s != t by apply: contraNneq => ->; rewrite D.
have [c [c0 L]] := weaker (off _ _ Buv) (off _ _ Bab) Nuv Buv Bab.
exists c; split=> // E'.
have Wuv : weights_in c B u v != 0 by rewrite mxE !mulf_neq0 // ?invr_eq0 gt_eqF.
have [a' [b' [Ew [[_ H']|[Z]]]]] := weakest_edge_spec (weights_in c B) p0; last by rewrite Z mxE eqxx in Wuv.
move: Ew; rewrite E' E => -[/val_inj Ea /val_inj Eb]; have := H' _ _ Wuv.
by rewrite -Ea -Eb leNgt L.
Qed.
(** A common unit changes nothing. *)
Lemma edge_common (B : 'M[F]_p) (t : F) : t != 0 -> weakest_edge (weights_in (fun=> t) B) = weakest_edge B.
Proof.
move=> t0; congr weakest_edge; by apply/matrixP => i j; rewrite mxE mulfK.
Qed.
End Edges.

Section Targets.
Variables (F : realFieldType) (p e : nat).
Lemma col_var_in c (o : 'M[F]_(e, p)) j : col_var (variances_in c o) j = c j ^+ 4 * col_var o j.
Proof.
have EM : col_mean (variances_in c o) j = c j ^+ 2 * col_mean o j.
  by rewrite /col_mean mulrA mulr_sumr; congr (_ / _); apply: eq_bigr => k _; rewrite mxE mulrC.
rewrite /col_var EM mulrA mulr_sumr; congr (_ / _); apply: eq_bigr => k _.
by rewrite mxE mulrC -mulrBr exprMn -exprM.
Qed.
Lemma target_units (argsort : seq F -> seq nat) (o : 'M[F]_(e, p)) (i j : 'I_p) : sorts argsort ->
  i <> j -> 0 < col_var o i -> 0 < col_var o j ->
  let order o := argsort [seq col_var o k | k <- enum 'I_p] in
  exists c, (forall k, 0 < c k) /\ order (variances_in c o) <> order o.
Proof.
move=> HS ij vi vj order.
have IN o' : increasing p (fun k => nth 0 [seq col_var o' k | k <- enum 'I_p] k) (order o').
  by have := HS [seq col_var o' k | k <- enum 'I_p]; rewrite size_map size_enum_ord.
have NV o' (k : 'I_p) : nth 0 [seq col_var o' k | k <- enum 'I_p] k = col_var o' k.
  by rewrite (nth_map k) ?size_enum_ord // nth_ord_enum.
have Pos (k : 'I_p) : exists2 a, (a < p)%N & nth 0%N (order o) a = k.
  have [P _] := IN o; have S : size (order o) = p by rewrite -[size _]/(length _) (Permutation.Permutation_length P) List.seq_length.
  have : List.In (nat_of_ord k) (order o).
    by apply: Permutation.Permutation_in (Permutation.Permutation_sym P) _; apply/List.in_seq; split=> //; [exact/ssrnat.leP | exact/ssrnat.ltP].
  by move=> /(List.In_nth _ _ 0%N) [a [/ssrnat.ltP Ha <-]]; exists a; rewrite -?S // ListnthE.
(* a column that comes later is made the least variable *)
have core (u v : 'I_p) (a b : nat) : (a < b < p)%N -> nth 0%N (order o) a = u -> nth 0%N (order o) b = v -> u != v -> 0 < col_var o u ->
    0 < col_var o v -> exists c, (forall k, 0 < c k) /\ order (variances_in c o) <> order o.
  move=> ab Ea Eb uv vu vv; pose t := 1 + col_var o v / col_var o u.
  have t1 : 1 < t by rewrite ltr_addl divr_gt0.
  exists (unit_at u t); split=> [k|E]; first by apply: unit_at_gt0; apply: lt_trans t1.
  have [_ H] := IN (variances_in (unit_at u t) o); have := H a b ab; rewrite E Ea Eb !NV !col_var_in /unit_at eqxx.
  rewrite [v == u]eq_sym (negbTE uv) expr1n mul1r leNgt => /negP; apply.
  apply: (@lt_le_trans _ _ (t * col_var o u)); first by rewrite mulrDl mul1r divfK ?gt_eqF // ltr_addr.
  by rewrite ler_wpmul2r ?(ltW vu) // ler_eexpr // ltW.
have [a Ha Ea] := Pos i; have [b Hb Eb] := Pos j; have ij' : i != j by apply/eqP.
case: (ltngtP a b) => ab; [apply: (core i j a b) | apply: (core j i b a) | ] => //; try by rewrite ab.
  by rewrite eq_sym.
by case: ij; apply: val_inj => /=; rewrite -Ea -Eb ab.
Qed.
(** A common unit changes the order of no two of the variances. *)
Lemma target_common (o : 'M[F]_(e, p)) (t : F) (i j : 'I_p) : t != 0 ->
  (col_var (variances_in (fun=> t) o) i <= col_var (variances_in (fun=> t) o) j) = (col_var o i <= col_var o j).
Proof. by move=> t0; rewrite !col_var_in ler_pmul2l // exprn_even_gt0 //= t0. Qed.
(** Nor would any units with normalised variances. *)
Lemma normalised_units c (o : 'M[F]_(e, p)) : (forall j, c j != 0) ->
  normalized_var (variances_in c o) (Some Z0) = normalized_var o (Some Z0).
Proof.
move=> c0; rewrite /normalized_var /=; congr Ok; apply: eq_map => j.
have := @nvar_scale F (c j ^+ 2) [seq o i j | i <- enum 'I_e]; rewrite expf_eq0 /= => /(_ (c0 j)) <-; rewrite -map_comp.
by congr nvar; apply: eq_map => k; rewrite /= mxE mulrC.
Qed.
Lemma col_var_gt0 (o : 'M[F]_(e, p)) j a b : o a j <> o b j -> 0 < col_var o j.
Proof.
move=> N; have e0 : (0 < e)%N by apply: leq_ltn_trans (ltn_ord a).
rewrite divr_gt0 ?ltr0n // lt_def sumr_ge0 ?andbT; last by move=> k _; rewrite sqr_ge0.
apply/negP; rewrite psumr_eq0 => [/allP H|k _]; last by rewrite sqr_ge0.
have E k : o k j = col_mean o j by have := H k (mem_index_enum k); rewrite sqrf_eq0 subr_eq0 => /eqP.
by apply: N; rewrite !E.
Qed.
Lemma targets_units (l : nat) argsort (m : model F p l e) (i j : 'I_p) : sorts argsort -> i <> j ->
  (exists a b, momegas m a i <> momegas m b i) -> (exists a b, momegas m a j <> momegas m b j) ->
  exists c, (forall k, 0 < c k) /\
    forall m' : model F p l e, momegas m' = variances_in c (momegas m) -> argsort (variances m') <> argsort (variances m).
Proof.
move=> HS ij [a [b /col_var_gt0 Ni]] [a' [b' /col_var_gt0 Nj]].
have [c [c0 H]] := target_units HS ij Ni Nj; exists c; split=> // m' E.
by rewrite /variances E.
Qed.
End Targets.
Lemma common_units : forall (F : realFieldType) (p : nat) (t : F), t != 0 ->
  (forall B : 'M[F]_p, weakest_edge (weights_in (fun=> t) B) = weakest_edge B) /\
  forall e (o : 'M[F]_(e, p)) (i j : 'I_p),
    (col_var (variances_in (fun=> t) o) i <= col_var (variances_in (fun=> t) o) j) = (col_var o i <= col_var o j).
Proof. move=> F p t t0; split; [move=> B; exact (edge_common B t0)|move=> e o i j; exact (target_common o i j t0)]. Qed.
