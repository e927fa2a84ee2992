(** Every edge of a weighted DAG is the weakest in some units, and every order of the targets that of some units (C109). *)
From Coq Require Import ZArith List Permutation.
From mathcomp Require Import all_ssreflect all_algebra.
From Verif Require Import Base GraphSpec NumSpec CovSpec ListModel GraphModel TopoProofs NumModel ScoreModel MainModel MainSpec PruneProofs GenProofs Units2Proofs.
Set Implicit Arguments.
Unset Strict Implicit.
Unset Printing Implicit Defensive.
Import Order.Theory GRing.Theory Num.Theory.
Local Open Scope ring_scope.

(** Positions in a topological ordering *)
Lemma precedes_index (l : list nat) a b : NoDup l -> precedes l a b -> (index a l < index b l)%N.
Proof.
move=> /NoDup_uniq U [x [y [z E]]]; move: U; rewrite E cat_uniq => /and3P [_ /hasPn H U].
have xa : a \notin x by apply: H; rewrite inE eqxx.
have xb : b \notin x by apply: H; rewrite inE mem_cat inE eqxx !orbT.
rewrite !index_cat (negbTE xa) (negbTE xb) ltn_add2l /= eqxx.
case: eqP U => [->|//]; by rewrite /= mem_cat inE eqxx orbT.
Qed.

Section Any.
Variables (F : realFieldType) (p : nat).
Lemma any_edge_units (A : mat) (B : 'M[F]_p) (i j : 'I_p) : graph p A -> acyclic A -> NumSpec.supported A B -> B i j != 0 ->
  exists c, (forall k, 0 < c k) /\ weakest_edge (weights_in c B) = Ok (nat_of_ord i, nat_of_ord j).
Proof.
move=> [SQ NN] AC SU Bij; have p0 : (0 < p)%N by apply: leq_ltn_trans (ltn_ord i).
have [l [_ [P T]]] := @topological_ordering_ok ho_id p A SQ NN AC.
have ND : NoDup l by apply: Permutation_NoDup (Permutation_sym P) (seq_NoDup _ _).
have IN (k : 'I_p) : nat_of_ord k \in l.
  by apply/In_mem; apply: Permutation_in (Permutation_sym P) _; apply/in_seq; split=> //; [exact/ssrnat.leP | exact/ssrnat.ltP].
pose r (k : 'I_p) := index (nat_of_ord k) l.
have RI a b : r a = r b -> a = b by move=> E; apply: val_inj; rewrite /= -(nth_index 0%N (IN a)) -(nth_index 0%N (IN b)) -/(r a) E.
have RT a b : B a b != 0 -> (r a < r b)%N by move=> /SU /T; exact: precedes_index.
pose n k := if (r k < r i)%N then (r j - r i)%N else if (r k <= r j)%N then (r k - r i)%N else 0%N.
have Nij := RT _ _ Bij.
have ni : n i = 0%N by rewrite /n ltnn (ltnW Nij) subnn.
have nj : n j = (r j - r i)%N by rewrite /n ltnNge (ltnW Nij) /= leqnn.
have GAP a b : B a b != 0 -> (a, b) != (i, j) -> (n b < n a + n j)%N.
  move=> Bab N; have Rab := RT _ _ Bab; rewrite nj /n.
  have J0 : (0 < r j - r i)%N by rewrite subn_gt0.
  case: (ltnP (r b) (r i)) => bi; first by rewrite (ltn_trans Rab bi) -{1}[(r j - r i)%N]add0n ltn_add2r.
  case: (ltnP (r a) (r i)) => ai.
    apply: (@leq_ltn_trans (r j - r i)%N); last by rewrite -{1}[(r j - r i)%N]add0n ltn_add2r.
    by case: (leqP (r b) (r j)) => bj //; exact: leq_sub2r.
  case: (leqP (r b) (r j)) => bj; last by rewrite addn_gt0 J0 orbT.
  rewrite (leq_trans (ltnW Rab) bj).
  have [bj'|bj'] := ltnP (r b) (r j); first by apply: leq_trans (leq_addl _ _); rewrite ltn_sub2r.
  have Eb : b = j by apply: RI; apply/eqP; rewrite eqn_leq bj bj'.
  have Na : r i != r a by apply: contraNneq N => /RI ->; rewrite Eb.
  by rewrite Eb -{1}[(r j - r i)%N]add0n ltn_add2r subn_gt0 ltn_neqAle Na ai.
pose s := 1 + \sum_a \sum_b `|B i j| / `|B a b|.
have S0 a b : 0 <= `|B i j| / `|B a b| by rewrite divr_ge0.
have s1 : 1 <= s by rewrite ler_addl; apply: sumr_ge0 => a _; apply: sumr_ge0.
have s0 : 0 < s by apply: lt_le_trans s1.
have SB a b : B a b != 0 -> `|B i j| < s * `|B a b|.
  move=> Bab; rewrite -ltr_pdivr_mulr ?normr_gt0 // /s; apply: (@lt_le_trans _ _ (1 + `|B i j| / `|B a b|)); first by rewrite ltr_addr.
  rewrite ler_add2l (bigD1 a) //= (bigD1 b) //= -addrA ler_addl.
  by apply: addr_ge0; [apply: sumr_ge0 | apply: sumr_ge0 => x _; apply: sumr_ge0].
pose c k := (s ^+ n k)^-1; have c0 k : 0 < c k by rewrite invr_gt0 exprn_gt0.
have cE k : c k = (s ^+ n k)^-1 by [].
clearbody c; exists c; split=> //.
have W0 a b : (weights_in c B a b != 0) = (B a b != 0) by rewrite mxE !mulf_eq0 invr_eq0 (gt_eqF (c0 a)) (gt_eqF (c0 b)) !orbF.
have WN a b : `|weights_in c B a b| = `|B a b| * c b / c a by rewrite mxE !normrM normfV (gtr0_norm (c0 a)) (gtr0_norm (c0 b)).
have [a [b [-> [[Wab H]|[Z]]]]] := weakest_edge_spec (weights_in c B) p0; last by move: (W0 i j); rewrite Bij Z mxE eqxx.
have [/eqP [-> ->] //|N] := boolP ((a, b) == (i, j)).
move: (Wab); rewrite W0 => Bab; have := H i j; rewrite W0 => /(_ Bij); rewrite leNgt => /negP []; rewrite !WN.
rewrite [c i]cE ni expr0 !invr1 mulr1 ltr_pdivl_mulr ?c0 // -mulrA !cE -!invfM -exprD.
rewrite ltr_pdivr_mulr ?exprn_gt0 // mulrAC ltr_pdivl_mulr ?exprn_gt0 //.
have G := GAP _ _ Bab N; rewrite addnC -(subnKC G) exprD exprS mulrA mulrA.
apply: (@lt_le_trans _ _ (`|B a b| * s * s ^+ n b)).
  by rewrite ltr_pmul2r ?exprn_gt0 // mulrC SB.
by apply: ler_pemulr; [rewrite !mulr_ge0 ?exprn_ge0 ?normr_ge0 // ltW | exact: exprn_ege1].
Qed.
End Any.

Section AnyOrder.
Variables (F : realFieldType) (p e : nat).
Lemma any_order_units (l : nat) argsort (m : model F p l e) (js : seq nat) : sorts argsort -> Permutation js (List.seq 0 p) ->
  (forall j, exists a b, momegas m a j <> momegas m b j) ->
  exists c, (forall k, 0 < c k) /\
    forall m' : model F p l e, momegas m' = variances_in c (momegas m) -> argsort (variances m') = js.
Proof.
move=> HS P HV; pose v j := col_var (momegas m) j.
have v0 j : 0 < v j by have [a [b /col_var_gt0]] := HV j.
have U : uniq js by apply: NoDup_uniq; apply: Permutation_NoDup (Permutation_sym P) (seq_NoDup _ _).
have IN (k : 'I_p) : nat_of_ord k \in js.
  by apply/In_mem; apply: Permutation_in (Permutation_sym P) _; apply/in_seq; split=> //; [exact/ssrnat.leP | exact/ssrnat.ltP].
pose t := 1 + \sum_i \sum_j v i / v j.
have S0 i j : 0 <= v i / v j by rewrite divr_ge0 // ltW.
have t1 : 1 <= t by rewrite ler_addl; apply: sumr_ge0 => i _; apply: sumr_ge0.
have t0 : 0 < t by apply: lt_le_trans t1.
have T i j : v i < t * v j.
  rewrite -ltr_pdivr_mulr //; apply: (@lt_le_trans _ _ (1 + v i / v j)); first by rewrite ltr_addr ltr01.
  rewrite ler_add2l (bigD1 i) //= (bigD1 j) //= -addrA ler_addl.
  by apply: addr_ge0; [apply: sumr_ge0 | apply: sumr_ge0 => x _; apply: sumr_ge0].
exists (fun k => t ^+ index (nat_of_ord k) js); split=> [k|m' E]; first exact: exprn_gt0.
have LT (i j : 'I_p) : (index (nat_of_ord i) js < index (nat_of_ord j) js)%N -> col_var (momegas m') i < col_var (momegas m') j.
  rewrite E !col_var_in -!exprM -/(v i) -/(v j) => L.
  apply: (@lt_le_trans _ _ (t ^+ (index (nat_of_ord i) js * 4).+1 * v j)).
    by rewrite exprSr -mulrA ltr_pmul2l ?exprn_gt0.
  rewrite ler_pmul2r //; apply: ler_weexpn2l => //; by rewrite ltn_pmul2r.
have [P' H] := HS (variances m'); rewrite size_map size_enum_ord in P' H; move: (argsort _) P' H => ks P' H.
have Sk : size ks = p by rewrite -[size _]/(length _) (Permutation_length P') seq_length.
have Sj : size js = p by rewrite -[size _]/(length _) (Permutation_length P) seq_length.
have Uk : uniq ks by apply: NoDup_uniq; apply: Permutation_NoDup (Permutation_sym P') (seq_NoDup _ _).
have Kp k : (k < p)%N -> (nth 0%N ks k < p)%N.
  move=> Hk; have : In (nth 0%N ks k) ks by apply/In_mem; rewrite mem_nth ?Sk.
  by move=> /(Permutation_in _ P') /in_seq [_ /ssrnat.ltP].
have NV k (Hk : (k < p)%N) : nth 0 (variances m') k = col_var (momegas m') (Ordinal Hk).
  by rewrite /variances (nth_map (Ordinal Hk)) ?size_enum_ord // (_ : nth _ _ _ = Ordinal Hk) //; apply: val_inj; rewrite /= nth_enum_ord.
pose ix := [seq index k js | k <- ks].
have PE : perm_eq ks js.
  apply: uniq_perm => // k; apply/idP/idP => /In_mem H1; apply/In_mem.
    exact: Permutation_in (Permutation_sym P) (Permutation_in _ P' H1).
  exact: Permutation_in (Permutation_sym P') (Permutation_in _ P H1).
have IX : perm_eq ix (iota 0 p).
  apply: perm_trans (perm_map _ PE) _; rewrite (_ : [seq _ | _ <- js] = iota 0 p) //.
  apply: (@eq_from_nth _ 0%N); rewrite size_map ?size_iota // => k Hk.
  by rewrite (nth_map 0%N) // index_uniq // nth_iota -?Sj.
have SO : sorted leq ix.
  apply/(sortedP 0%N) => k; rewrite size_map Sk => Hk; rewrite !(nth_map 0%N) ?Sk //; last exact: ltnW.
  rewrite leqNgt; apply/negP => L.
  have Ha := Kp _ (ltnW Hk); have Hb := Kp _ Hk.
  have := H k k.+1; rewrite leqnn Hk => /(_ isT); rewrite (NV _ Ha) (NV _ Hb) leNgt => /negP []; exact: LT.
have EI : ix = iota 0 p by apply: (sorted_eq leq_trans anti_leq SO (iota_sorted 0 p) IX).
apply: (@eq_from_nth _ 0%N); rewrite ?Sk ?Sj // => k Hk.
have := congr1 (fun s => nth 0%N s k) EI; rewrite (nth_map 0%N) ?Sk // nth_iota // add0n => EK.
by rewrite -{2}EK nth_index // -(perm_mem PE) mem_nth ?Sk.
Qed.
End AnyOrder.
