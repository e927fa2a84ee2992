(** scaled_latent_incoherence and the incoherence of the latent effects. *)
From Coq Require Import ZArith List.
From mathcomp Require Import all_ssreflect all_algebra.
From Verif Require Import Base GraphModel GraphSpec NumModel NumSpec GenModel GenSpec GenProofs NumProofs IncoProofs IncoSpec.
Set Implicit Arguments.
Unset Strict Implicit.
Unset Printing Implicit Defensive.
Import Order.Theory GRing.Theory Num.Theory.
Local Open Scope nat_scope.
Local Open Scope ring_scope.

Section Value.
Variables (F : realFieldType) (h : hord) (p l e : nat) (svd : 'M[F]_(p, l) -> 'M[F]_(p, minn p l)).

Lemma effectsE (m : model F p l e) i :
  (1%:M - (mB m)^T)^T *m diag_mx (map_mx (fun x => x^-1) (row i (momegas m))) *m (mgamma m)^T = effects m i.
Proof.
apply/matrixP=> j k; rewrite [RHS]mxE [LHS]mxE.
under eq_bigr => j' _ do rewrite mul_mx_diag !mxE.
transitivity (\sum_j' ((j == j')%:R * (mgamma m k j' / momegas m i j') - mB m j j' * (mgamma m k j' / momegas m i j'))).
  by apply: eq_bigr => j' _; rewrite eq_sym mulrBl mulrBl; congr (_ - _); rewrite -mulrA [_^-1 * _]mulrC.
rewrite sumrB; congr (_ - _); rewrite (bigD1 j) //= eqxx mul1r bigop.big1 ?addr0 // => j' Hj.
by rewrite eq_sym (negbTE Hj) mul0r.
Qed.

Lemma factor_projection q (X : 'M[F]_(p, l)) (U : 'M[F]_(p, q)) : q = l -> left_factor X U -> \rank X = l -> U *m U^T = projection X.
Proof.
move=> E; case: _ / (esym E) U => {q E} U [HU [K [-> _]]] HR.
have KU : K \in unitmx.
  by rewrite -row_free_unit -row_leq_rank -{1}HR (mxrankM_maxr U K).
rewrite /projection trmx_mul.
have -> : K^T *m U^T *m (U *m K) = K^T *m K by rewrite mulmxA -[K^T *m U^T *m U]mulmxA HU mulmx1.
have KK : K^T *m K \in unitmx by rewrite unitmx_mul unitmx_tr KU.
suff E : K *m invmx (K^T *m K) *m K^T = 1%:M.
  by rewrite -(mulmx1 U) -{1}E !mulmxA mulmx1.
have KT : K^T \in unitmx by rewrite unitmx_tr.
rewrite -[LHS](mulKmx KT).
have -> : K^T *m (K *m invmx (K^T *m K) *m K^T) = K^T by rewrite !mulmxA (mulmxV KK) mul1mx.
by rewrite mulVmx.
Qed.

Lemma incoherence_max (m : model F p l e) : (0 < p)%N -> (0 < e)%N -> square p (mA m) -> nonneg (mA m) ->
  exists (d : nat) x, [/\ scaled_latent_incoherence h svd m = Ok (x * d%:R), moral_max m d,
    exists i j, x = (svd (effects m i) *m (svd (effects m i))^T) j j &
    forall i j, (svd (effects m i) *m (svd (effects m i))^T) j j <= x].
Proof.
move=> Hp He SA NA; have [d [E [H1 H2]]] := max_degree_spec h Hp SA NA.
rewrite /scaled_latent_incoherence E /=.
set f := fun i : 'I_e => _; have := @enum_map_nil e F f He.
pose P i := svd (effects m i) *m (svd (effects m i))^T.
have Hf i : (exists j, f i = P i j j) /\ forall j, P i j j <= f i.
  rewrite /f effectsE -/(P i).
  have [M1 M2] := foldl_max_spec (@enum_map_nil p F (fun j => P i j j) Hp).
  split; first by case/mapP: M1 => j _ ->; exists j.
  by move=> j; apply: M2; apply: map_f; rewrite mem_enum.
case Es: [seq f i | i <- enum 'I_e] => [//|y ys] _ /=.
exists d, (foldl Order.max y ys); rewrite ZF_nat; split=> //.
  have : foldl Order.max y ys \in [seq f i | i <- enum 'I_e] by rewrite Es; exact: foldl_max_in.
  by case/mapP => i _ ->; have [[j ->] _] := Hf i; exists i, j.
move=> i j; have [_ H] := Hf i; apply: le_trans (H j) _; apply: foldl_max_ge; rewrite -Es.
by apply: map_f; rewrite mem_enum.
Qed.

Lemma incoherence_value (m : model F p l e) : (0 < p)%N -> (0 < e)%N -> (l <= p)%N -> square p (mA m) -> nonneg (mA m) ->
  (forall i, left_factor (effects m i) (svd (effects m i)) /\ \rank (effects m i) = l) ->
  exists (d : nat) x, [/\ scaled_latent_incoherence h svd m = Ok (x * d%:R), moral_max m d & squared_incoherence m x].
Proof.
move=> Hp He Hl SA NA Hs; have [d [x [E H1 [i [j Ex]] H2]]] := incoherence_max Hp He SA NA.
have HP k : svd (effects m k) *m (svd (effects m k))^T = projection (effects m k).
  by have [H R] := Hs k; apply: factor_projection H R; apply/minn_idPr.
exists d, x; split=> //; split; first by exists i, j; rewrite Ex HP.
by move=> k k'; rewrite -HP.
Qed.

Lemma squared_unique (m : model F p l e) x y : squared_incoherence m x -> squared_incoherence m y -> x = y.
Proof.
move=> [[i [j Ex]] Hx] [[i' [j' Ey]] Hy]; apply/eqP; rewrite eq_le {1}Ex {2}Ey.
by apply/andP; split; [apply: Hy | apply: Hx].
Qed.

(** The incoherence is at most 1, and the square of it is what is returned *)
Lemma incoherence_root (m : model F p l e) c : (0 < p)%N -> (0 < e)%N -> (l <= p)%N -> square p (mA m) -> nonneg (mA m) ->
  (forall i, left_factor (effects m i) (svd (effects m i)) /\ \rank (effects m i) = l) ->
  0 <= c -> squared_incoherence m (c ^+ 2) ->
  exists (d : nat) y, [/\ scaled_latent_incoherence h svd m = Ok y, moral_max m d, y = c * (c * d%:R), y <= c * d%:R &
    y = c * d%:R <-> [\/ d = 0%N, c = 0 | c = 1]].
Proof.
move=> Hp He Hl SA NA Hs c0 Hc; have [d [x [E Hd Hx]]] := incoherence_value Hp He Hl SA NA Hs.
have c1 : c ^+ 2 <= 1.
  case: Hc => -[i [j ->]] _; have [[HU HK] R] := Hs i.
  rewrite -(@factor_projection _ _ (svd (effects m i))) //; last exact/minn_idPr.
  by case: (proj_diag HU j).
have C1 : c <= 1 by rewrite -(@ler_pexpn2r _ 2) ?nnegrE ?expr1n ?ler01.
exists d, (x * d%:R); rewrite (squared_unique Hx Hc) in E *.
have EE : c ^+ 2 * d%:R = c * (c * d%:R) by rewrite expr2 mulrA.
have D0 : 0 <= c * d%:R by rewrite mulr_ge0 // ler0n.
split=> //; first by rewrite EE -[X in _ <= X]mul1r ler_wpmul2r.
rewrite EE; split; last by case=> [->|->|->]; rewrite ?mulr0 ?mul0r ?mul1r.
move/eqP; rewrite -{2}[c * d%:R]mul1r -subr_eq0 -mulrBl !mulf_eq0 subr_eq0 pnatr_eq0.
by case/or3P => /eqP ->; [apply: Or33 | apply: Or32 | apply: Or31].
Qed.
End Value.

(** With dependent latent effects the value depends on the decomposition *)
Section Rank.
Variable F : realFieldType.
Definition rank_A : mat := ((Z0 :: Zpos xH :: Z0 :: nil) :: (Z0 :: Z0 :: Z0 :: nil) :: (Z0 :: Z0 :: Z0 :: nil) :: nil)%list.
Definition vec (n : nat) (a b c : F) (j : nat) : F := nth 0 [:: a; b; c] j / n%:R.
Definition rank_v := vec 3 2%:R 2%:R 1.
Definition rank_model : model F 3 2 1 :=
  @MkModel F 3 2 1 rank_A 0 (\matrix_(k, j) rank_v j) (const_mx 1) (const_mx 1) 1%:M.
Definition rank_U (u : nat -> F) : 'M[F]_(3, minn 3 2) := \matrix_(j, k) (if k == 0%N :> nat then rank_v j else u j).

Lemma rank_effects i : effects rank_model i = \matrix_(j, k) rank_v j.
Proof.
apply/matrixP=> j k; rewrite !mxE divr1 bigop.big1 ?subr0 // => j' _; by rewrite mxE mul0r.
Qed.

Definition dot (u v : nat -> F) : F := u 0%N * v 0%N + u 1%N * v 1%N + u 2%N * v 2%N.
Lemma rank_factor (u : nat -> F) i : dot u u = 1 -> dot u rank_v = 0 -> dot rank_v rank_v = 1 -> left_factor (effects rank_model i) (rank_U u).
Proof.
move=> H1 H2 H3; split.
  apply/matrixP=> k k'; rewrite mxE !big_ord_recr big_ord0 /= add0r !mxE.
  case: k k' => [[|[|//]] ?] [[|[|//]] ?] /=.
  - exact: H3.
  - by rewrite -[RHS]H2 /dot ![rank_v _ * _]mulrC.
  - exact: H2.
  exact: H1.
exists (\matrix_(k, k') (k == 0%N :> nat)%:R); split.
  apply/matrixP=> j k; rewrite rank_effects !mxE !big_ord_recr big_ord0 /= add0r !mxE /=.
  by rewrite mulr1 mulr0 addr0.
apply/is_diag_mxP => k k' Hk; rewrite mxE !big_ord_recr big_ord0 /= add0r !mxE.
by move: k k' Hk => [[|[|//]] ?] [[|[|//]] ?] //= _; rewrite ?mulr0 ?mul0r ?addr0.
Qed.
End Rank.

Lemma rank_diag (F : realFieldType) (u : nat -> F) (j : 'I_3) : (rank_U u *m (rank_U u)^T) j j = rank_v F j * rank_v F j + u j * u j.
Proof. by rewrite mxE !big_ord_recr big_ord0 /= add0r !mxE. Qed.

Notation RQ := rat_realFieldType.
Definition rank_u : nat -> RQ := vec 3 (- 2%:R) 1 2%:R.
Definition rank_u' : nat -> RQ := vec 15 (- 2%:R) (- 5%:R) 14%:R.

Lemma rank_dots : [/\ dot rank_u rank_u = 1, dot rank_u (rank_v RQ) = 0, dot rank_u' rank_u' = 1, dot rank_u' (rank_v RQ) = 0 &
  dot (rank_v RQ) (rank_v RQ) = 1].
Proof. by split; apply/eqP; vm_compute. Qed.

Lemma rank_square : square 3 rank_A /\ nonneg rank_A.
Proof.
split; first by split=> //; repeat constructor.
by move=> [|[|[|[|i]]]] [|[|[|[|j]]]].
Qed.

Lemma rank_metric h (u : nat -> RQ) M (j0 : 'I_3) : (forall j : 'I_3, rank_v RQ j * rank_v RQ j + u j * u j <= M) -> rank_v RQ j0 * rank_v RQ j0 + u j0 * u j0 = M ->
  exists d : nat, scaled_latent_incoherence h (fun=> rank_U u) (rank_model RQ) = Ok (M * d%:R) /\ moral_max (rank_model RQ) d.
Proof.
move=> HM Hj; have [SA NA] := rank_square.
have [d [x [E Hd [i [j Ex]] Hx]]] := @incoherence_max RQ h 3 2 1 (fun=> rank_U u) (rank_model RQ) isT isT SA NA.
exists d; split=> //; rewrite E; congr (Ok (_ * _)); apply/eqP; rewrite eq_le.
by rewrite {1}Ex rank_diag HM -Hj -rank_diag (Hx ord0).
Qed.

Lemma rank_edge i j : edge rank_A i j -> i = 0%N /\ j = 1%N.
Proof. by rewrite /edge; move: i j => [|[|[|[|i]]]] [|[|[|[|j]]]] // H; case: H. Qed.
Lemma rank_degree : moral_degree rank_A 0 1.
Proof.
exists [:: 1%N]; split; first by repeat constructor => /=; intuition.
split=> // i; split; first by case=> [<-|[]]; left; right.
case=> [[/rank_edge [_ //]|/rank_edge [_ ->]]|[c [[/rank_edge [-> _] _] [_ [N _]]]]]; first by left.
by case: N.
Qed.

Lemma frac_le (F : realFieldType) a b n : (a <= b)%N -> (0 < n)%N -> a%:R / n%:R <= b%:R / n%:R :> F.
Proof. by move=> H Hn; rewrite ler_pmul2r ?ler_nat // invr_gt0 ltr0n. Qed.
Lemma frac_lt (F : realFieldType) a b n d : (a < b)%N -> (0 < n)%N -> (0 < d)%N -> a%:R / n%:R * d%:R < b%:R / n%:R * d%:R :> F.
Proof. by move=> H Hn Hd; rewrite ltr_pmul2r ?ltr0n // ltr_pmul2r ?ltr_nat // invr_gt0 ltr0n. Qed.

Lemma rank_metric2 h (u : nat -> RQ) (ns : seq nat) (j0 : 'I_3) :
  (forall j : 'I_3, rank_v RQ j * rank_v RQ j + u j * u j = (nth 0%N ns j)%:R / 225%:R) -> (forall j, nth 0%N ns j <= nth 0%N ns j0)%N ->
  exists d : nat, scaled_latent_incoherence h (fun=> rank_U u) (rank_model RQ) = Ok ((nth 0%N ns j0)%:R / 225%:R * d%:R) /\ moral_max (rank_model RQ) d.
Proof.
move=> HE HM; apply: (@rank_metric h u _ j0); last exact: HE.
move=> j.
rewrite HE; apply: frac_le; first exact: HM.
exact: (isT : (0 < 225)%N).
Qed.

Lemma rank_squares (j : 'I_3) :
  rank_v RQ j * rank_v RQ j + rank_u j * rank_u j = (nth 0%N [:: 200; 125; 125]%N j)%:R / 225%:R /\
  rank_v RQ j * rank_v RQ j + rank_u' j * rank_u' j = (nth 0%N [:: 104; 125; 221]%N j)%:R / 225%:R.
Proof.
case: j => [[|[|[|//]]] Hj] /=; rewrite {Hj}; split; apply/eqP; vm_compute; reflexivity.
Qed.

Lemma incoherence_rank h : exists (m : model RQ 3 2 1) (svd svd' : 'M[RQ]_(3, 2) -> 'M[RQ]_(3, minn 3 2)) x x',
  [/\ square 3 (mA m) /\ nonneg (mA m), forall i, left_factor (effects m i) (svd (effects m i)), forall i, left_factor (effects m i) (svd' (effects m i)),
    scaled_latent_incoherence h svd m = Ok x /\ scaled_latent_incoherence h svd' m = Ok x' & x < x'].
Proof.
have [D1 D2 D3 D4 D5] := rank_dots.
have [d [E [[v [Hv Hd]] H]]] := @rank_metric2 h rank_u [:: 200; 125; 125]%N ord0 (fun j => proj1 (rank_squares j)) ltac:(by case=> [|[|[|[|j]]]]).
have [d' [E' [[v' [Hv' Hd']] H']]] := @rank_metric2 h rank_u' [:: 104; 125; 221]%N ord_max (fun j => proj2 (rank_squares j)) ltac:(by case=> [|[|[|[|j]]]]).
have Ed : d' = d by apply/anti_leq; rewrite (H _ _ Hv' Hd') (H' _ _ Hv Hd).
rewrite {}Ed {Hv' Hd' H' d'} in E'.
exists (rank_model RQ), (fun=> rank_U rank_u), (fun=> rank_U rank_u'), (200%:R / 225%:R * d%:R), (221%:R / 225%:R * d%:R); split.
- exact: rank_square.
- by move=> i; apply: rank_factor.
- by move=> i; apply: rank_factor.
- by split; [exact: E | exact: E'].
apply: frac_lt; [exact: (isT : (200 < 221)%N) | exact: (isT : (0 < 225)%N) | exact: (H 0%N 1%N isT rank_degree)].
Qed.

(** One latent with effects 3 and 4 *)
Definition root_A : mat := ((Z0 :: Zpos xH :: nil) :: (Z0 :: Z0 :: nil) :: nil)%list.
Definition root_v (j : nat) : RQ := nth 0 [:: 3%:R; 4%:R] j.
Definition root_model : model RQ 2 1 1 :=
  @MkModel RQ 2 1 1 root_A 0 (\matrix_(k, j) root_v j) (const_mx 1) (const_mx 1) 1%:M.
Definition root_U : 'M[RQ]_(2, minn 2 1) := \matrix_(j, k) (root_v j / 5%:R).

Lemma root_square : square 2 root_A /\ nonneg root_A.
Proof.
split; first by split=> //; repeat constructor.
by move=> [|[|[|i]]] [|[|[|j]]].
Qed.

Lemma root_UU : root_U^T *m root_U = 1%:M.
Proof.
apply/matrixP=> k k'; rewrite mxE !big_ord_recr big_ord0 /= add0r !mxE.
case: k k' => [[|//] ?] [[|//] ?]; apply/eqP; vm_compute; reflexivity.
Qed.

Lemma root_factor i : left_factor (effects root_model i) root_U /\ \rank (effects root_model i) = 1%N.
Proof.
have E : effects root_model i = root_U *m (const_mx 5%:R : 'M_(minn 2 1, 1)).
  apply/matrixP=> j k; rewrite !mxE divr1 bigop.big1 ?subr0; last by move=> j' _; rewrite mxE mul0r.
  rewrite big_ord_recr big_ord0 /= add0r !mxE; case: j => [[|[|//]] ?]; apply/eqP; vm_compute; reflexivity.
split.
  split; first exact: root_UU.
  exists (const_mx 5%:R); split; first exact: E.
  by apply/is_diag_mxP => -[[|//] ?] [[|//] ?].
apply/anti_leq/andP; split; first exact: rank_leq_col.
have /mulmx1_min_rank // : root_U^T *m effects root_model i *m const_mx (5%:R)^-1 = 1%:M.
rewrite E mulmxA root_UU mul1mx; apply/matrixP=> k k'; rewrite mxE big_ord_recr big_ord0 /= add0r !mxE.
case: k k' => [[|//] ?] [[|//] ?]; apply/eqP; vm_compute; reflexivity.
Qed.

Lemma root_squared : squared_incoherence root_model ((4%:R / 5%:R) ^+ 2).
Proof.
have E i (j : 'I_2) : projection (effects root_model i) j j = (root_v j / 5%:R) ^+ 2.
  have [H R] := root_factor i; rewrite -(@factor_projection _ _ _ _ _ root_U _ H R) // mxE big_ord_recr big_ord0 /= add0r !mxE.
  by rewrite expr2.
split; first by exists ord0, ord_max; rewrite E.
move=> i j; rewrite E; case: j => [[|[|//]] ?]; last exact: lexx.
rewrite ler_pexpn2r // ?nnegrE ?divr_ge0 ?ler0n //; rewrite ler_pmul2r ?invr_gt0 ?ltr0n //; rewrite ler_nat //.
Qed.

Lemma root_degree : moral_degree root_A 0 1.
Proof.
have edgeE i j : edge root_A i j -> i = 0%N /\ j = 1%N.
  by rewrite /edge; move: i j => [|[|[|i]]] [|[|[|j]]] // H; case: H.
exists [:: 1%N]; split; first by repeat constructor => /=; intuition.
split=> // i; split; first by case=> [<-|[]]; left; right.
case=> [[/edgeE [_ //]|/edgeE [_ ->]]|[c [[/edgeE [-> _] _] [_ [N _]]]]]; first by left.
by case: N.
Qed.

Lemma incoherence_wrong h : exists (m : model RQ 2 1 1) (svd : 'M[RQ]_(2, 1) -> 'M[RQ]_(2, minn 2 1)) c d y,
  [/\ square 2 (mA m) /\ nonneg (mA m), forall i, left_factor (effects m i) (svd (effects m i)) /\ \rank (effects m i) = 1%N,
    0 <= c /\ squared_incoherence m (c ^+ 2), moral_max m d &
    scaled_latent_incoherence h svd m = Ok y /\ y < c * d%:R].
Proof.
have [SA NA] := root_square.
have c0 : 0 <= 4%:R / 5%:R :> RQ by rewrite divr_ge0 ?ler0n.
have [d [y [E Hd Ey Hle Heq]]] := @incoherence_root RQ h 2 1 1 (fun=> root_U) root_model _ isT isT isT SA NA root_factor c0 root_squared.
exists root_model, (fun=> root_U), (4%:R / 5%:R), d, y; split.
- exact: root_square.
- exact: root_factor.
- by split; [exact: c0 | exact: root_squared].
- exact: Hd.
split; first exact: E.
rewrite lt_neqAle Hle andbT; apply/eqP => /Heq [D|C|C].
- by have := proj2 Hd 0%N 1%N isT root_degree; rewrite D.
- by move/eqP: C; vm_compute.
- by move/eqP: C; vm_compute.
Qed.
