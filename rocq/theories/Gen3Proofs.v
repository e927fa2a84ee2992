(** Lemmas on _dag_avg_deg, intervention_targets and the two model generators. *)
From Coq Require Import ZArith Lia Permutation.
From mathcomp Require Import all_ssreflect all_algebra.
From Verif Require Import Base GraphModel GraphSpec TopoProofs CompelledProofs EnumProofs NumModel NumSpec LinAlgProofs
  NumProofs GenModel GenSpec GenProofs Gen2Proofs.
Set Implicit Arguments.
Unset Strict Implicit.
Unset Printing Implicit Defensive.
Import Order.Theory GRing.Theory Num.Theory.
Local Open Scope nat_scope.
Local Open Scope ring_scope.

Lemma perm_Permutation (s t : seq nat) : perm_eq s t -> Permutation s t.
Proof.
elim: s t => [|x s IH] t P.
  by move: P; rewrite perm_sym => /perm_nilP ->.
have XT : x \in t by rewrite -(perm_mem P) mem_head.
case: (path.splitPr XT) P => t1 t2 P.
apply: Permutation_cons_app; apply: IH.
by rewrite -(perm_cons x); apply: (perm_trans P); rewrite -cat1s perm_catCA cat1s.
Qed.

(** A list sorted by a key lists small keys first *)
Lemma sorted_precedes (key : nat -> nat) s i j : sorted (fun a b => (key a <= key b)%N) s ->
  i \in s -> j \in s -> (key i < key j)%N -> precedes s i j.
Proof.
have tr : transitive (fun a b : nat => (key a <= key b)%N) by move=> y x z; exact: leq_trans.
elim: s => // x s IH /= Ss; have := order_path_min tr Ss => /allP Hx.
rewrite !inE => /orP [/eqP ->|Hi] /orP [/eqP ->|Hj] Hk; first by rewrite ltnn in Hk.
- case/splitPr: Hj => b c; by exists [::], b, c.
- by have := Hx _ Hi; rewrite leqNgt Hk.
have [a [b [c E]]] := IH (path_sorted Ss) Hi Hj Hk; exists (x :: a), b, c; by rewrite E.
Qed.

Section Dag.
Variables (F : realFieldType) (g : generator F) (st0 : gst g) (p : nat) (k w_min w_max : F) (ro : bool) (rs : option Z).
Hypothesis Hg : fair g.

Lemma dag_value : p <> 1%N -> exists (u w : nat -> nat -> F) (perm : seq nat),
  (forall i j, (i < p)%N -> (j < p)%N -> within 0 1 (u i j)) /\
  (w_min <= w_max -> forall i j, (i < p)%N -> (j < p)%N -> within w_min w_max (w i j)) /\
  perm_eq perm (iota 0 p) /\
  dag_avg_deg st0 p k w_min w_max ro rs =
  Ok (fun i j => let a := nth 0%N perm i in let c := nth 0%N perm j in
                 (if (a < c)%N && (u a c <= k / (p%:R - 1)) then 1 else 0) * w a c,
      if ro then Some (sort (fun i j => (nth 0%N perm i <= nth 0%N perm j)%N) (iota 0 p)) else None).
Proof.
move=> /eqP /negPf Hp; rewrite /dag_avg_deg Hp; set st := if rs is Some z then g_seed g z else st0.
set u := g_uniform st _ _ _ _; set w := g_uniform u.2 _ _ _ _; set pe := g_permutation w.2 p.
exists u.1, w.1, pe.1; split; [|split; [|split]] => //; last exact: fair_permutation.
  by move=> i j Hi Hj; apply: within_uniform => //; rewrite ler01.
by move=> H i j Hi Hj; apply: within_uniform.
Qed.

Lemma perm_nth_lt perm i : perm_eq perm (iota 0 p) -> (i < p)%N -> (nth 0%N perm i < p)%N.
Proof.
move=> HP Hi; have Hs : size perm = p by rewrite (perm_size HP) size_iota.
have : nth 0%N perm i \in perm by rewrite mem_nth ?Hs.
by rewrite (perm_mem HP) mem_iota.
Qed.

Lemma perm_nth_inj perm i j : perm_eq perm (iota 0 p) -> (i < p)%N -> (j < p)%N ->
  nth 0%N perm i = nth 0%N perm j -> i = j.
Proof.
move=> HP Hi Hj /eqP; have Hs : size perm = p by rewrite (perm_size HP) size_iota.
by rewrite nth_uniq ?Hs // ?(perm_uniq HP) ?iota_uniq // => /eqP.
Qed.

Lemma dag_spec : p <> 1%N -> exists W ord,
  dag_avg_deg st0 p k w_min w_max ro rs = Ok (W, if ro then Some ord else None) /\
  (forall A, graph_of p W A -> acyclic A /\ topo_order p A ord) /\
  (w_min <= w_max -> forall i j, (i < p)%N -> (j < p)%N -> W i j <> 0 -> within w_min w_max (W i j)).
Proof.
move=> Hp; have [u [w [perm [Hu [Hw [HP E]]]]]] := dag_value Hp.
exists (fun i j => let a := nth 0%N perm i in let c := nth 0%N perm j in
                 (if (a < c)%N && (u a c <= k / (p%:R - 1)) then 1 else 0) * w a c).
exists (sort (fun i j => (nth 0%N perm i <= nth 0%N perm j)%N) (iota 0 p)); split=> //; split.
  move=> A [SA HA].
  have Hlt i j : edge A i j -> [/\ (i < p)%N, (j < p)%N & (nth 0%N perm i < nth 0%N perm j)%N].
    move=> Hij; have [/ssrnat.ltP Hi /ssrnat.ltP Hj] := get_lt SA Hij; split=> //.
    by have /(HA _ _ Hi Hj) /= := Hij; case: ltnP => //=; rewrite mul0r.
  split; first by apply: (@acyclic_measure _ (nth 0%N perm)) => i j /Hlt [_ _ /ssrnat.ltP].
  split; first by apply: perm_Permutation; rewrite perm_sort perm_refl.
  move=> i j /Hlt [Hi Hj H]; apply: (@sorted_precedes (nth 0%N perm)) => //; rewrite ?mem_sort ?mem_iota //.
  by apply: sort_sorted => a c; exact: leq_total.
move=> Hww i j Hi Hj /=; case: ifP => _; rewrite ?mul0r ?mul1r // => _.
by apply: Hw => //; apply: perm_nth_lt.
Qed.

Lemma dag_complete : (1 < p)%N -> p%:R - 1 <= k -> 0 < w_min -> w_min <= w_max -> exists W o,
  dag_avg_deg st0 p k w_min w_max ro rs = Ok (W, o) /\
  forall i j, (i < p)%N -> (j < p)%N -> i <> j -> W i j <> 0 \/ W j i <> 0.
Proof.
move=> Hp Hk w0 Hww; have [|u [w [perm [Hu [Hw [HP E]]]]]] := dag_value; first by slia.
do 2!eexists; split; first exact: E.
have P0 : 0 < p%:R - 1 :> F by rewrite subr_gt0 -{1}[1]mulr1n ltr_nat.
have Hu1 i j : (i < p)%N -> (j < p)%N -> u i j <= k / (p%:R - 1).
  move=> Hi Hj; have [_ H] := Hu i j Hi Hj; apply: le_trans H _; by rewrite ler_pdivl_mulr // mul1r.
have Hw0 i j : (i < p)%N -> (j < p)%N -> w i j <> 0.
  by move=> Hi Hj H; have [H1 _] := Hw Hww i j Hi Hj; move: (lt_le_trans w0 H1); rewrite H ltxx.
move=> i j Hi Hj Nij /=.
have := perm_nth_lt HP Hi; have := perm_nth_lt HP Hj.
have := perm_nth_inj HP Hi Hj; set a := nth _ perm i; set c := nth _ perm j => Hac Hc Ha.
case: (ltngtP a c) => H; last by case: Nij; apply: Hac.
  by left; rewrite /= Hu1 // mul1r; apply: Hw0.
by right; rewrite /= Hu1 // mul1r; apply: Hw0.
Qed.

Lemma dag_empty : (1 < p)%N -> k < 0 -> exists W o, dag_avg_deg st0 p k w_min w_max ro rs = Ok (W, o) /\
  forall i j, (i < p)%N -> (j < p)%N -> W i j = 0.
Proof.
move=> Hp Hk; have [|u [w [perm [Hu [Hw [HP E]]]]]] := dag_value; first by slia.
do 2!eexists; split; first exact: E.
have P0 : 0 < p%:R - 1 :> F by rewrite subr_gt0 -{1}[1]mulr1n ltr_nat.
move=> i j Hi Hj /=; case: ifP => [/andP [_ H]|_]; last by rewrite mul0r.
have [H0 _] := Hu _ _ (perm_nth_lt HP Hi) (perm_nth_lt HP Hj).
by have := le_trans H0 H; rewrite ler_pdivl_mulr // mul0r leNgt Hk.
Qed.

Lemma dag_one : p = 1%N -> dag_avg_deg st0 p k w_min w_max ro rs = Err ZeroDivisionError.
Proof. by move=> ->. Qed.
End Dag.

Section Targets.
Variables (F : realFieldType) (g : generator F) (p : nat) (rs : Z).
Hypothesis Hg : fair g.
Local Notation Z' := (Z.of_nat p).

Lemma uniq_NoDup (s : seq nat) : uniq s -> List.NoDup s.
Proof.
elim: s => [|x s IH] /=; first by constructor.
by case/andP => Nx /IH; constructor=> // /In_mem; rewrite (negPf Nx).
Qed.

Lemma choose_spec (st : gst g) k : (Z.le Z0 k /\ Z.le k Z' /\ exists s, choose_targets st p k = Ok s /\ targets_of p (Z.to_nat k) s) \/
  ((Z.lt k Z0 \/ Z.lt Z' k) /\ choose_targets st p k = Err ValueError).
Proof.
rewrite /choose_targets; case: Z.ltb_spec => H0; first by right; split=> //; left.
case: Z.ltb_spec => H1; first by right; split=> //; right.
left; split=> //; split=> //; eexists; split; first by [].
have Hk : (Z.to_nat k <= p)%N by apply/ssrnat.leP; lia.
have [H2 H3 H4] := fair_sample Hg st Hk; split=> //; split; first exact: uniq_NoDup.
by move=> j /In_mem; apply: H4.
Qed.

Lemma targets_int (n : num_arg) k : n = NInt k \/ n = NNumpy k ->
  (Z.le Z0 k /\ Z.le k Z' /\ exists s, intervention_targets g p n rs = Ok s /\ targets_of p (Z.to_nat k) s) \/
  ((Z.lt k Z0 \/ Z.lt Z' k) /\ intervention_targets g p n rs = Err ValueError).
Proof.
case=> ->; rewrite /intervention_targets; last exact: choose_spec.
by case: Z.ltb_spec => H; [right; split=> //; right | exact: choose_spec].
Qed.

Lemma targets_pair lo hi :
  let out := intervention_targets g p (NTuple [:: lo; hi]) rs in
  ((Z.lt Z' lo \/ Z.lt Z' hi \/ Z.le hi lo) -> out = Err ValueError) /\
  (Z.le Z0 lo -> Z.lt lo hi -> Z.le hi Z' -> exists s, out = Ok s /\ targets_of p (length s) s /\
     Z.le lo (Z.of_nat (length s)) /\ Z.lt (Z.of_nat (length s)) hi).
Proof.
rewrite /intervention_targets; split.
  by case: Z.ltb_spec => // H1; case: Z.leb_spec => // H2 H; exfalso; lia.
move=> H0 H1 H2; case: Z.ltb_spec => H3; first by exfalso; lia.
case: Z.leb_spec => H4; first by exfalso; lia.
have [] := fair_integers Hg (g_seed g rs) H1; set n := g_integers _ _ _ => Hl Hh.
have [[_ [_ [s [E [L T]]]]]|[H _]] := choose_spec n.2 n.1; last by exfalso; lia.
by exists s; split=> //; rewrite /targets_of L; repeat split; try lia; apply T.
Qed.

Lemma targets_below lo hi s : intervention_targets g p (NTuple [:: lo; hi]) rs = Ok s -> Z.lt (Z.of_nat (length s)) hi.
Proof.
rewrite /intervention_targets; case: Z.ltb_spec => // H1; case: Z.leb_spec => // H2.
have [] := fair_integers Hg (g_seed g rs) H2; set n := g_integers _ _ _ => Hl Hh.
have [[H3 [H4 [s' [-> [L T]]]]]|[_ ->]] := choose_spec n.2 n.1; last by [].
by case=> <-; rewrite L; lia.
Qed.

Lemma targets_tuple zs : length zs <> 2%N -> intervention_targets g p (NTuple zs) rs = Err ValueError.
Proof. by case: zs => [|x [|y [|z zs]]]. Qed.
End Targets.
