(** maximally_orient is maximal: from the abstract theorem of MaxProofs to matrices. *)
From mathcomp Require Import all_ssreflect.
From Coq Require Import List Arith ZArith Lia Permutation.
From Verif Require Import Base GraphModel GraphSpec TopoProofs SortProofs CompelledProofs MeekProofs MaxProofs.
Set Implicit Arguments.
Unset Strict Implicit.

Definition eb (M : mat) (i j : nat) : bool := ~~ Z.eqb (get M i j) Z0.
Lemma ebP M i j : reflect (edge M i j) (eb M i j).
Proof. rewrite /eb /edge; case: Z.eqb_spec => H; constructor; by [apply | ]. Qed.

Section Bridge.
Variables (p : nat) (M : mat).
Hypothesis SM : square p M.
Hypothesis LM : loopless M.
Hypothesis CM : forall i j, und M i j -> ~ meek M i j.

Definition db (x y : 'I_p) : bool := eb M x y && ~~ eb M y x.
Definition ub (x y : 'I_p) : bool := eb M x y && eb M y x.
Lemma dbP (x y : 'I_p) : reflect (dir M x y) (db x y).
Proof. by rewrite /db /dir; case: (ebP M x y) => H1; case: (ebP M y x) => H2; constructor; tauto. Qed.
Lemma ubP (x y : 'I_p) : reflect (und M x y) (ub x y).
Proof. by rewrite /ub /und; case: (ebP M x y) => H1; case: (ebP M y x) => H2; constructor; tauto. Qed.
Lemma adP (x y : 'I_p) : reflect (adjacent M x y) (ad db ub x y).
Proof.
rewrite /ad /db /ub /adjacent.
by case: (ebP M x y) => H1; case: (ebP M y x) => H2 /=; constructor; tauto.
Qed.

Definition rk (r : 'I_p -> nat) (i : nat) : nat := oapp r 0 (insub i : option 'I_p).
Lemma rkE r (x : 'I_p) : rk r x = r x.
Proof. by rewrite /rk valK. Qed.

Lemma ext_of D0 : square p D0 -> consistent_ext D0 M -> exists r, ext db ub setT r.
Proof.
move=> SD [AD [SK [VS DE]]]; have [l [Pl HT]] := acyclic_topo p D0 SD AD.
have ND : NoDup l by apply: Permutation_NoDup (Permutation_sym Pl) (seq_NoDup p 0).
have Inl (x : 'I_p) : In (x : nat) l.
  apply: (Permutation_in _ (Permutation_sym Pl)); apply/in_seq; split; [lia | by apply/ssrnat.ltP; case: x].
have lt i j : edge D0 i j -> pos l i < pos l j.
  by move=> /HT /(precedes_pos _ _ _ ND) [_ [_ H]]; apply/ssrnat.ltP.
exists (fun x : 'I_p => pos l x); split.
- by move=> x y _ _ E; apply: val_inj; apply: (pos_inj l) => //; apply: Inl.
- by move=> x y _ _ /dbP /DE; apply: lt.
have ed (x c : 'I_p) : ad db ub x c -> pos l x < pos l c -> edge D0 x c.
  move=> /adP /SK [//|/lt H1] H2; by have := ltn_trans H1 H2; rewrite ltnn.
move=> x y c _ _ _ axc ayc ltx lty xy nxy.
have /VS [//] : vstruct D0 x c y.
  apply/vstruct_dag => //; split; first exact: ed.
  split; first exact: ed.
  split; first by move=> E; case/eqP: xy; exact: val_inj.
  by move=> /SK /adP; apply/negP.
by move=> H _; apply/dbP.
Qed.

Definition dag_of (r : 'I_p -> nat) : mat :=
  mk p (fun i j => if (eb M i j || eb M j i) && (rk r i < rk r j) then Zpos xH else Z0).

Lemma dag_of_edge r i j : edge (dag_of r) i j <-> adjacent M i j /\ rk r i < rk r j.
Proof.
rewrite /edge /dag_of get_mk'.
have A : adjacent M i j -> i < p /\ j < p.
  by move=> [/(edge_lt _ _ _ _ SM)|/(edge_lt _ _ _ _ SM)] [H1 H2]; split; exact/ssrnat.ltP.
case: (Nat.ltb_spec i p) => Hi; case: (Nat.ltb_spec j p) => Hj /=;
  try by split=> // -[/A [/ssrnat.ltP ? /ssrnat.ltP ?] _]; lia.
rewrite /adjacent; case: (ebP M i j) => H1; case: (ebP M j i) => H2 /=; case: ltnP => H3; split=> [N|[A1 A2]];
  first [discriminate|by []|by case: N|by split=> //; tauto|tauto].
Qed.

Lemma dag_of_ext r : ext db ub setT r -> dag01 p (dag_of r) /\ consistent_ext (dag_of r) M.
Proof.
move=> [I O S].
have AD : acyclic (dag_of r).
  by apply: (acyclic_measure _ (rk r)) => i j /dag_of_edge [_ /ssrnat.ltP].
have ord i j : adjacent M i j -> exists x y : 'I_p, i = x /\ j = y.
  move=> H; have [Hi Hj] : i < p /\ j < p.
    by case: H => /(edge_lt _ _ _ _ SM) [H1 H2]; split; exact/ssrnat.ltP.
  by exists (Ordinal Hi), (Ordinal Hj).
have DE i j : dir M i j -> edge (dag_of r) i j.
  move=> H; have aij : adjacent M i j by left; case: H.
  apply/dag_of_edge; split=> //.
  by have [x [y [Ei Ej]]] := ord _ _ aij; subst i j; rewrite !rkE; apply: O; rewrite ?inE //; apply/dbP.
have SK : same_skeleton M (dag_of r).
  move=> i j; split; last first.
    by case=> /dag_of_edge [] // H _; exact: adjacent_sym.
  move=> H; have [x [y [Ei Ej]]] := ord _ _ H; subst i j.
  have [L|L|E] := ltngtP (rk r x) (rk r y).
  - by left; apply/dag_of_edge.
  - by right; apply/dag_of_edge; split=> //; exact: adjacent_sym.
  move: E; rewrite !rkE => /I -/(_ (in_setT _) (in_setT _)) E; subst y.
  by case: H => /LM.
split; first split.
- exact: mk_square.
- split=> //; move=> i j; rewrite /dag_of get_mk'; case: (_ && _); last (by left); case: ifP => _; [by right | by left].
split=> //; split=> //; split=> // i c j; split.
  case=> [H1 [H2 [N NA]]]; apply/vstruct_dag => //; split; first exact: DE.
  split; first exact: DE.
  by split=> // /SK.
move=> /(vstruct_dag _ _ _ _ AD) [E1 [E2 [N NA]]].
have /dag_of_edge [A1 L1] := E1; have /dag_of_edge [A2 L2] := E2.
have [x [z [Ei Ec]]] := ord _ _ A1; have [y [z' [Ej Ec']]] := ord _ _ A2; subst i c j.
have Ez : z = z' by apply: val_inj.
subst z'; move: L1 L2; rewrite !rkE => L1 L2.
have nxy : ~~ ad db ub x y by apply/adP => /SK.
have xy : x != y by apply/eqP => E; apply: N; rewrite E.
have H1 : db x z by apply: (S x y z); rewrite ?inE //; apply/adP.
have H2 : db y z.
  apply: (S y x z); rewrite ?inE //; try exact/adP; first by rewrite eq_sym.
  by apply/adP => H; move/adP: nxy; apply; exact: adjacent_sym.
by split; [exact/dbP | split; [exact/dbP | split=> // /SK]].
Qed.

Lemma meek_both D0 i j : square p D0 -> consistent_ext D0 M -> und M i j ->
  exists D, dag01 p D /\ consistent_ext D M /\ edge D i j.
Proof.
move=> SD CE Uij; have [r E] := ext_of SD CE.
have [AD [SK [VS DE]]] := CE.
have [/(edge_lt _ _ _ _ SM) [/ssrnat.ltP Hi /ssrnat.ltP Hj] _] := Uij.
have usym : symmetric ub by move=> x y; rewrite /ub andbC.
have uirr : irreflexive ub by move=> x; apply/ubP => -[/LM].
have dirr : irreflexive db by move=> x; apply/dbP => -[/LM].
have udb x y : ub x y -> db x y = false by move=> /ubP [_ H]; apply/dbP => -[_].
have nad (x y : 'I_p) : ~ ad db ub x y -> ~ adjacent M x y by move=> N /adP.
have R1 x y z : db x y -> ub y z -> ad db ub x z.
  move=> /dbP dxy /ubP uyz; apply/negPn/negP => /negP /nad N.
  by apply: (CM uyz); left; exists x.
have R2 x y z : db x y -> db y z -> ub x z = false.
  move=> /dbP dxy /dbP dyz; apply/ubP => uxz.
  by apply: (CM uxz); right; left; exists y.
have R3 a b c e : ub a b -> ub a c -> ub a e -> db c b -> db e b -> c != e -> ad db ub c e.
  move=> /ubP u1 /ubP u2 /ubP u3 /dbP d1 /dbP d2 ce; apply/negPn/negP => /negP /nad N.
  apply: (CM u1); right; right; left; exists c, e; split=> //.
  by move=> E1; case/eqP: ce; exact: val_inj.
have R4 a b c e : ub a b -> ub a c -> ub a e -> db c b -> db e c -> ad db ub e b.
  move=> /ubP u1 /ubP u2 /ubP u3 /dbP d1 /dbP d2; apply/negPn/negP => /negP /nad N.
  by apply: (CM u1); right; right; right; exists c, e.
have U : ub (Ordinal Hi) (Ordinal Hj) by apply/ubP.
have [r' [E' L]] := meek_complete usym uirr dirr udb R1 R2 R3 R4 E U.
have [D1 D2] := dag_of_ext E'; exists (dag_of r'); split=> //; split=> //.
apply/dag_of_edge; split; first by left; case: Uij.
by rewrite -[i]/(val (Ordinal Hi)) -[j]/(val (Ordinal Hj)) !rkE.
Qed.
End Bridge.
