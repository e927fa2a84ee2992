(** Lemmas on the other functions of generators.py, and the statements of the properties. *)
From Coq Require Import ZArith Lia Permutation.
From mathcomp Require Import all_ssreflect all_algebra.
From Verif Require Import Base GraphModel GraphSpec TopoProofs CompelledProofs EnumProofs NumModel NumSpec LinAlgProofs
  NumProofs GenModel GenSpec GenProofs.
Set Implicit Arguments.
Unset Strict Implicit.
Unset Printing Implicit Defensive.
Import Order.Theory GRing.Theory Num.Theory.
Local Open Scope nat_scope.
Local Open Scope ring_scope.

Section SampleParameters.
Variables (F : realFieldType) (h : hord) (g : generator F) (p l e : nat).

Lemma sample_parameters_spec A I (b : bounds F) (sparse obs : bool) rs (verbose : bool) :
  square p A -> nonneg A -> List.NoDup I -> (verbose -> (0 < e)%N /\ (0 < p)%N) ->
  let valid := acyclic A /\ forall j, List.In j I -> (j < p)%N in
  let out := sample_parameters h g p l e A I b sparse obs rs verbose in
  (valid /\ exists m, out = Ok m /\ [/\ mA m = A, supported A (mB m), mI_B m = 1%:M - (mB m)^T &
     forall j : 'I_p, ~ List.In (nat_of_ord j) I -> const_col (momegas m) j]) \/
  (~ valid /\ out = Err ValueError).
Proof.
move=> SA NA N Hv valid out.
have [[CA [HI E]]|[H E]] := sample_parameters_result h g l I b sparse obs rs SA NA Hv; last by right.
left; split=> //; exists (result h g p l e A I b sparse obs rs); split=> //; split=> //; first exact: B_supported.
by move=> j Hj; apply: omegas_const.
Qed.

Lemma sample_parameters_verbose A I (b : bounds F) (sparse obs : bool) rs : e = 0%N -> square p A -> nonneg A -> acyclic A ->
  (forall j, List.In j I -> (j < p)%N) ->
  sample_parameters h g p l e A I b sparse obs rs true = Err IndexError.
Proof.
move=> He SA NA CA HI.
have Hv : false -> (0 < e)%N /\ (0 < p)%N by [].
have [[_ [_ E]]|[]] := @sample_parameters_result F h g p l e A I b sparse obs rs false SA NA Hv; last by case.
move: E; rewrite /sample_parameters; set y := is_dag _ _; case: y => //= -[] //=; case: ifP => //= _.
by set y := new_model _ _ _ _ _ _; case: y => //= m _; rewrite (_ : (e == 0%N) = true) // He.
Qed.

(** The model that is returned *)
Lemma sample_parameters_inv A I (b : bounds F) (sparse obs : bool) rs verbose m : square p A -> nonneg A ->
  sample_parameters h g p l e A I b sparse obs rs verbose = Ok m ->
  [/\ acyclic A, forall j, List.In j I -> (j < p)%N & m = result h g p l e A I b sparse obs rs].
Proof.
move=> SA NA E.
have E' : sample_parameters h g p l e A I b sparse obs rs false = Ok m.
  move: E; rewrite /sample_parameters; set y := is_dag _ _; case: y => //= -[] //=; case: ifP => //= _.
  by set y := new_model _ _ _ _ _ _; case: y => //= m0; do 2!case: ifP => //.
have Hv : false -> (0 < e)%N /\ (0 < p)%N by [].
have [[CA [HI E2]]|[_ E2]] := @sample_parameters_result F h g p l e A I b sparse obs rs false SA NA Hv.
  by split=> //; move: E'; rewrite E2 => -[].
by move: E'; rewrite E2.
Qed.

Variables (A : mat) (I : seq nat) (b : bounds F) (sparse obs : bool) (rs : Z) (verbose : bool) (m : model F p l e).
Hypotheses (SA : square p A) (NA : nonneg A) (Hg : fair g) (Hb : ordered b).
Hypothesis E : sample_parameters h g p l e A I b sparse obs rs verbose = Ok m.

Lemma edge_weight_range (i j : 'I_p) : binary A -> edge A i j -> within (B_lo b) (B_hi b) (mB m i j).
Proof.
have [_ _ ->] := sample_parameters_inv SA NA E => BA HE; apply: B_range => //.
by case: (BA i j) => // H; case: HE.
Qed.

Lemma ranges_obs : List.NoDup I -> obs -> (1 < e)%N ->
  (exists rank : nat -> nat,
    (forall j, List.In j I -> (0 < rank j <= size I)%N) /\
    (forall j k, List.In j I -> List.In k I -> rank j = rank k -> j = k) /\
    forall (i : 'I_e) (j : 'I_p),
      ((i == 0%N :> nat) || (nat_of_ord j \notin I) -> within (var_lo b) (var_hi b) (momegas m i j)) /\
      ((0 < i)%N -> nat_of_ord j \in I ->
        within (var_lo b + int_var_lo b *+ rank j) (var_hi b + int_var_hi b *+ rank j) (momegas m i j))) /\
  forall (i : 'I_e) (j : 'I_l),
    if i == 0%N :> nat then within (psi_lo b) (psi_hi b) (mpsis m i j)
    else within (psi_lo b + int_psi_lo b *+ (e - i)) (psi_hi b + int_psi_hi b *+ (e - i)) (mpsis m i j).
Proof.
have [_ _ ->] := sample_parameters_inv SA NA E => N Ho He; split; first by apply: omegas_obs.
by move=> i j; apply: psis_obs.
Qed.

Lemma ranges_other : obs = false \/ (e <= 1)%N ->
  (forall i j, within (var_lo b) (var_hi b) (momegas m i j)) /\
  (forall i j, within (psi_lo b) (psi_hi b) (mpsis m i j)).
Proof.
have [_ _ ->] := sample_parameters_inv SA NA E => H.
have Ho : ~~ (obs && (1 < e)%N) by case: H => [->|H] //; rewrite negb_and -leqNgt H orbT.
by split=> i j; [apply: omegas_other | apply: psis_other].
Qed.

Lemma documented_one : List.NoDup I -> obs -> (size I <= 1)%N -> documented_vars b obs I (momegas m).
Proof.
move=> N Ho HI i j; rewrite Ho orbF.
have [He|He] := ltnP 1 e; last first.
  have [|Hv _] := ranges_other; first by right.
  have -> : (0 < i)%N = false by apply/negbTE; rewrite -leqNgt; have := ltn_ord i; slia.
  by rewrite andbF; apply: Hv.
have [[rank [R1 [_ R]]] _] := ranges_obs N Ho He; have [R2 R3] := R i j.
case: ifP => [/andP [HjI i0]|H]; last by apply: R2; rewrite -[_ == _]negbK -lt0n -negb_and andbC H.
have := R3 i0 HjI; have /In_mem /R1 := HjI.
by case: (rank j) => [|[|k]] //; slia.
Qed.

Lemma documented_two : obs -> (e <= 2)%N -> documented_psis b obs (mpsis m).
Proof.
move=> Ho He2 i j; rewrite Ho orbF.
have [He|He] := ltnP 1 e; last first.
  have [|_ Hv] := ranges_other; first by right.
  have -> : (0 < i)%N = false by apply/negbTE; rewrite -leqNgt; have := ltn_ord i; slia.
  by apply: Hv.
have := @psis_obs F h g p l e A I b sparse obs rs i j Hg Hb Ho He; have [_ _ ->] := sample_parameters_inv SA NA E.
rewrite lt0n; case: eqP => //= i0.
by rewrite (_ : (e - i)%N = 1%N) ?mulr1n //; have := ltn_ord i; slia.
Qed.

(** Positive bounds give positive definite covariances *)
Lemma generated_posdef : 0 < var_lo b -> 0 <= int_var_lo b -> 0 <= psi_lo b -> 0 <= int_psi_lo b -> List.NoDup I ->
  positive (momegas m) /\ (forall i j, 0 <= mpsis m i j) /\
  exists Sigma, covariances m = Ok Sigma /\ forall i, posdef (Sigma i).
Proof.
move=> v0 iv0 p0 ip0 N.
have [Ho Hp] : positive (momegas m) /\ (forall i j, 0 <= mpsis m i j).
  have [/andP [Ho He]|H] := boolP (obs && (1 < e)%N); last first.
    have [|H1 H2] := ranges_other; first by move: H; rewrite negb_and -leqNgt; case: obs => /=; [right|left].
    by split=> i j; [case: (H1 i j) => + _; exact: lt_le_trans | case: (H2 i j) => + _; exact: le_trans].
  have [[rank [_ [_ R]]] P] := ranges_obs N Ho He; split=> i j.
    have [R1 R2] := R i j; have [/andP [i0 jI]|H] := boolP ((0 < i)%N && (nat_of_ord j \in I)).
      case: (R2 i0 jI) => + _; apply: lt_le_trans; apply: ltr_paddr => //; exact: mulrn_wge0.
    by case: R1 => [|+ _]; [rewrite -[_ == _]negbK -lt0n -negb_and H | exact: lt_le_trans].
  have := P i j; case: ifP => _ [+ _]; first exact: le_trans.
  by apply: le_trans; apply: addr_ge0 => //; apply: mulrn_wge0.
split=> //; split=> //.
have [CA HI Em] := sample_parameters_inv SA NA E.
have [[_ [_ En]]|[]] := new_model_spec h (mB m) (mgamma m) (momegas m) (mpsis m) SA NA; last first.
  by case; split=> //; rewrite Em; exact: B_supported.
have := model_posdef id (fun _ => 0) (fun _ => 0%N) SA NA En Ho Hp.
have -> : MkModel A (mB m) (mgamma m) (momegas m) (mpsis m) (1%:M - (mB m)^T) = m by rewrite Em.
by case=> _ [_ [H _]].
Qed.
End SampleParameters.

(** * The documented ranges are exceeded *)
Definition empty2 : mat := [:: [:: Z0; Z0]; [:: Z0; Z0]].
Lemma empty2_square : square 2 empty2. Proof. by split=> //; repeat constructor. Qed.
Lemma empty2_no_edge i j : ~ edge empty2 i j.
Proof. by move=> H; apply: H; move: i j => [|[|[|i]]] [|[|[|j]]]. Qed.
Lemma empty2_nonneg : nonneg empty2.
Proof. by move=> [|[|[|i]]] [|[|[|j]]]. Qed.
Lemma empty2_acyclic : acyclic empty2.
Proof. by apply: (@acyclic_measure _ id) => i j /empty2_no_edge. Qed.

(** All bounds are 1 *)
Definition ones (F : realFieldType) : bounds F := MkBounds 1 1 1 1 1 1 1 1 1 1.
Lemma ones_ordered F : ordered (ones F). Proof. by split. Qed.

Section Exceeded.
Variables (F : realFieldType) (h : hord) (g : generator F) (sparse verbose : bool) (rs : Z).
Hypothesis Hg : fair g.

Lemma within1 (x y : F) : within x x y -> y = x.
Proof. by case=> H1 H2; apply/eqP; rewrite eq_le H1 H2. Qed.

Lemma ones_result l e obs I : (0 < e)%N -> List.NoDup I -> (forall j, List.In j I -> (j < 2)%N) ->
  exists m : model F 2 l e, sample_parameters h g 2 l e empty2 I (ones F) sparse obs rs verbose = Ok m.
Proof.
move=> He N HI; have [|[_ [m [E _]]]|[H _]] := @sample_parameters_spec F h g 2 l e empty2 I (ones F) sparse obs rs verbose
  empty2_square empty2_nonneg N; [by [] | by exists m | by case: H; split=> //; exact: empty2_acyclic].
Qed.

Lemma vars_exceeded : exists m : model F 2 1 2,
  sample_parameters h g 2 1 2 empty2 [:: 0%N; 1%N] (ones F) sparse true rs verbose = Ok m /\
  exists j : 'I_2, nat_of_ord j \in [:: 0%N; 1%N] /\ momegas m ord_max j = 3%:R /\
    var_hi (ones F) + int_var_hi (ones F) < momegas m ord_max j.
Proof.
have N : List.NoDup [:: 0%N; 1%N] by repeat constructor => /=; intuition.
have [] := @ones_result 1 2 true [:: 0%N; 1%N] isT N; first by move=> j /= [<-|[<-|[]]].
move=> m E; exists m; split=> //.
have [[rank [R1 [R2 R]]] _] := @ranges_obs F h g 2 1 2 _ _ _ _ _ _ _ m empty2_square empty2_nonneg Hg (ones_ordered F) E N isT isT.
have [j [jI Hj]] : exists j : 'I_2, nat_of_ord j \in [:: 0%N; 1%N] /\ rank j = 2%N.
  have H0 := R1 0%N (or_introl erefl); have H1 := R1 1%N (or_intror (or_introl erefl)).
  have [E0|N0] := eqVneq (rank 0%N) 2%N; first by exists ord0.
  have H2 : rank 0%N <> rank 1%N by move/(R2 0%N 1%N (or_introl erefl) (or_intror (or_introl erefl))).
  by exists ord_max; split=> //; rewrite /= in H0 H1 H2 *; slia.
exists j; split=> //; have [_ /(_ isT jI)] := R ord_max j; rewrite Hj /= => /within1 ->.
by split; [rewrite -[3%N]/(1 + 2)%N natrD | rewrite ltr_add2l -{1}[1]mulr1n ltr_nat].
Qed.

Lemma psis_exceeded : exists m : model F 2 1 3,
  sample_parameters h g 2 1 3 empty2 [::] (ones F) sparse true rs verbose = Ok m /\
  mpsis m (@Ordinal 3 1 isT) ord0 = 3%:R /\ psi_hi (ones F) + int_psi_hi (ones F) < mpsis m (@Ordinal 3 1 isT) ord0.
Proof.
have N := List.NoDup_nil nat.
have [|m E] := @ones_result 1 3 true [::] isT N; first by [].
exists m; split=> //.
have [_ /(_ (@Ordinal 3 1 isT) ord0)] := @ranges_obs F h g 2 1 3 _ _ _ _ _ _ _ m empty2_square empty2_nonneg Hg (ones_ordered F) E N isT isT.
move=> /= /within1 ->.
by split; [rewrite -[3%N]/(1 + 2)%N natrD | rewrite ltr_add2l -{1}[1]mulr1n ltr_nat].
Qed.

(** Without an observational environment, no intervention is added *)
Lemma no_obs_low : exists m : model F 2 1 2,
  sample_parameters h g 2 1 2 empty2 [:: 0%N] (ones F) sparse false rs verbose = Ok m /\
  momegas m ord0 ord0 < var_lo (ones F) + int_var_lo (ones F) /\ mpsis m ord0 ord0 < psi_lo (ones F) + int_psi_lo (ones F).
Proof.
have N : List.NoDup [:: 0%N] by repeat constructor => /=; intuition.
have [|m E] := @ones_result 1 2 false [:: 0%N] isT N; first by move=> j /= [<-|[]].
exists m; split=> //.
have [|H1 H2] := @ranges_other F h g 2 1 2 _ _ _ _ _ _ _ m empty2_square empty2_nonneg Hg (ones_ordered F) E; first by left.
by split; [rewrite (within1 (H1 ord0 ord0)) | rewrite (within1 (H2 ord0 ord0))]; rewrite /= ltr_addl ltr01.
Qed.
End Exceeded.

(** * Sparse latent effects *)
Section Sparse.
Variables (F : realFieldType) (h : hord) (g : generator F).

Lemma put_row_other (gm : nat -> nat -> F) i s v a b : (a != i) || (b \notin s) -> put_row gm i s v a b = gm a b.
Proof.
rewrite /put_row; move=> H; have : all (fun k => (k < size s)%N) (iota 0 (size s)).
  by apply/allP => k; rewrite mem_iota.
elim: (iota _ _) gm => //= k t IH gm /andP [Hk Ht]; rewrite IH // ; case: ifP => // /andP [/eqP Ea /eqP Eb].
by move: H; rewrite Ea eqxx Eb mem_nth.
Qed.

Definition row_step p (s : (nat -> nat -> F) * gst g) (i : nat) :=
  let n := n_latent_edges p in
  let c := g_choice s.2 p n in
  let v := g_normal c.2 1 n in (put_row s.1 i c.1 (v.1 0%N), v.2).

Lemma sparse_rows p st s : fair g -> (0 < p)%N -> uniq s ->
  let r := foldl (row_step p) (fun _ _ => 0, st) s in
  forall a, (a \notin s -> forall b, r.1 a b = 0) /\
    exists t, size t = n_latent_edges p /\ forall b, r.1 a b <> 0 -> b \in t.
Proof.
move=> Hg Hp; elim/last_ind: s => [|s i IH] /= U a.
  by split=> //; exists (nseq (n_latent_edges p) 0%N); rewrite size_nseq; split.
move: U; rewrite rcons_uniq => /andP [Ni U]; have {IH} := IH U; rewrite foldl_rcons; set r := foldl _ _ _ => /= IH.
have [I1 [t [I2 I3]]] := IH a; rewrite /row_step; set c := g_choice _ _ _; set v := g_normal _ _ _ => /=.
rewrite mem_rcons inE; have [Ea|Na] := eqVneq a i.
  split=> //; exists c.1; have [-> _] := fair_choice Hg r.2 (n_latent_edges p) Hp; split=> // b H.
  have [//|Nb] := boolP (b \in c.1); case: H; rewrite put_row_other ?Nb ?orbT //.
  by rewrite I1 // Ea.
split; first by move=> H b; rewrite put_row_other ?Na //; apply: I1.
by exists t; split=> // b; rewrite put_row_other ?Na //; apply: I3.
Qed.

Lemma sparse_spec p l e A I (b : bounds F) obs rs verbose (m : model F p l e) (i : 'I_l) :
  square p A -> nonneg A -> fair g -> (0 < p)%N ->
  sample_parameters h g p l e A I b true obs rs verbose = Ok m ->
  exists s : seq nat, (5 * size s <= p + 2)%N /\ (p <= 5 * size s + 2)%N /\
    forall j : 'I_p, mgamma m i j <> 0 -> nat_of_ord j \in s.
Proof.
move=> SA NA Hg Hp E; have [_ _ ->] := sample_parameters_inv SA NA E.
set u := g_uniform (g_seed g rs) (B_lo b) (B_hi b) p p.
have [_ [t [Ht H]]] := sparse_rows u.2 Hg Hp (iota_uniq 0 l) i.
have Hd := divn_eq (p + 2) 5; have Hm := ltn_pmod (p + 2) (isT : (0 < 5)%N).
exists t; rewrite Ht /n_latent_edges; split; [|split].
- by rewrite mulnC {2}Hd leq_addr.
- rewrite mulnC -(leq_add2r 2) {1}Hd -addnA leq_add2l; exact: Hm.
- by move=> j; rewrite mxE; apply: H.
Qed.
End Sparse.
