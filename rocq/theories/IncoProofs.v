(** Bounds on scaled_latent_incoherence. *)
From Coq Require Import ZArith Lia Permutation.
From mathcomp Require Import all_ssreflect all_algebra.
From Verif Require Import Base GraphModel GraphSpec BasicProofs TopoProofs NumModel NumSpec LinAlgProofs
  NumProofs GenModel GenSpec GenProofs.
Set Implicit Arguments.
Unset Strict Implicit.
Unset Printing Implicit Defensive.
Import Order.Theory GRing.Theory Num.Theory.
Local Open Scope nat_scope.
Local Open Scope ring_scope.

Section Proj.
Variables (F : realFieldType) (p q : nat) (U : 'M[F]_(p, q)).
Hypothesis HU : U^T *m U = 1%:M.

Lemma proj_diag j : within 0 1 ((U *m U^T) j j).
Proof.
set P := U *m U^T.
have Psym : P^T = P by rewrite /P trmx_mul trmxK.
have Pid : P *m P = P by rewrite /P mulmxA -[U *m U^T *m U]mulmxA HU mulmx1.
have E : P j j = \sum_k P j k ^+ 2.
  rewrite -{1}Pid mxE; apply: eq_bigr => k _; rewrite expr2; congr (_ * _).
  by rewrite -{1}Psym mxE.
have G : P j j ^+ 2 <= P j j.
  rewrite {2}E (bigD1 j) //= ler_addl; apply: sumr_ge0 => k _; exact: sqr_ge0.
have H0 : 0 <= P j j by rewrite E; apply: sumr_ge0 => k _; exact: sqr_ge0.
split=> //; rewrite leNgt; apply/negP => H1.
by move: G; rewrite expr2 ger_pmulr ?leNgt ?H1 //; apply: lt_trans H1; rewrite ltr01.
Qed.

Lemma proj_trace : \sum_j (U *m U^T) j j = q%:R.
Proof. by rewrite -[LHS]/(\tr (U *m U^T)) mxtrace_mulC HU mxtrace1. Qed.
End Proj.

Section Max.
Variable F : realFieldType.

Lemma foldl_max_ge (a : F) r : forall x, x \in a :: r -> x <= foldl Order.max a r.
Proof.
elim: r a => [|y r IH] a x /=; first by rewrite inE => /eqP ->.
rewrite !inE; have M : Order.max a y <= foldl Order.max (Order.max a y) r by apply: IH; rewrite mem_head.
case/or3P => [/eqP ->|/eqP ->|H].
- by apply: le_trans M; rewrite le_maxr lexx.
- by apply: le_trans M; rewrite le_maxr lexx orbT.
- by apply: IH; rewrite inE H orbT.
Qed.

Lemma foldl_max_spec (s : seq F) : s <> [::] ->
  foldl Order.max (seq.head 0 s) (behead s) \in s /\ forall x, x \in s -> x <= foldl Order.max (seq.head 0 s) (behead s).
Proof. by case: s => // a r _ /=; split; [exact: foldl_max_in | exact: foldl_max_ge]. Qed.

Lemma enum_map_nil n (T : Type) (f : 'I_n -> T) : (0 < n)%N -> [seq f i | i <- enum 'I_n] <> [::].
Proof. by move=> Hn /(congr1 size); rewrite size_map size_enum_ord => E; rewrite E in Hn. Qed.

(** The largest diagonal entry *)
Lemma max_diag p q (U : 'M[F]_(p, q)) : (0 < p)%N -> U^T *m U = 1%:M ->
  within (q%:R / p%:R) 1 (let d := [seq (U *m U^T) j j | j <- enum 'I_p] in foldl Order.max (seq.head 0 d) (behead d)).
Proof.
move=> Hp HU; cbv zeta; set d := [seq _ | _ <- _].
have [Hd Hm] : _ /\ _ := foldl_max_spec (@enum_map_nil p F (fun j => (U *m U^T) j j) Hp).
split; last by case/mapP: Hd => j _ ->; case: (proj_diag HU j).
have p0 : 0 < p%:R :> F by rewrite ltr0n.
rewrite ler_pdivr_mulr // -(proj_trace HU) mulr_natr; set M := foldl _ _ _.
have -> : M *+ p = \sum_(j < p) M by rewrite sumr_const card_ord.
by apply: ler_sum => j _; apply: Hm; apply: map_f; rewrite mem_enum.
Qed.
End Max.

Section Incoherence.
Variables (F : realFieldType) (h : hord) (p l e : nat) (svd : 'M[F]_(p, l) -> 'M[F]_(p, minn p l)).
Hypothesis Hsvd : forall X, (svd X)^T *m svd X = 1%:M.

Lemma Zmax_spec d ds : List.In (foldl Z.max d ds) (d :: ds) /\ forall x, List.In x (d :: ds) -> Z.le x (foldl Z.max d ds).
Proof.
elim: ds d => [|y r IH] d /=; first by split; [left | move=> x [->|//]; lia].
have [I1 I2] := IH (Z.max d y); split.
  by case: I1 => [<-|H]; [case: (Z.max_spec d y) => -[_ ->]; auto | right; right].
have M := I2 _ (or_introl erefl).
by move=> x [<-|[<-|H]]; [lia|lia|apply: I2; right].
Qed.

Lemma ZF_nat n : ZF F (Z.of_nat n) = n%:R.
Proof. by case: n => //= n; rewrite SuccNat2Pos.id_succ. Qed.

Lemma max_degree_spec A : (0 < p)%N -> square p A -> nonneg A -> exists d : nat,
  max_degree h A = Ok (Z.of_nat d) /\ (exists v, (v < p)%N /\ moral_degree A v d) /\
  forall v n, (v < p)%N -> moral_degree A v n -> (n <= d)%N.
Proof.
move=> Hp SA NA; have NC := nonneg_nocancel A NA.
have [SM [BM [_ HM]]] := moral_graph_spec h p A SA NC.
have [L HD] := degrees_spec p _ SM (nonneg_nocancel _ (binary_nonneg BM)).
have MD v n : (v < p)%N -> moral_degree A v n <-> List.nth v (degrees (moral_graph h A)) Z0 = Z.of_nat n.
  move=> /ssrnat.ltP Hv; have [t [Nt [Ht ->]]] := HD v Hv.
  have Ht' i : List.In i t <-> adjacent A i v \/ exists c, vstruct A i c v.
    rewrite Ht /adjacent !HM; split; last by left.
    case=> //; case; first by case=> ?; left; [right|left].
    move=> [c [V1 [V2 [V3 V4]]]]; right; exists c; split=> //; split=> //; split; first by move/esym.
    by move=> [] ?; apply: V4; [right|left].
  split.
    move=> [t' [Nt' [Hl <-]]]; congr Z.of_nat; apply: Permutation_length; apply: NoDup_Permutation => // i.
    by rewrite Hl Ht'.
  by move=> E; exists t; split=> //; split=> //; lia.
rewrite /max_degree; case ED: (degrees (moral_graph h A)) L MD => [|d ds] L MD; first by rewrite -L in Hp.
have [Hin Hmax] := Zmax_spec d ds.
have [v [Hv Ev]] := List.In_nth _ _ Z0 Hin; rewrite L in Hv.
have /ssrnat.ltP Hv' := Hv; have [t [Nt [Ht Et]]] := HD v Hv.
rewrite ED in Et; exists (length t); rewrite -Et Ev; split=> //; split.
  by exists v; split=> //; apply/MD; rewrite ?Et.
move=> w n Hw /(MD _ _ Hw) En; apply/ssrnat.leP.
have : Z.le (Z.of_nat n) (foldl Z.max d ds) by rewrite -En; apply: Hmax; apply: List.nth_In; rewrite L; apply/ssrnat.ltP.
by rewrite -Ev Et; lia.
Qed.

Lemma incoherence_bounds (m : model F p l e) : (0 < p)%N -> (0 < e)%N -> square p (mA m) -> nonneg (mA m) ->
  exists (d : nat) x, scaled_latent_incoherence h svd m = Ok x /\
  (exists v, (v < p)%N /\ moral_degree (mA m) v d) /\
  (forall v n, (v < p)%N -> moral_degree (mA m) v n -> (n <= d)%N) /\
  within (d%:R * (minn p l)%:R / p%:R) d%:R x.
Proof.
move=> Hp He SA NA; have [d [E [H1 H2]]] := max_degree_spec Hp SA NA.
rewrite /scaled_latent_incoherence E /=.
set f := fun i : 'I_e => _; have := @enum_map_nil e F f He.
case Es: [seq f i | i <- enum 'I_e] => [//|y ys] _ /=; 
exists d, (foldl Order.max y ys * ZF F (Z.of_nat d)); split=> //; split=> //; split=> //.
have : foldl Order.max y ys \in [seq f i | i <- enum 'I_e] by rewrite Es; exact: foldl_max_in.
case/mapP => i _ ->; rewrite ZF_nat.
have [G1 G2] : within ((minn p l)%:R / p%:R) 1 (f i) by apply: max_diag => //; apply: Hsvd.
split; first by rewrite -mulrA mulrC ler_wpmul2r ?ler0n.
by rewrite -[X in _ <= X]mul1r ler_wpmul2r ?ler0n.
Qed.
End Incoherence.
