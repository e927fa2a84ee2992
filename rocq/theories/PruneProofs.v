(** _weakest_edge, _prune_graphs, _prune_I. *)
From Coq Require Import ZArith Lia List Permutation.
From mathcomp Require Import all_ssreflect all_algebra.
From Verif Require Import Base GraphModel GraphSpec TopoProofs EdgeProofs ListModel ListProofs NumModel NumSpec NumProofs ScoreModel CacheSpec CacheProofs.
From Verif Require Import ScoreSpec GDProofs ScoreProofs HistProofs MainModel MainSpec.
Set Implicit Arguments.
Unset Strict Implicit.
Unset Printing Implicit Defensive.
Import Order.Theory GRing.Theory Num.Theory.
Local Open Scope nat_scope.
Local Open Scope ring_scope.


Lemma ListnthE (T : Type) (d : T) (xs : seq T) k : List.nth k xs d = seq.nth d xs k.
Proof. by elim: xs k => [|x xs IH] [|k] //=. Qed.

Section Weakest.
Variables (F : realFieldType) (p : nat).

Lemma inf_irr (x : option F) : inf_lt x x = false.
Proof. by case: x => //= a; rewrite ltxx. Qed.
Lemma inf_step (x y z : option F) : inf_lt x y = true -> inf_lt z y = false -> inf_lt x z = true /\ inf_lt z x = false.
Proof.
case: x y z => [a|] [b|] [c|] //=; first by move=> ab /negbT; rewrite -leNgt => bc; split;
  [exact: lt_le_trans bc | apply: le_gtF; apply: le_trans (ltW ab) bc].
Qed.

Lemma weakest_edge_spec (B : 'M[F]_p) : (0 < p)%N ->
  exists i j : 'I_p, weakest_edge B = Ok (nat_of_ord i, nat_of_ord j) /\
    (weakest B i j \/ [/\ B = 0, nat_of_ord i = 0%N & nat_of_ord j = 0%N]).
Proof.
move=> p0; rewrite /weakest_edge.
set f := fun (i j : 'I_p) => if B i j == 0 then None else Some `|B i j|.
set M := [seq _ | i <- _].
have LM : length M = p by rewrite /M -[length _]/(size _) size_map size_enum_ord.
have RM r : In r M -> length r = p.
  by move=> /in_map_iff [i [<- _]]; rewrite -[length _]/(size _) size_map size_enum_ord.
have GM (i j : 'I_p) : List.nth j (List.nth i M [::]) None = f i j.
  rewrite !ListnthE (nth_map i) ?size_enum_ord // (nth_map j) ?size_enum_ord // !nth_ord_enum //.
have [i [j [-> [Hi [Hj [H1 H2]]]]]] := arg2_spec (@inf_lt F) None inf_irr inf_step M p (elimT ssrnat.ltP p0) ltac:(by rewrite LM; apply/ssrnat.ltP) RM.
rewrite LM in Hi H1 H2; move/ssrnat.ltP: Hi => Hi; move/ssrnat.ltP: Hj => Hj.
exists (Ordinal Hi), (Ordinal Hj); split=> //.
have G1 (x y : 'I_p) : inf_lt (f x y) (f (Ordinal Hi) (Ordinal Hj)) = false.
  by rewrite -!GM; apply: H1; apply/ssrnat.ltP.
case: (boolP (B (Ordinal Hi) (Ordinal Hj) == 0)) => B0; last first.
  left; split=> // x y Bxy; move: (G1 x y); rewrite /f (negbTE B0) (negbTE Bxy) /= => /negbT.
  by rewrite -leNgt.
right; have Z : B = 0.
  apply/matrixP => x y; rewrite mxE; move: (G1 x y); rewrite /f B0; by case: eqP.
have N (x y : 'I_p) : f x y = None by rewrite /f Z mxE eqxx.
have NL x y : (x < p)%N -> (y < p)%N -> List.nth y (List.nth x M [::]) None = None.
  by move=> Hx Hy; rewrite (GM (Ordinal Hx) (Ordinal Hy)) N.
split=> //=; apply/eqP; apply: contraT; rewrite -lt0n => L.
  have := H2 0%N 0%N ltac:(by apply/ssrnat.ltP) ltac:(by apply/ssrnat.ltP) ltac:(by left; apply/ssrnat.ltP).
  by rewrite !NL.
have := H2 i 0%N ltac:(by apply/ssrnat.ltP) ltac:(by apply/ssrnat.ltP) ltac:(by right; split=> //; apply/ssrnat.ltP).
by rewrite !NL.
Qed.
End Weakest.

Section Reached.
Variables (F : realFieldType) (p l e : nat) (cf : conf F p l e).
Local Notation model := (model F p l e).

Lemma reached0 : reached cf (fresh F p l e true).
Proof. by exists [::]. Qed.

Variable Q : mat -> seq nat -> model -> Prop.
Hypothesis QS : forall A I J m, same_set I J -> Q A I m -> Q A J m.
Hypothesis QP : forall A I m m', same_params m m' -> Q A I m -> Q A I m'.
Hypothesis QF : forall A I rnd m s, graph p A -> fit cf A I None rnd = Ok (m, s) -> Q A I m.

Lemma reached_call st A I rnd : reached cf st -> graph p A ->
  let r := score_dag cf st A I None rnd in
  reached cf r.1 /\
  match r.2 with
  | Ok (m, _) => [/\ acyclic A /\ mA m = A, supported A (mB m), in_range (cf_psi_max cf) m,
                    invariant_outside (cf_psi_fixed cf) I m & Q A I m]
  | Err x => fit cf A I None rnd = Err x
  end.
Proof.
move=> [cs [Hcs ->]] [SA NA]; pose c : call F p l e := Call A I None rnd.
have PR : proper c by split.
have P1 : Forall (@proper F p l e) cs by apply: Forall_impl Hcs => d [].
have P2 : Forall (fun d => cl_init d = None) cs by apply: Forall_impl Hcs => d [].
rewrite -[score_dag _ _ _ _ _ _]/(do_call cf (run cf (fresh F p l e true) cs) c); split.
  exists (cs ++ [:: c]); split; last by rewrite /run foldl_cat.
  by apply/Forall_app; split=> //; constructor.
case E: (do_call _ _ _).2 => [[m s]|x].
  have [H1 H2 H3 H4] := fitted P1 PR E; have H5 := constrained P1 P2 PR erefl E.
  split=> //; move: E.
  have G : Forall (good_call cf Q) cs.
    apply: Forall_impl Hcs => d [PRd ID]; split=> // m0 s0; rewrite ID.
    by have [SD ND _] := PRd; apply: QF.
  case: (@run_wf F p l e cf Q QS QP true cs G) => [[_ //]|[xs [-> [W _]]]].
  have HP m0 s0 : fit cf (cl_A c) (cl_I c) (cl_init c) (cl_rnd c) = Ok (m0, s0) -> Q (cl_A c) (cl_I c) m0 by apply: QF.
  case: (@call_some F p l e cf Q QS QP _ c PR W HP) => ys [r [-> _ _ HE]] /= Er.
  by case: (HE _ _ Er).
move: E; set P := fun (A : mat) (I : seq nat) (m : model) => True.
have T1 A0 I0 J (m0 : model) : same_set I0 J -> P A0 I0 m0 -> P A0 J m0 by [].
have T2 A0 I0 (m0 m1 : model) : same_params m0 m1 -> P A0 I0 m0 -> P A0 I0 m1 by [].
case: (@run_wf F p l e cf P T1 T2 true cs (good_proper cf P1)) => [[_ //]|[xs [-> [[SX DX HX] _]]]].
rewrite /do_call /score_dag /c /=.
have EM : has (key A I) xs = false -> read (lists xs) A I = Ok None.
  by case: xs SX DX {HX} => [|x0 xs] // SX DX K; rewrite (read_spec _ x0 SX DX SA) K.
case: (boolP (has (key A I) xs)) => K.
  have [x0 _] : exists x0 : mat * seq nat * model * F, true by case: xs K {SX DX HX EM} => // x0; exists x0.
  by rewrite (read_spec _ x0 SX DX SA) K.
rewrite EM; last exact: negbTE.
case EF: fit => [[m s]|ex] /=; last by move=> [->].
have [m' [EC _ _]] := @fit_copy F p l e cf c m s PR EF.
by rewrite (write_spec _ _ _ _ SX DX SA) (negbTE K) EC.
Qed.
End Reached.

Lemma upd_out p A i j : square p A -> ~~ ((i < p)%N && (j < p)%N) -> upd A i j Z0 = A.
Proof.
move=> SA H; rewrite /upd (square_length SA); apply: (@mat_ext p) => //; first exact: mk_square.
move=> x y Hx Hy; rewrite get_mk //; case: Nat.eqb_spec => [E1|] //=; case: Nat.eqb_spec => [E2|] //=.
by move: H; rewrite -E1 -E2; move/ssrnat.ltP: Hx => ->; move/ssrnat.ltP: Hy => ->.
Qed.

Section Prune.
Variables (F : realFieldType) (p l e : nat) (cf : conf F p l e).
Variable rnds : nat -> nat -> 'M[F]_p * 'M[F]_p.
Local Notation model := (model F p l e).
Local Notation sobj := (sobj F p l e).

Lemma sdag_spec (s : sobj) A I : reached cf s.1 -> graph p A ->
  let r := sdag cf rnds s A I in
  reached cf r.1.1 /\
  match r.2 with
  | Ok (m, _) => [/\ mA m = A, fitted_for cf I m & some_weight cf -> (exists i j, edge A i j) -> mB m <> 0]
  | Err x => failed cf rnds [:: A] x
  end.
Proof.
move=> HS HA; rewrite /sdag.
pose Q (A : mat) I (m : model) := (some_weight cf -> (exists i j, edge A i j) -> mB m <> 0) /\
  exists I' rnd m' s, [/\ same_set I I', fit cf A I' None rnd = Ok (m', s) & same_params m' m].
have QS A0 I0 J (m : model) : same_set I0 J -> Q A0 I0 m -> Q A0 J m.
  move=> SS [H1 [I' [rnd [m' [s' [H2 H3 H4]]]]]]; split=> //; exists I', rnd, m', s'; split=> //.
  exact: same_set_trans (same_set_sym SS) H2.
have QP A0 I0 (m m' : model) : same_params m m' -> Q A0 I0 m -> Q A0 I0 m'.
  move=> [E1 EB E2 E3 E4] [H1 [I' [rnd [m1 [s' [H2 H3 [F1 F2 F3 F4 F5]]]]]]]; split; first by rewrite -EB.
  by exists I', rnd, m1, s'; split=> //; split; rewrite -?E1 -?EB -?E2 -?E3 -?E4.
have QF A0 I0 rnd m s0 : graph p A0 -> fit cf A0 I0 None rnd = Ok (m, s0) -> Q A0 I0 m.
  move=> G0 E0; split; first by move=> W; apply: W E0.
  by exists I0, rnd, m, s0; split=> //; split; apply: incl_refl.
case: (@reached_call F p l e cf Q QS QP QF s.1 A I (rnds s.2) HS HA) => /= H1 H2; split=> //.
case: ((score_dag cf s.1 A I None (rnds s.2)).2) H2 => [[m x]|x].
  by move=> [[H3 H4] H5 H6 H7 [H8 H9]]; split=> //; split; rewrite /fit_of ?H4.
by move=> H; exists A, I, s.2; split=> //; exists A => //; left.
Qed.

Lemma msum_pos A : graph p A -> reflect (exists i j, edge A i j) (Z.ltb Z0 (msum A)).
Proof.
move=> [SA NA]; have H0 := msum_nonneg NA; have HZ := msum_zero SA NA.
case: Z.ltb_spec0 => H; constructor.
  case E: (where2 p (fun i j => nz (get A i j))) => [|[i j] xs].
    have E0 : msum A = Z0.
      apply/HZ => i j; case: (Z.eq_dec (get A i j) Z0) => // N.
      have [Hi Hj] := edge_lt _ _ _ _ SA N.
      have : In (i, j) (where2 p (fun i j => nz (get A i j))) by apply/where2_In; rewrite nz_true.
      by rewrite E.
    lia.
  have : In (i, j) (where2 p (fun i j => nz (get A i j))) by rewrite E; left.
  by move/where2_In => [_ [_ /nz_true N]]; exists i, j.
have E0 : msum A = Z0 by lia.
by move=> [i [j E]]; apply: E; apply HZ.
Qed.

Lemma edge_p A : graph p A -> (exists i j, edge A i j) -> (0 < p)%N.
Proof. by move=> [SA _] [i [j E]]; have [/ssrnat.ltP H _] := edge_lt _ _ _ _ SA E; apply: leq_ltn_trans H. Qed.

Lemma upd0_graph A i j : graph p A -> (i < p)%N -> (j < p)%N -> graph p (upd A i j Z0).
Proof.
move=> [SA NA] /ssrnat.ltP Hi /ssrnat.ltP Hj; split; first exact: upd_square.
exact: (@upd0_nonneg p A i j SA Hi Hj NA).
Qed.
Lemma upd0_sub A i j : graph p A -> (i < p)%N -> (j < p)%N -> subgraph (upd A i j Z0) A.
Proof.
move=> [SA NA] /ssrnat.ltP Hi /ssrnat.ltP Hj x y.
by rewrite /edge (get_upd _ _ _ SA) //; case: andb.
Qed.
Lemma upd0_without A i j : graph p A -> edge A i j -> without A (upd A i j Z0) i j.
Proof.
move=> [SA NA] E; have [Hi Hj] := edge_lt _ _ _ _ SA E; split=> // x y.
by rewrite (get_upd _ _ _ SA).
Qed.

Lemma subgraph_refl A : subgraph A A. Proof. by []. Qed.
Lemma subgraph_trans A B C : subgraph A B -> subgraph B C -> subgraph A C.
Proof. by move=> H1 H2 i j /H1 /H2. Qed.
Lemma failed_sub A Gs x : (exists2 G, In G Gs & subgraph A G) -> failed cf rnds [:: A] x -> failed cf rnds Gs x.
Proof.
move=> [G HG SG] [B [I [rnd [HB [G' [<-|[]] SB] E]]]]; exists B, I, rnd; split=> //.
by exists G => //; apply: subgraph_trans SG.
Qed.

Lemma prune_loop0 I (s : sobj) dag (m : model) :
  prune_loop cf rnds 0 I s dag m = if Z.ltb Z0 (msum dag) then (s, Err OutOfFuel) else (s, Ok [::]).
Proof. by []. Qed.
Lemma prune_loopS fuel I (s : sobj) dag (m : model) :
  prune_loop cf rnds fuel.+1 I s dag m =
  if Z.ltb Z0 (msum dag) then
    match weakest_edge (mB m) with
    | Err x => (s, Err x)
    | Ok (i, j) =>
        let dag' := upd dag i j Z0 in
        sbind (sdag cf rnds s dag' I) (fun s r =>
        sbind (prune_loop cf rnds fuel I s dag' r.1) (fun s ms => (s, Ok (r.1 :: ms))))
    end
  else (s, Ok [::]).
Proof. by []. Qed.

(** The loop, whatever the weights: all models are of subgraphs. *)
Lemma prune_loop_sub fuel I (s : sobj) dag (m : model) : reached cf s.1 -> graph p dag ->
  let r := prune_loop cf rnds fuel I s dag m in
  reached cf r.1.1 /\
  forall ms, r.2 = Ok ms -> forall m', In m' ms -> fitted_for cf I m' /\ subgraph (mA m') dag.
Proof.
move=> HS HG; elim: fuel s dag m HS HG => [|fuel IH] s dag m HS HG; rewrite ?prune_loop0 ?prune_loopS.
  by case: Z.ltb; split=> // ms [<-].
case: (msum_pos HG) => HE; last by split=> // ms [<-].
have p0 := edge_p HG HE.
case: (weakest_edge_spec (mB m) p0) => i [j [-> _]]; cbv zeta.
have GU := upd0_graph HG (ltn_ord i) (ltn_ord j); have SU := upd0_sub HG (ltn_ord i) (ltn_ord j).
case: (sdag_spec I HS GU); case: (sdag cf rnds s _ I) => s' [[m' x]|x]; rewrite /sbind /=; move=> HS' // [EA HF _].
case: (IH s' _ m' HS' GU); case: (prune_loop cf rnds fuel I s' _ m') => s'' [ms|x'] /= HS'' H; split=> // ms0 [<-] m0 [<-|/(H _ erefl) [H1 H2]].
  by rewrite EA.
by split=> //; apply: subgraph_trans SU.
Qed.

(** The loop, if no graph with an edge has B = 0 *)
Lemma prune_loop_chain fuel I (s : sobj) dag (m : model) : some_weight cf -> reached cf s.1 -> graph p dag ->
  (nnz dag <= fuel)%coq_nat -> mA m = dag -> supported dag (mB m) -> ((exists i j, edge dag i j) -> mB m <> 0) ->
  let r := prune_loop cf rnds fuel I s dag m in
  match r.2 with
  | Ok ms => pruned (m :: ms) /\ size ms = nnz dag
  | Err x => failed cf rnds [:: dag] x
  end.
Proof.
move=> W HS HG; elim: fuel s dag m HS HG => [|fuel IH] s dag m HS HG HN EA SB B0; rewrite ?prune_loop0 ?prune_loopS.
  case: (msum_pos HG) => HE.
    have [i [j E]] := HE; have := @nnz_upd0 p _ _ _ (proj1 HG) E; lia.
  split; first by constructor=> i j E; apply: HE; exists i, j; rewrite -EA.
  by rewrite /=; lia.
case: (msum_pos HG) => HE; last first.
  split; first by constructor=> i j E; apply: HE; exists i, j; rewrite -EA.
  rewrite /nnz; case E: where2 => [|[i j] xs] //; case: HE; exists i, j.
  have : In (i, j) (where2 (length dag) (fun i j => nz (get dag i j))) by rewrite E; left.
  by move/where2_In => [_ [_ /nz_true]].
have p0 := edge_p HG HE.
case: (weakest_edge_spec (mB m) p0) => i [j [-> [WE|[/(B0 HE) //]]]]; cbv zeta.
have E : edge dag i j by apply: SB; case: WE.
have GU := upd0_graph HG (ltn_ord i) (ltn_ord j); have SU := upd0_sub HG (ltn_ord i) (ltn_ord j).
have NU := @nnz_upd0 p _ _ _ (proj1 HG) E.
case: (sdag_spec I HS GU); case: (sdag cf rnds s _ I) => s' [[m' x]|x]; rewrite /sbind /=; move=> HS'; last first.
  by apply: failed_sub; exists dag => //; left.
move=> [EA' [_ _ SB' _ _] B0'].
have HN' : (nnz (upd dag i j Z0) <= fuel)%coq_nat by lia.
have SB2 : supported (upd dag i j Z0) (mB m') by rewrite -EA'.
have := IH s' _ m' HS' GU HN' EA' SB2 (B0' W).
case: (prune_loop cf rnds fuel I s' _ m') => s'' [ms|x'] /=; last by apply: failed_sub; exists dag => //; left.
move=> [PM SZ]; split; last by rewrite SZ NU.
by apply: pruned_step PM; [exact: WE | rewrite EA EA'; apply: upd0_without].
Qed.

(** ** One graph and all graphs *)

Lemma prune_eachS fuel prune t I (s : sobj) G Gs :
  prune_each cf rnds fuel prune t I s (G :: Gs) =
  sbind (prune_graph cf rnds fuel prune t I s G) (fun s ms =>
  sbind (prune_each cf rnds fuel prune t I s Gs) (fun s ms' => (s, Ok (ms ++ ms')))).
Proof. by []. Qed.

Lemma prune_graph_sub fuel prune I (s : sobj) G : reached cf s.1 -> graph p G ->
  let r := prune_graph cf rnds fuel prune None I s G in
  reached cf r.1.1 /\
  forall ms, r.2 = Ok ms -> forall m, In m ms -> fitted_for cf I m /\ if prune then subgraph (mA m) G else mA m = G.
Proof.
move=> HS HG; rewrite /prune_graph.
case: (sdag_spec I HS HG); case: (sdag cf rnds s _ I) => s' [[m x]|x]; rewrite /sbind /=; move=> HS' // [EA HF _].
case: prune => /=; last by split=> // ms [<-] m' [<-|[]].
case: (prune_loop_sub fuel I m HS' HG); case: (prune_loop cf rnds fuel I s' _ m) => s'' [ms|x'] /= HS'' H; split=> //.
by move=> ms0 [<-] m0 [<-|/(H _ erefl) //]; split=> //; rewrite EA.
Qed.

Lemma prune_graph_chain fuel I (s : sobj) G : some_weight cf -> reached cf s.1 -> graph p G -> (p * p <= fuel)%N ->
  let r := prune_graph cf rnds fuel true None I s G in
  match r.2 with
  | Ok ms => exists m ms', [/\ ms = m :: ms', mA m = G, pruned ms & edge_count G (size ms')]
  | Err x => failed cf rnds [:: G] x
  end.
Proof.
move=> W HS HG FU; rewrite /prune_graph.
case: (sdag_spec I HS HG); case: (sdag cf rnds s _ I) => s' [[m x]|x]; rewrite /sbind /=; move=> HS' // [EA HF B0].
have HN : (nnz G <= fuel)%coq_nat.
  have := @nnz_le p G (proj1 HG); move/ssrnat.leP: FU; rewrite -multE; lia.
have SB : supported G (mB m) by case: HF; rewrite EA.
have := prune_loop_chain I W HS' HG HN EA SB (B0 W).
case: (prune_loop cf rnds fuel I s' _ m) => s'' [ms|x'] //= [PM SZ]; exists m, ms; split=> //.
rewrite SZ /nnz (square_length (proj1 HG)); exact: (@edge_count_exists p G (proj1 HG)).
Qed.

Lemma prune_each_sub fuel prune I (s : sobj) Gs : reached cf s.1 -> Forall (graph p) Gs ->
  let r := prune_each cf rnds fuel prune None I s Gs in
  reached cf r.1.1 /\
  forall ms, r.2 = Ok ms -> forall m, In m ms -> fitted_for cf I m /\
    exists2 G, In G Gs & if prune then subgraph (mA m) G else mA m = G.
Proof.
move=> HS HGs; elim: Gs s HS HGs => [|G Gs IH] s HS HGs; first by split=> // ms [<-].
rewrite prune_eachS.
case: (prune_graph_sub fuel prune I HS (Forall_inv HGs)).
case: (prune_graph cf rnds fuel prune None I s G) => s' [ms|x]; rewrite /sbind /=; move=> HS' // H.
case: (IH s' HS' (Forall_inv_tail HGs)).
case: (prune_each cf rnds fuel prune None I s' Gs) => s'' [ms'|x'] /= HS'' H'; split=> // ms0 [<-] m.
move=> HI; case: (in_app_or _ _ _ HI) => [/(H _ erefl) [H1 H2]|/(H' _ erefl) [H1 [G' HG' H2]]]; split=> //.
  by exists G => //; left.
by exists G' => //; right.
Qed.

Lemma prune_each_chain fuel I (s : sobj) Gs : some_weight cf -> reached cf s.1 -> Forall (graph p) Gs -> (p * p <= fuel)%N ->
  let r := prune_each cf rnds fuel true None I s Gs in
  match r.2 with
  | Ok ms => exists mss, ms = concat mss /\
      Forall2 (fun G ms => exists m ms', [/\ ms = m :: ms', mA m = G, pruned ms & edge_count G (size ms')]) Gs mss
  | Err x => failed cf rnds Gs x
  end.
Proof.
move=> W HS HGs FU; elim: Gs s HS HGs => [|G Gs IH] s HS HGs; first by exists [::].
rewrite prune_eachS.
have := prune_graph_chain I W HS (Forall_inv HGs) FU.
case: (prune_graph_sub fuel true I HS (Forall_inv HGs)).
case: (prune_graph cf rnds fuel true None I s G) => s' [ms|x]; rewrite /sbind /=; move=> HS' _; last first.
  by apply: failed_sub; exists G => //; left.
move=> H; have := IH s' HS' (Forall_inv_tail HGs).
case: (prune_each cf rnds fuel true None I s' Gs) => s'' [ms'|x'] /=; last first.
  by move=> [A [J [rnd [GA [G' HG' SG] E]]]]; exists A, J, rnd; split=> //; exists G' => //; right.
by move=> [mss [-> H']]; exists (ms :: mss); split=> //; constructor.
Qed.

(** C52 *)
Lemma prune_graphs_chain fuel (s : sobj) Gs : some_weight cf -> reached cf s.1 -> Forall (graph p) Gs -> Gs <> [::] ->
  (p * p <= fuel)%N ->
  let r := prune_graphs cf rnds fuel true None s Gs in
  (exists mss, r.2 = Ok (concat mss) /\
     Forall2 (fun G ms => exists m ms', [/\ ms = m :: ms', mA m = G, pruned ms & edge_count G (size ms')]) Gs mss) \/
  (exists x, r.2 = Err x /\ failed cf rnds Gs x).
Proof.
move=> W HS HG NE FU; case: Gs HG NE => // G Gs HG _; rewrite /prune_graphs.
have := prune_each_chain (iota 0 (length G)) W HS HG FU.
cbv zeta; case: ((prune_each cf rnds fuel true None (iota 0 (length G)) s (G :: Gs)).2) => [ms [mss [-> H]]|x H].
  by left; exists mss.
by right; exists x.
Qed.

Lemma prune_graphs_sub fuel prune (s : sobj) Gs : reached cf s.1 -> Forall (graph p) Gs ->
  let r := prune_graphs cf rnds fuel prune None s Gs in
  reached cf r.1.1 /\
  forall ms, r.2 = Ok ms -> forall m, In m ms -> fitted_for cf (iota 0 p) m /\
    exists2 G, In G Gs & if prune then subgraph (mA m) G else mA m = G.
Proof.
case: Gs => [|G Gs] HS HG; first by split.
have E : length G = p by have [[]] := Forall_inv HG.
rewrite /prune_graphs E; exact: prune_each_sub.
Qed.

(** C52 without pruning *)
Lemma prune_graphs_plain fuel (s : sobj) Gs : reached cf s.1 -> Forall (graph p) Gs -> Gs <> [::] ->
  let r := prune_graphs cf rnds fuel false None s Gs in
  (exists ms, r.2 = Ok ms /\ map (@mA F p l e) ms = Gs) \/ (exists x, r.2 = Err x /\ failed cf rnds Gs x).
Proof.
move=> HS HG NE; case: Gs HG NE => // G0 Gs0 HG _; rewrite /prune_graphs.
move: (iota 0 (length G0)) => I; move: (G0 :: Gs0) HG => Gs HG.
elim: Gs s HS HG => [|G Gs IH] s HS HG; first by left; exists [::].
rewrite prune_eachS /prune_graph.
case: (sdag_spec I HS (Forall_inv HG)); case: (sdag cf rnds s _ I) => s' [[m x]|x]; rewrite /sbind /=; move=> HS'; last first.
  move=> H; right; exists x; split=> //; apply: failed_sub H; exists G => //; by left.
move=> [EA HF _]; case: (IH s' HS' (Forall_inv_tail HG)); case: (prune_each cf rnds fuel false None I s' Gs) => s'' /=.
  by move=> r [ms [-> E]]; left; exists (m :: ms); rewrite /= E EA.
move=> r [x' [-> [A [J [rnd [GA [G' HG' SG] E]]]]]]; right; exists x'; split=> //.
by exists A, J, rnd; split=> //; exists G' => //; right.
Qed.

(** Thresholding *)
Lemma threshold_graph_spec t (B : 'M[F]_p) A : threshold_graph t B = Ok A ->
  square p A /\ exists mx, amax B = Ok mx /\ forall i j : 'I_p, get A i j = if mx * t < `|B i j| then Zpos xH else Z0.
Proof.
rewrite /threshold_graph; case E: amax => [mx|] //= [<-]; split.
  split; first by rewrite -[length _]/(size _) size_map size_enum_ord.
  by apply/Forall_forall => r /in_map_iff [i [<- _]]; rewrite -[length _]/(size _) size_map size_enum_ord.
exists mx; split=> // i j; rewrite /get !ListnthE (nth_map i) ?size_enum_ord // (nth_map j) ?size_enum_ord //.
by rewrite !nth_ord_enum.
Qed.

Lemma foldl_max (T : realFieldType) (x : T) xs : let m := foldl Order.max x xs in m \in x :: xs /\ forall y, y \in x :: xs -> y <= m.
Proof.
elim: xs x => [|y xs IH] x /=; first by rewrite inE eqxx; split=> // y; rewrite inE => /eqP ->.
have [H1 H2] := IH (Order.max x y); split.
  move: H1; rewrite !inE => /orP [/eqP ->|->]; last by rewrite !orbT.
  by rewrite maxEle; case: ifP; rewrite eqxx ?orbT.
move=> z; rewrite !inE => /or3P [/eqP ->|/eqP ->|Hz].
- by apply: le_trans (H2 _ (mem_head _ _)); rewrite le_maxr lexx.
- by apply: le_trans (H2 _ (mem_head _ _)); rewrite le_maxr lexx orbT.
- by apply: H2; rewrite inE Hz orbT.
Qed.

Lemma bigmax_spec (T : realFieldType) n (f : 'I_n -> T) : (0 < n)%N -> (forall i, 0 <= f i) ->
  (exists i, f i = \big[Order.max/0]_(i < n) f i) /\ forall i, f i <= \big[Order.max/0]_(i < n) f i.
Proof.
move=> n0 f0; have E0 : enum 'I_n != [::] by rewrite -size_eq0 size_enum_ord -lt0n.
have -> : \big[Order.max/0]_(i < n) f i = \big[Order.max/0]_(i <- enum 'I_n) f i.
  by rewrite enumT; congr (bigop _ _ _); rewrite /index_enum unlock.
have IE i : i \in enum 'I_n by rewrite mem_enum.
have [H1 H2] : (exists i, f i = \big[Order.max/0]_(i <- enum 'I_n) f i) /\
         forall i, i \in enum 'I_n -> f i <= \big[Order.max/0]_(i <- enum 'I_n) f i.
  elim: (enum 'I_n) E0 => [|i [|j r] IH] // _; first by rewrite big_cons big_nil (max_idPl (f0 i)); split; [exists i | move=> k; rewrite inE => /eqP ->].
  rewrite big_cons; have [[k Hk] H] := IH isT; split.
    by rewrite maxEle; case: ifP => _; [exists k | exists i].
  move=> k0; rewrite inE le_maxr => /orP [/eqP ->|/H ->]; by rewrite ?lexx ?orbT.
by split=> // i; apply: H2.
Qed.

Lemma amax_spec (X : 'M[F]_p) mx : amax X = Ok mx -> (exists i j, `|X i j| = mx) /\ forall i j, `|X i j| <= mx.
Proof.
rewrite /amax; case: eqP => // /eqP; rewrite -lt0n => p0 [E].
have R i := bigmax_spec p0 (fun j => normr_ge0 (X i j)).
have C0 i : 0 <= \big[Order.max/0]_(j < p) `|X i j| by have [[j <-] _] := R i; apply: normr_ge0.
have [[i Hi] H] := bigmax_spec p0 C0; rewrite -E; split.
  by have [[j Hj] _] := R i; exists i, j; rewrite Hj.
by move=> x y; apply: le_trans (H x); have [_] := R x; apply.
Qed.

Lemma sbindOk S A B (s : S) (a : A) (f : S -> A -> S * res B) : sbind (s, Ok a) f = f s a. Proof. by []. Qed.
Lemma sbindErr S A B (s : S) x (f : S -> A -> S * res B) : sbind (s, Err x) f = (s, Err x). Proof. by []. Qed.

Lemma prune_graph_threshold fuel t I (s : sobj) G : reached cf s.1 -> graph p G -> (0 < p)%N ->
  let r := prune_graph cf rnds fuel true (Some t) I s G in
  reached cf r.1.1 /\
  match r.2 with
  | Ok ms => exists2 m, ms = [:: m] & thresholded cf t I G m
  | Err x => exists A J rnd, graph p A /\ fit cf A J None rnd = Err x
  end.
Proof.
move=> HS HG p0; rewrite /prune_graph.
case: (sdag_spec I HS HG); case: (sdag cf rnds s _ I) => s' [[m0 x]|x]; rewrite ?sbindOk ?sbindErr /fst /snd; move=> HS'; last first.
  by move=> [A [J [rnd [GA _ E]]]]; split=> //; exists A, J, (rnds rnd).
move=> [EA HF _]; case ET: threshold_graph => [A|ex]; last first.
  by move: ET; rewrite /threshold_graph /amax (negPf (lt0n_neq0 p0)).
have [SA [mx [EM GA]]] := threshold_graph_spec ET.
have GG : graph p A.
  split=> // i j; case: (boolP ((i < p)%N && (j < p)%N)) => [/andP [Hi Hj]|H].
    rewrite (GA (Ordinal Hi) (Ordinal Hj)); case: ifP; lia.
  rewrite (@get_out p) //.
  by move=> [/ssrnat.ltP Hi /ssrnat.ltP Hj]; rewrite Hi Hj in H.
case: (sdag_spec I HS' GG); case: (sdag cf rnds s' _ I) => s2 [[m y]|y]; rewrite ?sbindOk ?sbindErr /fst /snd; move=> HS2; last first.
  by move=> [A' [J [rnd [GA' _ E]]]]; split=> //; exists A', J, (rnds rnd).
by move=> [EA2 HF2 _]; split=> //; exists m => //; exists m0, mx; split=> //; [exact: amax_spec|rewrite EA2].
Qed.

Lemma prune_graphs_threshold fuel t (s : sobj) Gs : reached cf s.1 -> Forall (graph p) Gs -> Gs <> [::] -> (0 < p)%N ->
  let r := prune_graphs cf rnds fuel true (Some t) s Gs in
  (exists ms, r.2 = Ok ms /\ Forall2 (thresholded cf t (iota 0 p)) Gs ms) \/
  (exists x A J rnd, [/\ r.2 = Err x, graph p A & fit cf A J None rnd = Err x]).
Proof.
move=> HS HG NE p0; case: Gs HG NE => // G0 Gs0 HG _; rewrite /prune_graphs.
have -> : length G0 = p by have [[]] := Forall_inv HG.
move: (iota 0 p) => I; move: (G0 :: Gs0) HG => Gs HG.
elim: Gs s HS HG => [|G Gs IH] s HS HG; first by left; exists [::].
rewrite prune_eachS; cbv zeta.
case: (prune_graph_threshold fuel t I HS (Forall_inv HG) p0).
case: (prune_graph cf rnds fuel true _ I s G) => s' [ms|x]; rewrite ?sbindOk ?sbindErr /fst /snd; move=> HS'; last first.
  by move=> [A [J [rnd [GA E]]]]; right; exists x, A, J, rnd.
move=> [m -> HT]; case: (IH s' HS' (Forall_inv_tail HG)); case: (prune_each cf rnds fuel true _ I s' Gs) => s3 r /=.
  by move=> [ms' [-> E]]; left; exists (m :: ms'); split=> //; constructor.
by move=> [x' [A' [J [rnd [-> GA' E]]]]]; right; exists x', A', J, rnd.
Qed.

Lemma prune_graphs_ends fuel (s : sobj) Gs : some_weight cf -> reached cf s.1 -> Forall (graph p) Gs -> Gs <> [::] ->
  (p * p <= fuel)%N ->
  exists r, r = (prune_graphs cf rnds fuel true None s Gs).2 /\
  ((exists ms, r = Ok ms /\ forall m, In m ms -> exists2 G, In G Gs & subgraph (mA m) G) \/
   (exists x, r = Err x /\ failed cf rnds Gs x)).
Proof.
move=> SW HS HG NE FU; eexists; split; first reflexivity.
case: (prune_graphs_chain SW HS HG NE FU) => [[mss [E _]]|H]; [left | by right].
exists (concat mss); split=> // m Hm.
by have [_ H] := prune_graphs_sub fuel true HS HG; have [_] := H _ E m Hm.
Qed.
End Prune.
