(** The number of calls and of fits (C120). *)
From Coq Require Import ZArith Lia List Permutation.
From mathcomp Require Import all_ssreflect all_algebra.
From Verif Require Import Base GraphModel GraphSpec TopoProofs EdgeProofs ListModel NumModel ScoreModel CacheSpec CacheProofs ScoreSpec HistProofs.
From Verif Require Import MainModel MainSpec FullModel FullSpec ListProofs PruneProofs PruneIProofs SelectProofs FitProofs LimitProofs RecordProofs FullProofs CostSpec.
Set Implicit Arguments.
Unset Strict Implicit.
Unset Printing Implicit Defensive.
Import Order.Theory GRing.Theory Num.Theory.
Local Open Scope nat_scope.
Local Open Scope ring_scope.

Lemma edge_count_le p A n : square p A -> acyclic A -> edge_count A n -> (n.*2 <= p * p.-1)%N.
Proof.
move=> SA AC [xs [ND [HX <-]]].
pose swap := fun e : nat * nat => (e.2, e.1); pose diag := List.map (fun i : nat => (i, i)) (List.seq 0 p).
have HS i j : In (i, j) (List.map swap xs) -> edge A j i by move=> /in_map_iff [[a b] [[<- <-] /HX]].
have HD i j : In (i, j) diag -> i = j /\ (i < p)%coq_nat by move=> /in_map_iff [a [[<- <-] /in_seq H]]; lia.
have LE : (length (xs ++ List.map swap xs ++ diag) <= length (pairs p))%coq_nat.
  apply: NoDup_incl_length.
    apply: NoDup_app => //.
      apply: NoDup_app.
      - by apply: FinFun.Injective_map_NoDup ND => -[a b] [c d] [-> ->].
      - by apply: FinFun.Injective_map_NoDup (seq_NoDup _ _) => a b [->].
      - by move=> [i j] /HS E /HD [Q _]; rewrite Q in E; case: (acyclic_asym _ _ _ AC E E).
    move=> [i j] /HX E /in_app_iff [/HS E'|/HD [Q _]]; first by case: (acyclic_asym _ _ _ AC E E').
    by rewrite Q in E; case: (acyclic_asym _ _ _ AC E E).
  move=> [i j] H; apply/pairs_In; move/in_app_iff: H => [/HX|/in_app_iff [/HS|/HD [<- L]]] //; move/(edge_lt _ _ _ _ SA); tauto.
have LP : length (pairs p) = (p * p)%N.
  by rewrite /pairs prod_length !seq_length.
move: LE; rewrite LP !app_length !map_length seq_length => LE; apply/ssrnat.leP; rewrite -addnn.
move: LE; rewrite -!plusE -!multE; case: p SA {HD diag LP} => [|q] _ /=; nia.
Qed.

Section Cost.
Variables (F : realFieldType) (p l e : nat) (cf : conf F p l e) (rnds : nat -> nat -> 'M[F]_p * 'M[F]_p).
Local Notation model := (model F p l e).
Local Notation sobj := (sobj F p l e).

Definition fits (st : option (cache model F)) : nat := if st is Some c then size (cAs c) else 0%N.

Lemma score_dag_fits st A I init rnd : (fits (score_dag cf st A I init rnd).1 <= (fits st).+1)%N.
Proof.
have W (c : cache model F) m s : (size (cAs (write (@copy_model F (cf_h cf) p l e) c A I m s).1) <= (size (cAs c)).+1)%N.
  by rewrite /write; case: find => [[k|]|x] //=; case: copy_model => [m'|x] /=; rewrite size_rcons.
rewrite /score_dag; case: st => [c|]; last by case: init => [m|]; case: fit => [[]|].
have G : (fits (match fit cf A I init rnd with
    | Err x => (Some c, Err x)
    | Ok (m, s) => let '(c', w) := write (@copy_model F (cf_h cf) p l e) c A I m s in (Some c', bind w (fun _ => Ok (m, s)))
    end).1 <= (fits (Some c)).+1)%N.
  by case: fit => [[m s]|x] //=; have := W c m s; case: write.
by case: init G => [m|] G //; case: read => [[r|]|x] //=.
Qed.

Lemma sdag_cost (s s' : sobj) A I r : sdag cf rnds s A I = (s', r) -> s'.2 = s.2.+1 /\ (fits s'.1 <= (fits s.1).+1)%N.
Proof. by move=> [<- _]; split; [|exact: (score_dag_fits s.1 A I None (rnds s.2))]. Qed.

(** Without a weight the loop does not end *)
Lemma prune_loop_stuck fuel I (s : sobj) dag (m : model) ms s' : reached cf s.1 -> graph p dag -> acyclic dag -> kept cf s.1 I m -> mA m = dag -> mB m = 0 ->
  (exists i j, edge dag i j) -> prune_loop cf rnds fuel I s dag m <> (s', Ok ms).
Proof.
elim: fuel s m ms s' => [|fuel IH] s m ms s' HS HG AC K EA B0 HE; rewrite ?prune_loop0 ?prune_loopS; case: (msum_pos HG) => // _ //.
have p0 := edge_p HG HE.
have [i [j [-> [[N _]|[_ Ei Ej]]]]] := weakest_edge_spec (mB m) p0; first by move: N; rewrite B0 mxE eqxx.
cbv beta iota zeta; have -> : upd dag i j Z0 = dag.
  have [SA _] := HG; apply: (@mat_ext p); [exact: upd_square | exact: SA | move=> x y Hx Hy].
  rewrite (get_upd _ _ _ SA); [|exact/ssrnat.ltP|exact/ssrnat.ltP].
  case: PeanoNat.Nat.eqb_spec => //= ->; case: PeanoNat.Nat.eqb_spec => //= ->; rewrite Ei Ej.
  case: (Z.eq_dec (get dag 0 0) Z0) => [->//|N]; have E : edge dag 0 0 by [].
  by case: (acyclic_asym _ _ _ AC E E).
move=> /(@sbind_inv _ _ _ _ _ _ _) [s1 [[m1 x1] [E1 /(@sbind_inv _ _ _ _ _ _ _) [s2 [ms2 [E2 _]]]]]].
have [m' [y [Em [Q1 Q2 _ _ _]]]] := kept_recorded K (rnds s.2) (conj (@List.incl_refl _ I) (@List.incl_refl _ I)).
have Q : m' = m1 by move: E1; rewrite /sdag -EA Em => -[_ ->].
have [R1 EA1 _] := sdag_got HS HG E1.
by apply: (IH s1 m1 ms2 s2 R1 HG AC (sdag_kept HS HG E1) EA1 _ HE) E2; rewrite -Q -Q2.
Qed.

Lemma nnz0 A : ~ (exists i j, edge A i j) -> nnz A = 0%N.
Proof.
move=> N; rewrite /nnz; case E: where2 => [|[i j] xs] //; case: N; exists i, j.
have : In (i, j) (where2 (length A) (fun i j => nz (get A i j))) by rewrite E; left.
by move/where2_In => [_ [_ /nz_true]].
Qed.

Lemma prune_loop_cost fuel I (s s' : sobj) dag (m : model) ms : reached cf s.1 -> graph p dag -> acyclic dag -> kept cf s.1 I m -> mA m = dag ->
  NumSpec.supported dag (mB m) -> prune_loop cf rnds fuel I s dag m = (s', Ok ms) ->
  [/\ size ms = nnz dag, s'.2 = (s.2 + size ms)%N & (fits s'.1 <= fits s.1 + size ms)%N].
Proof.
elim: fuel s s' dag m ms => [|fuel IH] s s' dag m ms HS HG AC K EA SB.
  by rewrite prune_loop0; case: (msum_pos HG) => // /nnz0 -> [<- <-]; rewrite !addn0.
move=> EP; move: (EP); rewrite prune_loopS; case: (msum_pos HG) => [HE|/nnz0 -> [<- <-]]; last by rewrite !addn0.
have [i [j [-> [WE|[B0 _ _]]]]] := weakest_edge_spec (mB m) (edge_p HG HE); last by case: (prune_loop_stuck HS HG AC K EA B0 HE EP).
have E : edge dag i j by apply: SB; case: WE.
have GU := upd0_graph HG (ltn_ord i) (ltn_ord j).
cbv beta iota zeta => /(@sbind_inv _ _ _ _ _ _ _) [s1 [[m1 x1] [E1 /(@sbind_inv _ _ _ _ _ _ _) [s2 [ms2 [E2 [<- <-]]]]]]].
have [R1 A1 [[_ AC1 SB1 _ _] _]] := sdag_got HS GU E1; have [C1 F1] := sdag_cost E1; rewrite {}A1 in AC1 SB1.
have [_ A1 _] := sdag_got HS GU E1.
have [S2 C2 F2] := IH _ _ _ _ _ R1 GU AC1 (sdag_kept HS GU E1) A1 SB1 E2.
split; first by rewrite /= S2 (@nnz_upd0 p _ _ _ (proj1 HG) E).
  by rewrite C2 C1 /= addSnnS.
by rewrite /= -addSnnS; apply: leq_trans F2 _; rewrite leq_add2r.
Qed.

Lemma prune_graph_cost fuel prune I (s s' : sobj) G ms : reached cf s.1 -> graph p G ->
  prune_graph cf rnds fuel prune None I s G = (s', Ok ms) ->
  [/\ acyclic G, size ms = if prune then (nnz G).+1 else 1%N, s'.2 = (s.2 + size ms)%N & (fits s'.1 <= fits s.1 + size ms)%N].
Proof.
move=> HS HG; rewrite /prune_graph => /(@sbind_inv _ _ _ _ _ _ _) [s1 [[m1 x1] [E1]]].
have [R1 A1 [[_ AC1 SB1 _ _] _]] := sdag_got HS HG E1; have [C1 F1] := sdag_cost E1; rewrite {}A1 in AC1 SB1.
have [_ A1 _] := sdag_got HS HG E1; case: prune => /=; last first.
  by move=> [<- <-] /=; split=> //; rewrite ?C1 addn1.
move=> /(@sbind_inv _ _ _ _ _ _ _) [s2 [ms2 [E2 [<- <-]]]].
have [S2 C2 F2] := prune_loop_cost R1 HG AC1 (sdag_kept HS HG E1) A1 SB1 E2.
split=> //=; first by rewrite S2.
  by rewrite C2 C1 addSnnS.
by rewrite -addSnnS; apply: leq_trans F2 _; rewrite leq_add2r.
Qed.

Lemma prune_each_cost fuel prune I (s s' : sobj) Gs ms : reached cf s.1 -> Forall (graph p) Gs ->
  prune_each cf rnds fuel prune None I s Gs = (s', Ok ms) ->
  [/\ Forall acyclic Gs, size ms = if prune then sumn [seq (nnz G).+1 | G <- Gs] else size Gs, s'.2 = (s.2 + size ms)%N
    & (fits s'.1 <= fits s.1 + size ms)%N].
Proof.
elim: Gs s s' ms => [|G Gs IH] s s' ms HS HG; first by move=> [<- <-]; rewrite /= !addn0; split=> //; case: prune.
rewrite prune_eachS => /(@sbind_inv _ _ _ _ _ _ _) [s1 [m1 [E1 /(@sbind_inv _ _ _ _ _ _ _) [s2 [ms2 [E2 [<- <-]]]]]]].
have [R1 _] := prune_graph_got HS (Forall_inv HG) E1; have [AC1 S1 C1 F1] := prune_graph_cost HS (Forall_inv HG) E1.
have [AC2 S2 C2 F2] := IH _ _ _ R1 (Forall_inv_tail HG) E2.
split; first by constructor.
- by rewrite size_cat S1 S2 /=; clear; case: prune; rewrite ?add1n.
- by rewrite size_cat C2 C1 addnA.
- by rewrite size_cat addnA; apply: leq_trans F2 _; rewrite leq_add2r.
Qed.

Lemma prune_graphs_cost fuel prune (s s' : sobj) Gs ms : reached cf s.1 -> Forall (graph p) Gs ->
  prune_graphs cf rnds fuel prune None s Gs = (s', Ok ms) ->
  [/\ Forall acyclic Gs, size ms = if prune then sumn [seq (nnz G).+1 | G <- Gs] else size Gs, s'.2 = (s.2 + size ms)%N
    & (fits s'.1 <= fits s.1 + size ms)%N].
Proof. by case: Gs => [|G Gs] // HS HG; rewrite /prune_graphs; apply: prune_each_cost. Qed.

Lemma prune_I_loop_cost (s s' : sobj) G I js rs : prune_I_loop cf rnds s G I js = (s', Ok rs) ->
  [/\ size rs = size js, s'.2 = (s.2 + size rs)%N & (fits s'.1 <= fits s.1 + size rs)%N].
Proof.
elim: js s s' I rs => [|j js IH] s s' I rs; first by move=> [<- <-]; rewrite !addn0.
rewrite prune_I_loopS; cbv zeta => /(@sbind_inv _ _ _ _ _ _ _) [s1 [[m1 x1] [E1 /(@sbind_inv _ _ _ _ _ _ _) [s2 [ms2 [E2 [<- <-]]]]]]].
have [C1 F1] := sdag_cost E1; have [S2 C2 F2] := IH _ _ _ _ E2.
split; rewrite /= ?S2 ?C2 ?C1 ?addSnnS // -?addSnnS -?S2; by rewrite ?addSnnS //; apply: leq_trans F2 _; rewrite -addSnnS leq_add2r.
Qed.

(** The first call of _prune_I finds its result in the cache *)
Lemma prune_I_cost argsort (s s' : sobj) G m rs : sorts argsort -> length G = p -> kept cf s.1 (List.seq 0 p) m -> mA m = G ->
  prune_I cf rnds argsort None s G = (s', Ok rs) ->
  [/\ size rs = p.+1, s'.2 = (s.2 + size rs)%N & (fits s'.1 < fits s.1 + size rs)%N].
Proof.
move=> SO LG K EA; rewrite /prune_I LG.
cbv zeta => /(@sbind_inv _ _ _ _ _ _ _) [s1 [[m1 x1] [E1 /(@sbind_inv _ _ _ _ _ _ _) [s2 [rs2 [E2 [<- <-]]]]]]].
have [C1 _] := sdag_cost E1; have [S2 C2 F2] := prune_I_loop_cost E2.
have F1 : fits s1.1 = fits s.1.
  have [m' [y [Em _]]] := kept_recorded K (rnds s.2) (conj (@List.incl_refl _ (List.seq 0 p)) (@List.incl_refl _ _)).
  by move: E1; rewrite /sdag -EA Em => -[<- _].
have SA : size (argsort (variances m1)) = p.
  have [/Permutation_length + _] := SO (variances m1); rewrite seq_length /variances size_map size_enum_ord => Q; exact: Q.
split; first by rewrite /= S2 SA.
  by rewrite C2 C1 /= addSnnS.
by rewrite /= addnS ltnS -F1.
Qed.

Lemma reached_once st : reached cf st -> exists2 c, st = Some c & pairs_once c.
Proof.
move=> [cs [PC ->]]; have PC' : Forall (@proper F p l e) cs by apply: Forall_impl PC => c [].
have T1 : forall (A : mat) I J (m : model), same_set I J -> True -> True by [].
have T2 : forall (A : mat) (I : seq nat) (m m' : model), same_params m m' -> True -> True by [].
case: (@run_wf F p l e cf (fun _ _ _ => True) T1 T2 true cs (good_proper cf PC')) => [[_ //]|[xs [-> [[SX DX _] _]]]].
exists (lists xs) => // i j; rewrite /lists /= size_map => /andP [ij jn] EA SI.
have [x0 _] : exists x0 : mat * seq nat * model * F, true by case: xs jn {SX DX EA SI} => [|x xs]; [|exists x].
have ni := ltn_trans ij jn; move: EA SI; rewrite !(nth_map x0) // => EA SI.
have SQ k : (k < size xs)%N -> square p (eA (nth x0 xs k)).
  move=> Hk; apply: SX; elim: (xs) k Hk => [|y ys IH] [|k] //= Hk; [by left | right; exact: IH].
suff E : i = j by rewrite E ltnn in ij.
apply: (key_unique SX DX (SQ _ jn) ni jn (x0 := x0) (I := eI (nth x0 xs j))); apply/keyP; rewrite ?EA; try exact: SQ.
- by split.
- by split=> //; split; apply: List.incl_refl.
Qed.
End Cost.

Section Full.
Variables (F : realFieldType) (p e : nat) (w : world F p e) (a : args F).
Variable ges : seq 'rV[F]_p -> seq phase -> F -> mat.

Lemma fit_h_cost tr sg prune gs n h x : Forall (graph p) gs -> fit_h w a tr sg prune None gs n h = Ok x ->
  [/\ Forall acyclic gs, size (en_scores x) = if prune then sumn [seq (nnz G).+1 | G <- gs] else size gs,
     (en_obj x).2 = size (en_scores x) & (fits (en_obj x).1 <= size (en_scores x))%N].
Proof.
move=> GS; rewrite /fit_h; case: ifP => // _.
have R0 : reached (train_conf w a tr h) (new_sobj F p h e).1 := reached0 _.
case EG : prune_graphs => [s r] /(@bindOk _ _ _ _ _) [ms Em /(@bindOk _ _ _ _ _) [ys Ey /(@bindOk _ _ _ _ _) [c Ec [<-]]]].
rewrite Em in EG; have [AC S1 C1 F1] := prune_graphs_cost R0 GS EG.
have SY : size ys = size ms.
  have := test_scores_spec Ey; clear; move: ys; rewrite -(size_map (fun m => (m, mA m)) ms); elim: [seq _ | m <- ms] => [|x xs IH] ys H.
    by inversion H.
  by inversion H as [|x' y xs' ys' _ H']; subst; rewrite /= (IH _ H').
by rewrite /= size_map SY; split.
Qed.

(** C120 *)
Lemma full_cost data ig prune o seed store am J sc H : sorts (w_argsort w) ->
  (forall training gs, initial w ges training ig o = Ok gs -> Forall (graph p) gs) ->
  fit_full w a ges data ig prune None None o seed store = Ok (am, J, sc, Some H) ->
  forall gs Is s, hi_pruned H = Some (gs, Is) -> hi_cache H = Some s -> exists c ns,
  [/\ Forall2 edge_count (hi_initial H) ns /\ Forall (fun n => (n.*2 <= p * p.-1)%N) ns,
      size gs = if prune then sumn [seq n.+1 | n <- ns] else size (hi_initial H),
      size Is = p.+1, s.2 = (size gs + size Is)%N
    & [/\ s.1 = Some c, (size (cAs c) < s.2)%N & pairs_once c]].
Proof.
move=> SO HI; rewrite /fit_full => /(@bindOk _ _ _ _ _) [[|tr [|sg [|si [|? ?]]]] Es //] /=.
move=> /(@bindOk _ _ _ _ _) [gs0 Eg /(@bindOk _ _ _ _ _) [hs /= Eh /(@bindOk _ _ _ _ _) [d /= + /(@bindOk _ _ _ _ _) [x /= Ex]]]] /=.
rewrite fit_hs_table => Ed.
have GS := HI _ _ Eg.
have D0 : List.NoDup (List.map (@en_h F p e) [::]) by constructor.
have [D1 _ D3 _] := table_spec (@fit_hE F p e w a tr sg prune None gs0) D0 Ed.
case: (select_h_spec D1) => [[_]|[x' []]]; rewrite Ex // => -[<-] Hx _.
case: (D3 _ Hx) => [[//]|[k [_ Fx _]]]; rewrite add0n in Fx.
have [R [G0 _ [GG _]]] := fit_h_reached GS Fx; have [AC SS CC FF] := fit_h_cost GS Fx.
have HB : exists v, List.In (v, en_graph x) (en_scores x).
  exists (en_score x); move: Fx; rewrite /fit_h; case: ifP => // _; case: prune_graphs => s' r'.
  move=> /(@bindOk _ _ _ _ _) [ms _ /(@bindOk _ _ _ _ _) [ys _ /(@bindOk _ _ _ _ _) [c Ec [<-]]]] /=.
  case: (best_scoring_spec [seq (x.1, x.2.2) | x <- ys]) => [[_]|[c' []]]; rewrite Ec // => -[<-] [us [vs [-> _ _]]].
  by apply/in_app_iff; right; left; case: (c).
rewrite /finish; have PR := prune_I_reached (w_rnds w (en_pos x)) (w_argsort w) R GG.
case EP : prune_I PR => [s1 r] /= PR /(@bindOk _ _ _ _ _) [rs Er /(@bindOk _ _ _ _ _) [xs Ext /(@bindOk _ _ _ _ _) [b Eb]]].
rewrite /make_history => -[_ _ _]; case: Z.eqb_spec => // E0 [<-] gs Is s /=.
case: Z.ltb_spec => // _ [<- <-]; case: Z.ltb_spec => // _ [<-].
rewrite Er in EP; have [v Hv] := HB; have [m' [EA _ K]] := fit_h_kept GS Fx Hv.
have [S1 C1 F1] := prune_I_cost SO (square_length (proj1 GG)) K EA EP.
have SX : size xs = size rs.
  have := test_scores_spec Ext; clear; move: xs; elim: rs => [|y rs IH] xs H; first by inversion H.
  by inversion H as [|x' y' xs' ys' _ H']; subst; rewrite /= (IH _ H').
have [c Ec PO] := reached_once PR.
exists c, [seq nnz G | G <- gs0]; split=> //.
- split.
    have : Forall (graph p) gs0 by []. clear; elim: gs0 => [|G gs IH] H; constructor.
    have [SA _] := Forall_inv H; rewrite /nnz (square_length SA); exact: edge_count_exists.
    exact: IH (Forall_inv_tail H).
  move: GS AC; clear; elim: gs0 => [|G gs IH] H AC; constructor.
    have [SA _] := Forall_inv H; apply: (edge_count_le SA (Forall_inv AC)); rewrite /nnz (square_length SA); exact: edge_count_exists.
  exact: IH (Forall_inv_tail H) (Forall_inv_tail AC).
- by rewrite SS -map_comp.
- by rewrite SX.
- by rewrite C1 CC SX.
- by split=> //; move: F1; rewrite Ec C1 CC /= => F1; apply: leq_trans F1 _; rewrite leq_add2r.
Qed.
End Full.
