(** equivalence_class does not depend on the names of the variables (C125). *)
From Coq Require Import ZArith Lia List Permutation.
From mathcomp Require Import all_ssreflect all_algebra all_fingroup.
From Verif Require Import Base GraphSpec NumSpec RenameSpec GraphModel ListModel NumModel NumProofs RenameProofs EquivProofs RenScoreProofs.
From Verif Require Import ScoreModel CacheSpec CacheProofs ScoreSpec ScoreProofs HistProofs LoopProofs RunProofs MainModel MainSpec.
From Verif Require Import TopoProofs MeekProofs.
From Verif Require NdProofs.
From Verif Require Import CovModel PruneProofs PruneIProofs SelectProofs Max3Proofs NamesSpec NamesProofs ClassNamesSpec.
Set Implicit Arguments.
Unset Strict Implicit.
Unset Printing Implicit Defensive.
Import Order.Theory GRing.Theory Num.Theory.
Local Open Scope ring_scope.

(** Results up to a relation *)
Definition rrel (A B : Type) (P : A -> B -> Prop) (r : res A) (r' : res B) : Prop :=
  match r, r' with Ok a, Ok b => P a b | Err x, Err y => y = x | _, _ => False end.
Lemma rbind (A A' B B' : Type) (P : A -> A' -> Prop) (Q : B -> B' -> Prop) r r' c c' :
  rrel P r r' -> (forall a a', r = Ok a -> P a a' -> rrel Q (c a) (c' a')) -> rrel Q (bind r c) (bind r' c').
Proof. by case: r r' => [a|x] [a'|x'] //= H1 H2; apply: H2. Qed.
Lemma rmap_rrel (A B : Type) (k : A -> B) r r' : r' = res_map k r -> rrel (fun a b => b = k a) r r'.
Proof. by move=> ->; case: r. Qed.

(** Sets *)
Lemma InP (x : nat) s : reflect (In x s) (x \in s).
Proof. by apply: (iffP idP) => H; apply/NdProofs.list_In. Qed.
Lemma memb_set i I J : same_set I J -> memb i I = memb i J.
Proof. by move=> [H1 H2]; apply/idP/idP => /memb_In H; apply/memb_In; [exact: H1|exact: H2]. Qed.
Lemma set_eqb_set I J K L : same_set I J -> same_set K L -> set_eqb I K = set_eqb J L.
Proof.
move=> H1 H2; apply/set_eqbP/set_eqbP => H.
  exact: same_set_trans (same_set_sym H1) (same_set_trans H H2).
exact: same_set_trans H1 (same_set_trans H (same_set_sym H2)).
Qed.
Lemma same_set_refl I : same_set I I. Proof. by split; apply: incl_refl. Qed.

Section Sets.
Variables (F : realFieldType) (p l e : nat) (cf : conf F p l e).
Local Notation model := (model F p l e).
Variables (I I' : seq nat) (S : same_set I I').

Lemma rest_gradient_set m x : rest_gradient cf m I' x = rest_gradient cf m I x.
Proof.
rewrite /rest_gradient; case: new_model => //= nm; case: inv_noise => //= Ms; congr (Ok (_, _)).
by apply/matrixP => i j; rewrite !mxE (memb_set j S).
Qed.
Lemma res_map_id (A : Type) (k : A -> A) (r : res A) : (forall a, k a = a) -> res_map k r = r.
Proof. by move=> H; case: r => //= a; rewrite H. Qed.
Lemma solve_rest_set m : solve_rest cf m I' = solve_rest cf m I.
Proof.
rewrite /solve_rest; congr bind.
rewrite (@gd_map _ _ _ id (sub2 (F:=F) (p:=p) (l:=l) (e:=e)) (fun x => [:: entries x.1; entries x.2]) (rest_loss cf m) (rest_gradient cf m I)) //=.
  by apply: res_map_id => -[].
by move=> x; rewrite res_map_id //; exact: rest_gradient_set.
Qed.
Lemma round_set rnd pm : round cf I' rnd pm = round cf I rnd pm.
Proof.
rewrite /round; case: copy_model => //= c0; case: solve_B => //= B; case: solve_gamma => //= ga.
by rewrite solve_rest_set.
Qed.
Lemma alt_loop_set k rnd rnd' i d n pm ps cur : (forall i, rnd' i = rnd i) ->
  alt_loop cf k I' rnd' i d n pm ps cur = alt_loop cf k I rnd i d n pm ps cur.
Proof.
move=> Er; elim: k i d n pm ps cur => [|k IH] i d n pm ps cur //=; case: ifP => // _.
by rewrite Er round_set; case: round => //= -[[cm cs] dd]; exact: IH.
Qed.
Lemma initialize_omegas_set B : initialize_omegas cf B I' = initialize_omegas cf B I.
Proof. by apply/matrixP => i j; rewrite !mxE (memb_set j S). Qed.
Lemma fit_set A init rnd rnd' : (forall i, rnd' i = rnd i) -> fit cf A I' init rnd' = fit cf A I init rnd.
Proof.
move=> Er; rewrite /fit; case: is_dag => //= d; case: ifP => // _.
have -> : initial_model cf A I' = initial_model cf A I.
  rewrite /initial_model; case: initialize_B => //= B; case: initialize_gamma => //= ga; by rewrite initialize_omegas_set.
case: (match init with Some m => _ | None => _ end) => //= m; case: mscore => //= s.
by rewrite (alt_loop_set _ _ _ _ _ _ _ Er).
Qed.
End Sets.

(** Caches whose sets of targets are written differently *)
Section CacheSets.
Variables (F : realFieldType) (p l e : nat) (cf : conf F p l e).
Local Notation model := (model F p l e).
Record ceq (c c' : cache model F) : Prop := CEq {
  ce_A : cAs c' = cAs c; ce_s : cscores c' = cscores c; ce_m : cmodels c' = cmodels c;
  ce_I : size (cIs c') = size (cIs c) /\ forall k, same_set (nth [::] (cIs c) k) (nth [::] (cIs c') k) }.
Definition oceq (c c' : option (cache model F)) : Prop :=
  match c, c' with Some x, Some y => ceq x y | None, None => True | _, _ => False end.

Lemma find_ceq c c' A I I' : ceq c c' -> same_set I I' -> find c' A I' = find c A I.
Proof.
move=> [EA _ _ [EI HI]] S; rewrite /find EA; case: (cAs c) => // a As.
set K := [seq k <- _ | _]; case: K => [|i [|j r]] //; first by rewrite -(set_eqb_set (HI i) S).
rewrite !size_map; set K := i :: j :: r.
have -> : [seq k <- iota 0 (size K) | set_eqb (nth [::] [seq nth [::] (cIs c') i | i <- K] k) I'] =
          [seq k <- iota 0 (size K) | set_eqb (nth [::] [seq nth [::] (cIs c) i | i <- K] k) I].
  apply: eq_in_filter => k; rewrite mem_iota add0n => /andP [_ Hk]; rewrite !(nth_map 0%N) //.
  by apply/esym/set_eqb_set.
by [].
Qed.
Lemma write_ceq h c c' A I I' (m : model) s : ceq c c' -> same_set I I' ->
  let r := write (@copy_model F h p l e) c A I m s in let r' := write (@copy_model F h p l e) c' A I' m s in
  ceq r.1 r'.1 /\ r'.2 = r.2.
Proof.
move=> C S; rewrite /write (find_ceq A C S); case: find => [[k|]|x] //=.
have [EA Es Em [EI HI]] := C.
case: copy_model => [m'|x] /=; split=> //; constructor=> /=; rewrite ?EA ?Es ?Em ?size_rcons ?EI //; split=> // k;
  rewrite !nth_rcons EI; (case: ltnP => _; first exact: HI); case: eqP => _ //; exact: same_set_refl.
Qed.
Lemma score_dag_ceq st st' A I I' rnd rnd' : oceq st st' -> same_set I I' -> (forall i, rnd' i = rnd i) ->
  let r := score_dag cf st A I None rnd in let r' := score_dag cf st' A I' None rnd' in
  oceq r.1 r'.1 /\ r'.2 = r.2.
Proof.
move=> C S Er; rewrite !score_dagE.
have G : let r := go cf st A I None rnd in let r' := go cf st' A I' None rnd' in oceq r.1 r'.1 /\ r'.2 = r.2.
  rewrite /go (fit_set _ S _ _ Er); case: fit => [[m s]|x] //; case: st st' C => [c|] [c'|] //= C.
  by have := write_ceq (cf_h cf) A m s C S; case: write => c1 r1; case: write => c2 r2 /= [H ->].
case: st st' C G => [c|] [c'|] //= C G.
have -> : read c' A I' = read c A I by rewrite /read (find_ceq A C S) (ce_m C) (ce_s C).
by case: read => [[r|]|x].
Qed.
End CacheSets.

(** One Score object and its renamed version *)
Section Object.
Variables (F : realFieldType) (p l e : nat) (f g : nat -> nat) (t : 'S_p) (cf cf' : conf F p l e).
Hypothesis N : names f g t.
Hypothesis RC : renamed_conf g t cf cf'.
Hypothesis e0 : (0 < e)%N.
Hypothesis Ps : forall k, posdef (cf_sigmas cf k).
Hypothesis n0 : forall k, (0 < cf_n_obs cf k)%N.
Variables rnds rnds' : nat -> nat -> 'M[F]_p * 'M[F]_p.
Hypothesis Hr : forall k i, rnds' k i = rename_draws t (rnds k) i.
Local Notation model := (model F p l e).
Local Notation sobj := (sobj F p l e).
Local Notation ren := (rename p g).
Local Notation rm := (rename_model g t).
Let R : renaming p f g := proj1 N.
Let gt (i : 'I_p) : g i = t i := proj2 N i.

Definition drawn (A : mat) (I : seq nat) (m : model) : Prop :=
  exists k m0 s0, fit cf A I None (rnds k) = Ok (m0, s0) /\ same_params m0 m.
Lemma drawn_set A I J m : same_set I J -> drawn A I m -> drawn A J m.
Proof. by move=> S [k [m0 [s0 [E Q]]]]; exists k, m0, s0; rewrite (fit_set cf S A None (rnd := rnds k)). Qed.
Lemma drawn_params A I m m' : same_params m m' -> drawn A I m -> drawn A I m'.
Proof.
by move=> [E1 E2 E3 E4 E5] [k [m0 [s0 [E [H1 H2 H3 H4 H5]]]]]; exists k, m0, s0; split=> //; split; rewrite -?E1 -?E2 -?E3 -?E4 -?E5.
Qed.
Lemma drawn_facts A I m : graph p A -> drawn A I m -> mA m = A /\ supported A (mB m).
Proof.
move=> [SA NA] [k [m0 [s0 [E [H1 H2 _ _ _]]]]].
by have [[_ H3 H4 _] _] := fit_facts SA NA (I := I) (init := None) (rnd := rnds k) ltac:(by []) E; rewrite -H1 -H2.
Qed.

Record srel (s s' : sobj) : Prop := SRel {
  sr_n : s'.2 = s.2;
  sr_c : oceq (omap (rename_cache f g t) s.1) s'.1;
  sr_q : osq s.1;
  sr_w : exists xs, s.1 = Some (lists xs) /\ wf drawn xs }.

Definition strel (S S' A B : Type) (SP : S -> S' -> Prop) (P : A -> B -> Prop) (r : S * res A) (r' : S' * res B) : Prop :=
  SP r.1 r'.1 /\ rrel P r.2 r'.2.
Lemma sbind_rel (A A' B B' : Type) (P : A -> A' -> Prop) (Q : B -> B' -> Prop) (r : sobj * res A) (r' : sobj * res A') c c' :
  strel srel P r r' -> (forall s s' a a', srel s s' -> P a a' -> strel srel Q (c s a) (c' s' a')) ->
  strel srel Q (sbind r c) (sbind r' c').
Proof.
by case: r r' => s [a|x] [s' [a'|x']] [/= H1 H2] H //; rewrite /sbind /=; apply: H.
Qed.

Lemma srel0 : srel (new_sobj F p l e) (new_sobj F p l e).
Proof.
constructor=> //=; first by constructor=> //=; split=> // -[|k]; exact: same_set_refl.
  by move=> c [<-].
by exists [::]; split=> //; split=> // x [].
Qed.

Lemma sdag_rel s s' A I I' : srel s s' -> graph p A -> same_set (List.map f I) I' ->
  strel srel (fun x x' => x' = (rm x.1, x.2) /\ drawn A I x.1) (sdag cf rnds s A I) (sdag cf' rnds' s' (ren A) I').
Proof.
move=> [E2 C Q [xs [E1 W]]] [SA NA] S; pose c : call F p l e := Call A I None (rnds s.2).
have PR : proper c by split.
have [D1 D2] : score_dag cf' (omap (rename_cache f g t) s.1) (ren A) (List.map f I) None (rename_draws t (rnds s.2)) =
    (omap (rename_cache f g t) (score_dag cf s.1 A I None (rnds s.2)).1, rename_result g t (score_dag cf s.1 A I None (rnds s.2)).2) /\
    osq (score_dag cf s.1 A I None (rnds s.2)).1 := do_call_rename N RC e0 Ps n0 Q PR.
have [C1 C2] := @score_dag_ceq F p l e cf' _ _ (ren A) _ _ (rename_draws t (rnds s.2)) (rnds' s'.2) C S ltac:(by rewrite E2; apply: Hr).
have H m1 s1 : fit cf A I None (rnds s.2) = Ok (m1, s1) -> drawn A I m1 by move=> E; exists s.2, m1, s1.
case: (@call_some F p l e cf drawn drawn_set drawn_params xs c PR W H) => ys [r [E3 W' _ HE]].
have E4 : score_dag cf s.1 A I None (rnds s.2) = (Some (lists (xs ++ ys)), r) by rewrite E1; exact: E3.
rewrite E4 in D1 D2; rewrite D1 in C1 C2; rewrite /sdag; cbv zeta; rewrite E4; split.
  by constructor; [rewrite [LHS]/= E2|exact: C1|exact: D2|exists (xs ++ ys)].
rewrite [X in rrel _ _ X]/= C2; case: r E3 HE {D1 E4 D2 C1 C2} => [[m1 s1]|x] E3 HE //=; split=> //.
by case: (HE _ _ erefl).
Qed.

(** Pruning the graphs *)
Lemma full_rename : same_set (List.map f (iota 0 p)) (iota 0 p).
Proof.
have II j : In j (iota 0 p) <-> (j < p)%coq_nat.
  have -> : iota 0 p = List.seq 0 p by []. rewrite in_seq; lia.
split=> j; rewrite in_map_iff.
  by move=> [i [<- /II Hi]]; apply/II/(f_lt _ _ _ R).
by move=> /II Hj; exists (g j); split; [apply: (fg _ _ _ R)|apply/II/(g_lt _ _ _ R)].
Qed.
Lemma ord_f (i' : 'I_p) : nat_of_ord i' = f (t i').
Proof. by rewrite -gt (fg _ _ _ R). Qed.

Lemma weakest_rel A (B : 'M[F]_p) : supported A B -> different_weights A B -> (exists i j : 'I_p, edge A i j) ->
  exists i j : 'I_p, weakest_edge B = Ok (nat_of_ord i, nat_of_ord j) /\ weakest_edge (rename_mx t B) = Ok (f i, f j).
Proof.
move=> SB D [a [b Eab]]; have p0 : (0 < p)%N by apply: leq_ltn_trans (ltn_ord a).
have [i [j [E1 W1]]] := weakest_edge_spec B p0; have [i' [j' [E2 W2]]] := weakest_edge_spec (rename_mx t B) p0.
have [NB _] := D _ _ Eab; exists i, j; split=> //; rewrite E2.
case: W1 => [[B1 M1]|[Z _ _]]; last by case: NB; rewrite Z mxE.
case: W2 => [[B2 M2]|[Z _ _]]; last first.
  by case: NB; have := congr1 (fun X : 'M[F]_p => X ((t^-1)%g a) ((t^-1)%g b)) Z; rewrite !mxE !permKV.
rewrite mxE in B2; have L1 := M1 _ _ B2.
have L2 := M2 ((t^-1)%g i) ((t^-1)%g j); rewrite !mxE !permKV in L2; move: (L2 B1) => {}L2.
have EQ : `|B i j| = `|B (t i') (t j')| by apply/eqP; rewrite eq_le L1 L2.
have [_ U] := D i j (SB _ _ B1).
by have [-> ->] := U _ _ (SB _ _ B2) EQ; rewrite (ord_f i') (ord_f j').
Qed.

Lemma upd_rename A (i j : 'I_p) : square p A -> upd (ren A) (f i) (f j) Z0 = ren (upd A i j Z0).
Proof.
move=> SA; have SR := rename_square p g A; have fl (k : 'I_p) : (f k < p)%coq_nat by apply/(f_lt _ _ _ R)/ssrnat.ltP.
have il (k : 'I_p) : (k < p)%coq_nat by apply/ssrnat.ltP.
apply: (@mat_ext p); [exact: upd_square|exact: rename_square|] => x y Hx Hy.
rewrite (get_upd _ _ _ SR) // !(get_rename _ _ _ R) //; last exact: upd_square.
rewrite (get_upd _ _ _ SA) //.
have E a (b : 'I_p) : Nat.eqb a (f b) = Nat.eqb (g a) b.
  by apply/Nat.eqb_spec/Nat.eqb_spec => [->|<-]; rewrite ?(gf _ _ _ R) ?(fg _ _ _ R).
by rewrite !E.
Qed.

Lemma ren_graph A : graph p A -> graph p (ren A).
Proof. by move=> [SA NA]; split; [exact: rename_square|exact: (rename_nonneg _ _ _ R)]. Qed.
Lemma edge_ord A i j : square p A -> edge A i j -> exists a b : 'I_p, [/\ i = a, j = b & edge A a b].
Proof.
move=> SA E; case: (ltnP i p) => Hi; last by case: E; rewrite (get_out SA) // => -[]; move/ssrnat.leP: Hi; lia.
case: (ltnP j p) => Hj; last by case: E; rewrite (get_out SA) // => -[_]; move/ssrnat.leP: Hj; lia.
by exists (Ordinal Hi), (Ordinal Hj).
Qed.
Lemma msum_rename A : graph p A -> Z.ltb Z0 (msum (ren A)) = Z.ltb Z0 (msum A).
Proof.
move=> GA; have [SA _] := GA; apply/(msum_pos (ren_graph GA))/(msum_pos GA) => -[i [j E]].
  by exists (g i), (g j); apply/(rename_edge _ _ _ R).
by exists (f i), (f j); apply/(rename_edge' _ _ _ R).
Qed.

Variable Gs : seq mat.
Definition from (A : mat) : Prop := exists2 G, In G Gs & subgraph A G.
Definition mrel (m m' : model) : Prop := [/\ m' = rm m, graph p (mA m) & from (mA m)].
Local Notation full := (iota 0 p).

Lemma mrel_drawn A m : graph p A -> from A -> drawn A full m -> mrel m (rm m).
Proof. by move=> GA FA D; have [E _] := drawn_facts GA D; split; rewrite ?E. Qed.

Section Loop.
Hypothesis HW : forall A m, graph p A -> from A -> drawn A full m -> different_weights A (mB m).
Lemma prune_loop_rel fuel s s' dag m : srel s s' -> graph p dag -> from dag -> drawn dag full m ->
  strel srel (Forall2 mrel) (prune_loop cf rnds fuel full s dag m) (prune_loop cf' rnds' fuel full s' (ren dag) (rm m)).
Proof.
elim: fuel s s' dag m => [|fuel IH] s s' dag m HS GD FD DD; rewrite ?prune_loop0 ?prune_loopS msum_rename //; case: (msum_pos GD) => HE; try by split=> //; constructor.
have [SA NA] := GD; have [EA SB] := drawn_facts GD DD.
have [i [j [-> ->]]] := weakest_rel SB (HW GD FD DD) ltac:(by case: HE => a [b /(edge_ord SA) [x [y [_ _ E]]]]; exists x, y).
cbv zeta; rewrite upd_rename //.
have GU := upd0_graph GD (ltn_ord i) (ltn_ord j).
have FU : from (upd dag i j Z0) by case: FD => G HG HSub; exists G => //; apply: subgraph_trans HSub; exact: (upd0_sub GD (ltn_ord i) (ltn_ord j)).
apply: sbind_rel; first exact: (sdag_rel HS GU full_rename).
move=> s1 s1' x x' HS1 [-> DX] /=; apply: sbind_rel; first exact: IH.
by move=> s2 s2' ms ms' HS2 HM; split=> //=; constructor=> //; exact: mrel_drawn DX.
Qed.
End Loop.

Section Graphs.
Variable prune : bool.
Hypothesis HW : prune = true -> forall A m, graph p A -> from A -> drawn A full m -> different_weights A (mB m).

Lemma prune_graph_rel fuel s s' G : srel s s' -> graph p G -> from G ->
  strel srel (Forall2 mrel) (prune_graph cf rnds fuel prune None full s G) (prune_graph cf' rnds' fuel prune None full s' (ren G)).
Proof.
move=> HS GG FG; apply: sbind_rel; first exact: (sdag_rel HS GG full_rename).
move=> s1 s1' x x' HS1 [-> DX] /=; case: (prune) HW => HP /=; last by split=> //=; constructor=> //; exact: mrel_drawn DX.
apply: sbind_rel; first exact: (prune_loop_rel (HP erefl)).
by move=> s2 s2' ms ms' HS2 HM; split=> //=; constructor=> //; exact: mrel_drawn DX.
Qed.
Lemma prune_each_rel fuel s s' gs : srel s s' -> Forall (graph p) gs -> incl gs Gs ->
  strel srel (Forall2 mrel) (prune_each cf rnds fuel prune None full s gs) (prune_each cf' rnds' fuel prune None full s' (map ren gs)).
Proof.
elim: gs s s' => [|G gs IH] s s' HS GG IG; first by split=> //=; constructor.
have FG : from G by exists G => //; apply: IG; left.
rewrite [map ren _]/= !prune_eachS.
apply: sbind_rel; first exact: (prune_graph_rel fuel HS (Forall_inv GG) FG).
move=> s1 s1' ms ms' HS1 HM; apply: sbind_rel.
  by apply: IH => //; [exact: Forall_inv_tail GG|move=> x Hx; apply: IG; right].
by move=> s2 s2' ms2 ms2' HS2 HM2; split=> //=; exact: Forall2_app.
Qed.
Lemma prune_graphs_rel fuel s s' : srel s s' -> Forall (graph p) Gs ->
  strel srel (Forall2 mrel) (prune_graphs cf rnds fuel prune None s Gs) (prune_graphs cf' rnds' fuel prune None s' (map ren Gs)).
Proof.
move=> HS GG; have IG : incl Gs Gs by []; have H := prune_each_rel fuel HS GG IG.
move: H; rewrite /prune_graphs; case: Gs GG => [|G gs] GG H //=.
by have [SA _] := Forall_inv GG; rewrite (square_length SA) (square_length (rename_square p g G)).
Qed.
End Graphs.

(** Pruning the targets *)
Section Targets.
Variables (argsort argsort' : seq F -> seq nat).
Hypothesis SO : sorts argsort.
Hypothesis SO' : sorts argsort'.

Lemma variance_rename (m : model) (k : nat) : (k < p)%N -> nth 0 (variances (rm m)) (f k) = nth 0 (variances m) k.
Proof.
move=> Hk; have Hf : (f k < p)%N by apply/ssrnat.ltP/(f_lt _ _ _ R)/ssrnat.ltP.
rewrite (ith_variance (rm m) (Ordinal Hf)) (ith_variance m (Ordinal Hk)).
have E : t (Ordinal Hf) = Ordinal Hk by apply: ord_inj; rewrite -gt /= (gf _ _ _ R).
have EO a : momegas (rm m) a (Ordinal Hf) = momegas m a (Ordinal Hk) by rewrite [LHS]mxE E.
by rewrite /variance /average; congr (_ / _); apply: eq_bigr => a _; rewrite EO; congr ((_ - _ / _) ^+ 2); apply: eq_bigr => b _.
Qed.

Lemma order_rename (m : model) : different_variances m -> argsort' (variances (rm m)) = List.map f (argsort (variances m)).
Proof.
move=> D; have [P1 L1] := SO (variances m); have [P2 L2] := SO' (variances (rm m)).
rewrite size_variances in P1 L1; rewrite size_variances in P2 L2.
move: (argsort' _) P2 L2 => js' P2 L2; move: (argsort _) P1 L1 => js P1 L1.
have Z1 : size js = p by have := Permutation_length P1; rewrite seq_length.
have Z2 : size js' = p by have := Permutation_length P2; rewrite seq_length.
have U1 := Permutation_NoDup (Permutation_sym P1) (seq_NoDup p 0); have U2 := Permutation_NoDup (Permutation_sym P2) (seq_NoDup p 0).
have I1 x : In x js <-> (x < p)%N.
  split=> H; first by have := Permutation_in _ P1 H; rewrite in_seq => H2; apply/ssrnat.ltP; lia.
  by apply: (Permutation_in _ (Permutation_sym P1)); rewrite in_seq; move/ssrnat.ltP: H; lia.
have I2 x : In x js' <-> (x < p)%N.
  split=> H; first by have := Permutation_in _ P2 H; rewrite in_seq => H2; apply/ssrnat.ltP; lia.
  by apply: (Permutation_in _ (Permutation_sym P2)); rewrite in_seq; move/ssrnat.ltP: H; lia.
have DV x y : (x < p)%N -> (y < p)%N -> nth 0 (variances m) x = nth 0 (variances m) y -> x = y.
  move=> Hx Hy; rewrite (ith_variance m (Ordinal Hx)) (ith_variance m (Ordinal Hy)) => /D E.
  exact: (congr1 (@nat_of_ord p) E).
have EV x : (x < p)%N -> nth 0 (variances (rm m)) x = nth 0 (variances m) (g x).
  move=> Hx; have Hg : (g x < p)%N by apply/ssrnat.ltP/(g_lt _ _ _ R)/ssrnat.ltP.
  by rewrite -(variance_rename m Hg) (fg _ _ _ R).
have nthN (s : seq nat) a b : List.NoDup s -> (a < size s)%N -> (b < size s)%N -> nth 0%N s a = nth 0%N s b -> a = b.
  move=> Us Ha Hb E; move: Us => /(NoDup_nth s 0%N) Us; apply: Us; [exact/ssrnat.ltP|exact/ssrnat.ltP|].
  by rewrite !ListnthE.
have nthI (s : seq nat) a : (a < size s)%N -> In (nth 0%N s a) s.
  by move=> Ha; rewrite -ListnthE; apply: nth_In; apply/ssrnat.ltP.
pose lt x y := nth 0 (variances (rm m)) x < nth 0 (variances (rm m)) y.
apply: (@irr_sorted_eq _ lt); [by move=> y x z; exact: lt_trans|by move=> x; exact: ltxx| | |].
- apply/(sortedP 0%N) => a Ha; have Ha' := ltnW Ha; rewrite /lt lt_neqAle L2 ?ltnSn -?Z2 // andbT; apply/eqP.
  rewrite !EV ?I2; try exact/I2/nthI.
  move=> /DV E; have {}E := E (introT ssrnat.ltP (proj2 (g_lt _ _ _ R _) (elimT ssrnat.ltP (proj1 (I2 _) (nthI _ _ Ha'))))) (introT ssrnat.ltP (proj2 (g_lt _ _ _ R _) (elimT ssrnat.ltP (proj1 (I2 _) (nthI _ _ Ha))))).
  by have := nthN _ _ _ U2 Ha' Ha (g_inj _ _ _ R _ _ E); lia.
- apply/(sortedP 0%N) => a; rewrite size_map => Ha; have Ha' := ltnW Ha; rewrite /lt !(nth_map 0%N) //.
  rewrite !variance_rename; try exact/I1/nthI.
  rewrite lt_neqAle L1 ?ltnSn -?Z1 // andbT; apply/eqP => /DV E.
  have {}E := E (proj1 (I1 _) (nthI _ _ Ha')) (proj1 (I1 _) (nthI _ _ Ha)).
  by have := nthN _ _ _ U1 Ha' Ha E; lia.
- move=> x; apply/idP/idP.
    move=> /InP /I2 Hx; apply/InP/in_map_iff; exists (g x); split; first exact: (fg _ _ _ R).
    by apply/I1; apply/ssrnat.ltP/(g_lt _ _ _ R)/ssrnat.ltP.
  move=> /InP /in_map_iff [y [<- /I1 Hy]]; apply/InP/I2; by apply/ssrnat.ltP/(f_lt _ _ _ R)/ssrnat.ltP.
Qed.

Definition prel (G : mat) (x x' : model * seq nat) : Prop :=
  [/\ x'.1 = rm x.1, same_set (List.map f x.2) x'.2 & mA x.1 = G].
Lemma minus_rename I I' j : same_set (List.map f I) I' -> same_set (List.map f (minus I [:: j])) (minus I' [:: f j]).
Proof.
move=> [H1 H2]; split=> x.
  move=> /in_map_iff [y [<- /minus_In [Hy Nj]]]; apply/minus_In; split; first by apply: H1; exact: List.in_map.
  by move=> [/(f_inj _ _ _ R) E|[]]; apply: Nj; left.
move=> /minus_In [/H2 /in_map_iff [y [<- Hy]] Nj]; apply: List.in_map; apply/minus_In; split=> //.
by move=> [E|[]]; apply: Nj; left; rewrite E.
Qed.
Lemma prune_I_loop_rel s s' G I I' js : srel s s' -> graph p G -> same_set (List.map f I) I' ->
  strel srel (Forall2 (prel G)) (prune_I_loop cf rnds s G I js) (prune_I_loop cf' rnds' s' (ren G) I' (List.map f js)).
Proof.
elim: js s s' I I' => [|j js IH] s s' I I' HS GG S /=; first by split=> //; constructor.
have S1 := minus_rename j S; apply: sbind_rel; first exact: (sdag_rel HS GG S1).
move=> s1 s1' x x' HS1 [-> DX] /=; apply: sbind_rel; first exact: IH.
move=> s2 s2' xs xs' HS2 HX; split=> //=; constructor=> //; split=> //.
by have [] := drawn_facts GG DX.
Qed.

Hypothesis HV : forall A m, graph p A -> from A -> drawn A full m -> different_variances m.
Lemma prune_I_rel s s' G : srel s s' -> graph p G -> from G ->
  strel srel (Forall2 (prel G)) (prune_I cf rnds argsort None s G) (prune_I cf' rnds' argsort' None s' (ren G)).
Proof.
move=> HS GG FG; have [SG _] := GG; rewrite /prune_I (square_length SG) (square_length (rename_square p g G)).
apply: sbind_rel; first exact: (sdag_rel HS GG full_rename).
move=> s1 s1' x x' HS1 [-> DX]; cbv zeta; rewrite [(rm x.1, x.2).1]/= order_rename; last exact: HV DX.
apply: sbind_rel; first exact: (prune_I_loop_rel _ HS1 GG full_rename).
move=> s2 s2' xs xs' HS2 HX; split=> //=; constructor=> //; split=> //=; first exact: full_rename.
by have [] := drawn_facts GG DX.
Qed.
End Targets.
End Object.

(** Lists of results *)
Lemma test_scores_rel (F : realFieldType) (p e l : nat) (g : nat -> nat) (t : 'S_p) (w w' : world F p e) (T T' : Type) fold fold'
    (P : model F p l e * T -> model F p l e * T' -> Prop) ms ms' :
  w_log w' = w_log w -> (forall k, covs w' fold' k = rename_mx t (covs w fold k)) -> (forall k, @n_obs F p e fold' k = @n_obs F p e fold k) ->
  (forall x x', P x x' -> x'.1 = rename_model g t x.1) -> Forall2 P ms ms' ->
  rrel (Forall2 (fun y y' => y'.1 = y.1 /\ P y.2 y'.2)) (test_scores w fold ms) (test_scores w' fold' ms').
Proof.
move=> EL EC EN HP; elim=> [|x x' xs xs' Px _ IH] /=; first by constructor.
apply: (rbind (P := fun a b => b = a)).
  rewrite (HP _ _ Px) EL (@score_ren _ _ _ _ g t _ _ (covs w fold) _ (@n_obs F p e fold)) //.
  by case: score.
move=> v v' _ ->; apply: rbind; first exact: IH.
by move=> ys ys' _ HY; constructor.
Qed.

Lemma nth_error_rel (A B : Type) (P : A -> B -> Prop) xs ys : Forall2 P xs ys -> forall k,
  match List.nth_error xs k, List.nth_error ys k with Some x, Some y => P x y | None, None => True | _, _ => False end.
Proof. by elim=> [|x y xs' ys' Pxy _ IH] [|k] //; exact: (IH k). Qed.

Lemma best_scoring_rel (F : realFieldType) (T T' : Type) (P : T -> T' -> Prop) (xs : seq (F * T)) (xs' : seq (F * T')) :
  Forall2 (fun y y' => y'.1 = y.1 /\ P y.2 y'.2) xs xs' ->
  rrel (fun y y' => y'.1 = y.1 /\ P y.2 y'.2) (best_scoring xs) (best_scoring xs').
Proof.
move=> H; rewrite /best_scoring; have -> : [seq t.1 | t <- xs'] = [seq t.1 | t <- xs].
  by elim: H => [|x x' ys ys' [E _] _ IH] //=; rewrite E IH.
case: np_arg => [k|x] //=; have := nth_error_rel H k.
by case: (List.nth_error xs k) => [x|]; case: (List.nth_error xs' k) => [x'|].
Qed.

(** Splitting the data *)
Lemma cut_map (A B : Type) (k : A -> B) n xs b qs : cut n (List.map k xs) b qs = List.map (List.map k) (cut n xs b qs).
Proof.
elim: qs b => [|q qs IH] b //=; rewrite IH; congr (_ :: _).
by rewrite /slice skipn_map firstn_map.
Qed.
Lemma append_folds_map (A B : Type) (k : A -> B) folds parts :
  append_folds (List.map (List.map (List.map k)) folds) (List.map (List.map k) parts) = List.map (List.map (List.map k)) (append_folds folds parts).
Proof.
rewrite /append_folds; elim: folds parts => [|x xs IH] [|y ys] //=; by rewrite IH List.map_app.
Qed.
Lemma split_data_map (A B : Type) (k : A -> B) sh sh' D qs : (forall e l, sh' e (List.map k l) = List.map k (sh e l)) ->
  split_data sh' (List.map (List.map k) D) qs = res_map (List.map (List.map (List.map k))) (split_data sh D qs).
Proof.
move=> Es; rewrite /split_data; case: negb => //; rewrite !map_length.
have E L m acc : fold_left (fun folds es => append_folds folds (cut (length es.2) (sh' es.1 es.2) 0 qs)) (combine (List.seq m (length L)) (List.map (List.map k) L))
    (List.map (List.map (List.map k)) acc) =
  List.map (List.map (List.map k)) (fold_left (fun folds es => append_folds folds (cut (length es.2) (sh es.1 es.2) 0 qs)) (combine (List.seq m (length L)) L) acc).
  by elim: L m acc => [|x L IH] m acc //=; rewrite map_length Es cut_map append_folds_map IH.
have E0 : repeat [::] (length qs) = List.map (List.map (List.map k)) (repeat [::] (length qs)).
  by elim: (length qs) => //= n ->.
have EE := E D 0%N (repeat [::] (length qs)); rewrite -E0 in EE; rewrite EE; case: (fold_left _ _ _) => [|x xs] //=; rewrite map_length.
by case: Nat.eqb.
Qed.

Section Class.
Variables (F : realFieldType) (p e : nat) (f g : nat -> nat) (t : 'S_p) (w w' : world F p e) (a : args F).
Hypothesis N : names f g t.
Hypothesis RW : renamed_world g t w w'.
Hypothesis e0 : (0 < e)%N.
Hypothesis SO : sorts (w_argsort w).
Hypothesis SO' : sorts (w_argsort w').
Local Notation sample := (seq 'rV[F]_p).
Local Notation model := (model F p).
Local Notation ren := (rename p g).
Local Notation rs := (@rename_sample F p t).
Let R : renaming p f g := proj1 N.

Lemma nth_fold (fold : seq sample) k : nth [::] (map rs fold) k = rs (nth [::] fold k).
Proof. by elim: fold k => [|x xs IH] [|k] /=. Qed.
Lemma covs_rename fold k : covs w' (map rs fold) k = rename_mx t (covs w fold k).
Proof. by rewrite /covs nth_fold (rw_cov RW). Qed.
Lemma n_obs_rename (fold : seq sample) (k : 'I_e) : n_obs (map rs fold) k = n_obs fold k.
Proof. by rewrite /n_obs nth_fold size_map. Qed.
Lemma train_conf_rename tr l : renamed_conf g t (train_conf w a tr l) (train_conf w' a (map rs tr) l).
Proof.
constructor=> //=; first exact: (rw_log RW); first exact: (rw_sqrtm RW); first exact: (rw_cvx RW); first exact: (rw_svd RW);
  first exact: (rw_sqrt RW); first exact: (rw_finite RW); first exact: covs_rename; first exact: n_obs_rename.
exact: (rw_fuel RW).
Qed.

Variables (training test_g test_I : seq sample) (prune : bool) (Gs : seq mat) (hs : seq nat).
Hypothesis Ps : forall k, posdef (covs w training k).
Hypothesis n0 : forall k : 'I_e, (0 < n_obs training k)%N.
Hypothesis GG : Forall (graph p) Gs.
Hypothesis NT : forall n h, List.nth_error hs n = Some h -> no_ties (train_conf w a training h) (w_rnds w n) prune Gs.

Lemma drawn_ties n h A m : List.nth_error hs n = Some h -> graph p A -> from Gs A -> drawn (train_conf w a training h) (w_rnds w n) A (iota 0 p) m ->
  (prune = true -> different_weights A (mB m)) /\ different_variances m.
Proof.
move=> Hn GA FA [k [m0 [s0 [E [_ EB _ EO _]]]]]; have [H1 H2] := NT Hn GA FA E; rewrite -EB; split=> //.
by rewrite /different_variances -EO.
Qed.

Inductive erel : entry F p e -> entry F p e -> Prop :=
| ERel n h v G xs xs' (s s' : sobj F p h e) : List.nth_error hs n = Some h -> graph p G -> from Gs G ->
    srel f g t (train_conf w a training h) (w_rnds w n) s s' -> erel (Entry n v G xs s) (Entry n v (ren G) xs' s').
Lemma erel_h x x' : erel x x' -> en_h x' = en_h x. Proof. by case. Qed.
Lemma erel_key x x' : erel x x' -> (en_score x', en_h x') = (en_score x, en_h x). Proof. by case. Qed.

Lemma too_small_rename tr : too_small (map rs tr) = too_small tr.
Proof. by rewrite /too_small has_map; apply: eq_has => X /=; rewrite size_map. Qed.

Lemma fit_h_rel n h : List.nth_error hs n = Some h ->
  rrel erel (fit_h w a training test_g prune None Gs n h) (fit_h w' a (map rs training) (map rs test_g) prune None (map ren Gs) n h).
Proof.
move=> Hn; rewrite /fit_h too_small_rename; case: ifP => // _.
have HW : prune = true -> forall A m, graph p A -> from Gs A -> drawn (train_conf w a training h) (w_rnds w n) A (iota 0 p) m -> different_weights A (mB m).
  by move=> HP A m GA FA DA; have [H _] := drawn_ties Hn GA FA DA; exact: H.
have [] := @prune_graphs_rel F p h e f g t _ _ N (train_conf_rename training h) e0 Ps n0 (w_rnds w n) (w_rnds w' n) (rw_rnds RW n) Gs prune HW (w_fuel w) _ _ (srel0 f g t _ _) GG.
rewrite (rw_fuel RW); case: prune_graphs => s r; case: prune_graphs => s' r' /= HS HR.
apply: rbind; first exact: HR.
move=> ms ms' _ HM; apply: rbind.
  apply: (@test_scores_rel F p e h g t w w' _ _ _ _ (fun x x' => [/\ x'.1 = rename_model g t x.1, x'.2 = ren x.2 & graph p x.2 /\ from Gs x.2])).
  - exact: (rw_log RW).
  - exact: covs_rename.
  - exact: n_obs_rename.
  - by move=> x x' [].
  - by elim: HM => [|m m' ms1 ms1' [-> GM FM] _ IH] /=; constructor.
move=> xs xs' _ HX; apply: rbind.
  apply: (@best_scoring_rel F _ _ (fun G G' => G' = ren G /\ graph p G /\ from Gs G)).
  by elim: HX => [|x x' ys ys' [E1 [E2 E3 E4]] _ IH] /=; constructor.
move=> [v G] [v' G'] _ /= [-> [-> [H1 H2]]]; exact: ERel.
Qed.

Lemma dict_set_rel d d' x x' : Forall2 erel d d' -> erel x x' -> Forall2 erel (dict_set d x) (dict_set d' x').
Proof.
move=> HD HX; rewrite /dict_set (erel_h HX).
have -> : has (fun y => en_h y == en_h x) d' = has (fun y => en_h y == en_h x) d.
  by elim: HD => [|y y' ys ys' HY _ IH] //=; rewrite (erel_h HY) IH.
case: ifP => _; last by rewrite -!cats1; apply: Forall2_app => //; constructor.
by elim: HD => [|y y' ys ys' HY _ IH] //=; constructor=> //; rewrite (erel_h HY); case: ifP.
Qed.
Lemma fit_hs_rel d d' n hs2 : Forall2 erel d d' -> (forall k, List.nth_error hs2 k = List.nth_error hs (n + k)) ->
  rrel (Forall2 erel) (fit_hs w a training test_g prune None Gs d n hs2)
    (fit_hs w' a (map rs training) (map rs test_g) prune None (map ren Gs) d' n hs2).
Proof.
elim: hs2 d d' n => [|h hs2 IH] d d' n HD HN //=; apply: rbind.
  by apply: fit_h_rel; rewrite -(addn0 n) -HN.
move=> x x' _ HX; apply: IH; first exact: dict_set_rel.
by move=> k; rewrite addSnnS -HN.
Qed.

Lemma ins_sort1_rel x x' ys ys' : erel x x' -> Forall2 erel ys ys' ->
  rrel (Forall2 erel) (ins_sort1 (fun x => (en_score x, en_h x)) x ys) (ins_sort1 (fun x => (en_score x, en_h x)) x' ys').
Proof.
move=> HX; elim=> [|y y' zs zs' HY HZ IH] /=; first by constructor.
apply: (rbind (P := fun a b => b = a)).
  have [E1 E2] := erel_key HX; have [E3 E4] := erel_key HY; rewrite /tuple_lt E1 E2 E3 E4; by case: ifP => // _; case: ifP.
move=> b b' _ ->; case: b; last by constructor=> //; constructor.
by apply: rbind; [exact: IH|move=> us us' _ HU; constructor].
Qed.
Lemma select_h_rel d d' : Forall2 erel d d' -> rrel erel (select_h d) (select_h d').
Proof.
move=> HD; apply: (rbind (P := Forall2 erel)); last by move=> xs xs' _ [|x x' ys ys' HX _].
elim: HD => [|x x' ys ys' HX _ IH] /=; first by constructor.
by apply: rbind; [exact: IH|move=> zs zs' _; exact: ins_sort1_rel].
Qed.

Definition frel (r r' : any_model F p e * seq nat * F) : Prop :=
  [/\ r'.1.1 = existT (fun l => model l e) (projT1 r.1.1) (rename_model g t (projT2 r.1.1)), same_set (List.map f r.1.2) r'.1.2,
      r'.2 = r.2 & graph p (mA (projT2 r.1.1))].
Lemma fit_I_rel x x' : erel x x' ->
  rrel frel (fit_I w a training test_I None x) (fit_I w' a (map rs training) (map rs test_I) None x').
Proof.
case=> n h v G xs xs' s s' Hn HG FG HS; rewrite /fit_I /=.
have HV : forall A m, graph p A -> from Gs A -> drawn (train_conf w a training h) (w_rnds w n) A (iota 0 p) m -> different_variances m.
  by move=> A m GA FA DA; have [_] := drawn_ties Hn GA FA DA.
have [] := @prune_I_rel F p h e f g t _ _ N (train_conf_rename training h) e0 Ps n0 (w_rnds w n) (w_rnds w' n) (rw_rnds RW n) Gs _ _ SO SO' HV _ _ _ HS HG FG.
case: prune_I => s1 r; case: prune_I => s1' r' /= _ HR.
apply: rbind; first exact: HR.
move=> ms ms' _ HM; apply: rbind.
  by apply: (test_scores_rel (g := g) (t := t) _ _ _ _ HM); [exact: (rw_log RW)|exact: covs_rename|exact: n_obs_rename|move=> y y' []].
move=> ys ys' _ HY; apply: rbind; first exact: (best_scoring_rel HY).
move=> [u [m J]] [u' [m' J']] _ /= [-> [/= -> S EA]]; split=> //=.
by rewrite EA.
Qed.

Lemma icpdag_rel A J J' : graph p A -> same_set (List.map f J) J' ->
  rrel (fun P P' => P' = ren P) (dag_to_icpdag (w_h w) A J) (dag_to_icpdag (w_h w') (ren A) J').
Proof.
move=> [SA NA] [S1 S2]; have SA' := rename_square p g A; have NA' := rename_nonneg p f g R A SA NA.
have := icpdag_rename p f g R (w_h w) (w_h w') A J SA NA.
have -> : dag_to_icpdag (w_h w') (ren A) (List.map f J) = dag_to_icpdag (w_h w') (ren A) J'.
  have [d [_ Hd]] := is_dag_spec (w_h w') p (ren A) SA' NA'; case: d Hd => Hd.
    have HA : acyclic (ren A) by apply/Hd.
    have HI v : In v (List.map f J) <-> In v J' by split; [exact: S1|exact: S2].
    exact: (proj2 (dag_to_icpdag_canonical (w_h w') (w_h w') p (ren A) (ren A) (List.map f J) J' SA' NA' HA SA' NA' HA HI) (imarkov_refl _ _)).
  have HA : ~ acyclic (ren A) by move=> /Hd.
  by rewrite !(dag_to_icpdag_err (w_h w') p).
by case: dag_to_icpdag => [P|x] /= ->.
Qed.
End Class.

Lemma class_names (F : realFieldType) (p e : nat) f g (t : 'S_p) (w w' : world F p e) (a : args F) candidates data data' prune seed
    training test_graph test_I hs :
  names f g t -> renamed_world g t w w' -> sorts (w_argsort w) -> sorts (w_argsort w') ->
  (forall k, data' k = rename_sample t (data k)) ->
  split_data (w_shuffle w 42) [seq data k | k <- enum 'I_e] (a_folds a) = Ok [:: training; test_graph; test_I] ->
  numbers w a training = Ok hs -> Forall (graph p) candidates ->
  (0 < e)%N -> (forall k, posdef (covs w training k) /\ (0 < n_obs training k)%N) ->
  (forall n h, List.nth_error hs n = Some h -> no_ties (train_conf w a training h) (w_rnds w n) prune candidates) ->
  renamed_class f g t (equivalence_class w a candidates data prune seed)
    (equivalence_class w' a (List.map (rename p g) candidates) data' prune seed).
Proof.
move=> N RW SO SO' ED ES EH GG e0 Pn NT.
have Ps k := proj1 (Pn k); have n0 k := proj2 (Pn k).
have ES' : split_data (w_shuffle w' 42) [seq data' k | k <- enum 'I_e] (a_folds a) =
    Ok [:: map (@rename_sample F p t) training; map (@rename_sample F p t) test_graph; map (@rename_sample F p t) test_I].
  have -> : [seq data' k | k <- enum 'I_e] = List.map (List.map (col_perm t)) [seq data k | k <- enum 'I_e].
    by elim: (enum 'I_e) => [|k ks IH] //=; rewrite ED IH.
  rewrite (@split_data_map _ _ (col_perm t) (w_shuffle w 42)); last exact: (rw_shuffle RW).
  by rewrite ES.
have EH' : numbers w' a (map (@rename_sample F p t) training) = Ok hs.
  move: EH; rewrite /numbers; case: a_nums_latent => // ; case: training {ES ES' Pn Ps n0 NT} => [|X tr] //=.
  by rewrite (rw_log RW) (rw_pi RW) (rw_cov RW) (rw_svd RW).
rewrite /equivalence_class /fit_all ES ES' /= EH EH' /=.
have H1 := @fit_hs_rel F p e f g t w w' a N RW e0 training test_graph prune candidates hs Ps n0 GG NT [::] [::] 0 hs (Forall2_nil _) (fun=> erefl).
suff H : rrel (fun r r' : mat * seq nat * any_model F p e => [/\ r'.1.1 = rename p g r.1.1, same_set r'.1.2 (List.map f r.1.2) &
    r'.2 = existT (fun l => model F p l e) (projT1 r.2) (rename_model g t (projT2 r.2))]) (equivalence_class w a candidates data prune seed)
    (equivalence_class w' a (List.map (rename p g) candidates) data' prune seed).
  move: H; rewrite /equivalence_class /fit_all ES ES' /= EH EH' /=.
  by rewrite /renamed_class /rrel; case: bind => [[[P J] m]|x]; case: bind => [[[P' J'] m']|x'].
rewrite /equivalence_class /fit_all ES ES' /= EH EH' /=.
apply: rbind.
  apply: rbind; first exact: H1.
  move=> d d' _ HD; apply: rbind; first exact: (select_h_rel HD).
  move=> x x' _ HX; exact: (fit_I_rel N RW e0 SO SO' test_I Ps n0 NT HX).
move=> [[m J] v] [[m' J'] v'] _ [/= -> S _ GA]; apply: rbind; first exact: (icpdag_rel w w' N GA S).
by move=> P P' _ -> ; split=> //=; exact: same_set_sym.
Qed.

(** Every world has a renamed one. *)
Lemma renamed_world_exists (F : realFieldType) (p e : nat) f g (t : 'S_p) (w : world F p e) : names f g t ->
  exists w', renamed_world g t w w' /\ w_argsort w' = w_argsort w.
Proof.
move=> N; have R := proj1 N.
have IK (X : 'M[F]_p) : rename_mx t^-1 (rename_mx t X) = X by apply/matrixP => i j; rewrite !mxE !permKV.
have SK (X : seq 'rV[F]_p) : rename_sample t^-1 (rename_sample t X) = X.
  by elim: X => [|x X IH] //=; rewrite IH; congr (_ :: _); apply/matrixP => i j; rewrite !mxE !permKV.
have MK l (m : model F p l e) : square p (mA m) -> rename_model f t^-1 (rename_model g t m) = m.
  case: m => A B ga o s IB /= SA; rewrite /rename_model /= !IK (back_rename p f g R) //.
  by congr MkModel; apply/matrixP => i j; rewrite !mxE permKV.
exists (World (w_log w) (w_pi w) (w_h w) (fun X => rename_mx t (w_sqrtm w (rename_mx t^-1 X)))
  (fun l m => omap (rename_mx t) (@w_cvx _ _ _ w l (rename_model f t^-1 m)))
  (fun X => (row_perm t (w_svd w (rename_mx t^-1 X)).1, (w_svd w (rename_mx t^-1 X)).2)) (w_sqrt w)
  (fun X => w_finite w (rename_mx t^-1 X)) (w_argsort w) (fun X => rename_mx t (w_cov w (rename_sample t^-1 X))) (w_ges w)
  (fun s k X => rename_sample t (w_shuffle w s k (rename_sample t^-1 X))) (fun n k => rename_draws t (w_rnds w n k)) (w_fuel w)).
split=> //; constructor=> //= [X|l m SA|X|X|X|s k X]; by rewrite ?IK ?SK ?MK.
Qed.

(** np.cov does not depend on the names of the variables. *)
Lemma cov_names (F : realFieldType) (p : nat) (t : 'S_p) (X : seq 'rV[F]_p) : np_cov (rename_sample t X) = rename_mx t (np_cov X).
Proof.
rewrite /np_cov; set mu := (size X)%:R^-1 *: _; set mu' := (size (rename_sample t X))%:R^-1 *: _.
have EM : mu' = col_perm t mu.
  rewrite /mu' /mu size_map; apply/rowP => j; rewrite !mxE !summxE big_map; congr (_ * _).
  by apply: eq_bigr => x _; rewrite mxE.
rewrite EM; apply/matrixP => i j; rewrite !mxE size_map !summxE big_map; congr (_ * _); apply: eq_bigr => x _.
by rewrite !mxE !big_ord1 !mxE.
Qed.
