(** With a single environment neither psi_fixed nor the targets make a difference (C139, C140). *)
From Coq Require Import ZArith List Permutation Lia.
From mathcomp Require Import all_ssreflect all_algebra.
From Verif Require Import Base GraphModel GraphSpec BasicProofs ListModel NumModel NumSpec ScoreModel CacheSpec ScoreSpec CovModel MainModel MainSpec.
From Verif Require Import TopoProofs MeekProofs GDProofs ScoreProofs CacheProofs HistProofs PruneProofs PruneIProofs SelectProofs FitProofs CandSpec CandProofs LimitProofs ClassProofs Max3Proofs.
From Verif Require Import StatSpec StatProofs SingleSpec.
Set Implicit Arguments.
Unset Strict Implicit.
Unset Printing Implicit Defensive.
Import Order.Theory GRing.Theory Num.Theory.
Local Open Scope ring_scope.

(** ** psi_fixed *)

Section Fixed.
Variables (F : realFieldType) (p l : nat) (cf : conf F p l 1) (b : bool).

Lemma same_psi_fixed : same_conf cf (conf_psi_fixed cf b).
Proof. by split=> //; left. Qed.
Lemma call_psi_fixed st c : do_call (conf_psi_fixed cf b) st c = do_call cf st c.
Proof. by rewrite /do_call (score_dag_ext same_psi_fixed). Qed.
Lemma run_psi_fixed st cs : run (conf_psi_fixed cf b) st cs = run cf st cs.
Proof.
elim: cs st => [|c cs IH] st; first by [].
by rewrite -[LHS]/(run (conf_psi_fixed cf b) (do_call (conf_psi_fixed cf b) st c).1 cs) -[RHS]/(run cf (do_call cf st c).1 cs) call_psi_fixed IH.
Qed.
Lemma history_psi_fixed caching cs c :
  (do_call (conf_psi_fixed cf b) (run (conf_psi_fixed cf b) (fresh F p l 1 caching) cs) c).2 = (do_call cf (run cf (fresh F p l 1 caching) cs) c).2.
Proof. by rewrite run_psi_fixed call_psi_fixed. Qed.
End Fixed.

Section FixedClass.
Variables (F : realFieldType) (p : nat) (w : world F p 1) (a : args F) (b : bool).
Local Notation a' := (args_psi_fixed a b).

Lemma train_psi_fixed tr l : same_conf (train_conf w a tr l) (train_conf w a' tr l).
Proof. by split=> //; left. Qed.
Lemma fit_h_psi_fixed tr te prune t Gs n k : fit_h w a' tr te prune t Gs n k = fit_h w a tr te prune t Gs n k.
Proof. by rewrite /fit_h (prune_graphs_ext (train_psi_fixed tr k)). Qed.
Lemma fit_all_psi_fixed data ig prune t u seed : fit_all w a' data ig prune t u seed = fit_all w a data ig prune t u seed.
Proof.
rewrite /fit_all; apply: bind_ext => -[|tr fs]; first by [].
case: fs => [|tg fs]; first by []. case: fs => [|ti fs]; first by []. case: fs => [|? ?]; last by [].
apply: bind_ext => gs; apply: bind_ext => hs.
have -> d n : fit_hs w a' tr tg prune t gs d n hs = fit_hs w a tr tg prune t gs d n hs.
  elim: hs d n => [|k hs IH] d n; first by [].
  rewrite -[LHS]/(bind (fit_h w a' tr tg prune t gs n k) (fun x => fit_hs w a' tr tg prune t gs (dict_set d x) n.+1 hs)).
  rewrite -[RHS]/(bind (fit_h w a tr tg prune t gs n k) (fun x => fit_hs w a tr tg prune t gs (dict_set d x) n.+1 hs)).
  by rewrite fit_h_psi_fixed; apply: bind_ext => x; exact: IH.
by apply: bind_ext => d; apply: bind_ext => x; rewrite /fit_I (prune_I_ext (train_psi_fixed tr _)).
Qed.
Lemma class_psi_fixed candidates data prune seed :
  equivalence_class w a' candidates data prune seed = equivalence_class w a candidates data prune seed.
Proof. by rewrite /equivalence_class fit_all_psi_fixed. Qed.
Lemma ges_psi_fixed data seed : equivalence_class_w_ges w a' data seed = equivalence_class_w_ges w a data seed.
Proof. by rewrite /equivalence_class_w_ges fit_all_psi_fixed. Qed.
End FixedClass.

(** ** The targets *)

Section Targets.
Variables (F : realFieldType) (p l : nat) (cf : conf F p l 1).
Hypothesis N0 : forall k, (0 < cf_n_obs cf k)%N.

Lemma omegas_targets B I J : initialize_omegas cf B I = initialize_omegas cf B J.
Proof.
apply/matrixP => i j; rewrite [LHS]mxE [RHS]mxE !big_ord1 (ord1 i).
have H (x : F) : x * (cf_n_obs cf ord0)%:R / (cf_n_obs cf ord0)%:R = x by rewrite mulfK // pnatr_eq0 -lt0n; exact: N0.
by rewrite H !if_same.
Qed.
Lemma rest_targets m I J : solve_rest cf m I = solve_rest cf m J.
Proof.
rewrite /solve_rest; congr bind; apply: gd_ext => x //; rewrite /rest_gradient; apply: bind_ext => nm; apply: bind_ext => Ms.
by rewrite !average_one.
Qed.
Lemma fit_targets A I J im rnd : fit cf A I im rnd = fit cf A J im rnd.
Proof.
rewrite /fit; apply: bind_ext => d; case: ifP => // _.
have -> : initial_model cf A I = initial_model cf A J by rewrite /initial_model; apply: bind_ext => B; rewrite (omegas_targets B I J).
apply: bind_ext => m; apply: bind_ext => s; congr bind.
suff H k i d0 n pm ps cur : alt_loop cf k I rnd i d0 n pm ps cur = alt_loop cf k J rnd i d0 n pm ps cur by exact: H.
elim: k i d0 n pm ps cur => [|k IH] i d0 n pm ps cur //=; case: ifP => // _.
have -> : round cf I (rnd i) pm = round cf J (rnd i) pm.
  by rewrite /round; apply: bind_ext => c0; apply: bind_ext => nB; apply: bind_ext => g; rewrite (rest_targets _ I J).
by apply: bind_ext => -[[cm cs] dd]; rewrite IH.
Qed.
Lemma call_targets A I J im rnd : do_call cf None (Call A I im rnd) = do_call cf None (Call A J im rnd).
Proof. by rewrite /do_call /score_dag /= (fit_targets A I J); case: im. Qed.
End Targets.

(** The targets of equivalence_class: either all variables or all but one *)
Section Loop.
Variables (F : realFieldType) (p l : nat) (cf : conf F p l 1).
Hypothesis ND : no_draws cf.
Hypothesis N0 : forall k, (0 < cf_n_obs cf k)%N.
Variable rnds : nat -> nat -> 'M[F]_p * 'M[F]_p.
Local Notation model := (model F p l 1).
Local Notation sobj := (sobj F p l 1).
Local Notation D := (D cf).

Lemma loop_same G m sc js (s s' : sobj) xs I rs : graph p G -> D G (iota 0 p) = Ok (m, sc) -> s.1 = Some (lists xs) -> inv cf xs ->
  NoDup js -> (forall x, In x xs -> incl js (eI x)) -> incl js I -> prune_I_loop cf rnds s G I js = (s', Ok rs) ->
  (forall y, In y rs -> y.1 = m) /\ (forall y ys, rs = y :: ys -> exists2 j, In j js & y.2 = minus I [:: j]).
Proof.
move=> GG ED; elim: js s s' xs I rs => [|j js IH] s s' xs I rs E1 IX NJ HX HI; first by case=> _ <-; split.
rewrite prune_I_loopS; cbv zeta => /(@sbind_inv _ _ _ _ _ _ _) [s1 [r1 [Es /(@sbind_inv _ _ _ _ _ _ _) [s2 [rs2 [E2 [_ <-]]]]]]].
have := sdag_memo ND rnds (minus I [:: j]) E1 IX GG.
have -> : D G (minus I [:: j]) = Ok (m, sc) by rewrite -ED; exact: fit_targets.
have K : has (key G (minus I [:: j])) xs = false.
  apply/negP => /has_exists_In [x Hx]; have [SX _ _] := IX; move/(keyP _ (proj1 GG) (SX _ Hx)) => [_ [SI _]].
  by have /SI /minus_In [_ []] : In j (eI x) by [apply: (HX _ Hx); left]; left.
rewrite K Es => -[mc EC [s1' [[<- Er] E3 I3]]].
inversion NJ as [|j' js' NI NJ']; subst.
have HM : incl js (minus I [:: j]) by move=> k Hk; apply/minus_In; split; [apply: HI; right|move=> [Ek|[]]; rewrite Ek in NI].
have HX' x : In x (rcons xs (G, minus I [:: j], mc, sc)) -> incl js (eI x).
  by rewrite -cats1 => /in_app_iff [/HX H k Hk|[<-|[]]] //; apply: H; right.
have [H1 _] := IH _ _ _ _ _ E3 I3 NJ' HX' HM E2.
by split=> [y [<-|/H1 //]|y ys [<- _]]; [|exists j => //; left].
Qed.

Lemma pruned_I argsort (s s' : sobj) S xs G rs : sorts argsort -> graph p G -> s.1 = Some (lists xs) -> memo cf S xs ->
  prune_I cf rnds argsort None s G = (s', Ok rs) ->
  exists m0 m rs', [/\ rs = (m0, iota 0 p) :: rs', forall y, In y rs' -> y.1 = m
    & forall y ys, rs' = y :: ys -> exists j, y.2 = minus (iota 0 p) [:: j]].
Proof.
move=> SO GG E1 [IX KX FX]; rewrite /prune_I (square_length (proj1 GG)); cbv zeta.
move=> /(@sbind_inv _ _ _ _ _ _ _) [s1 [r1 [Es /(@sbind_inv _ _ _ _ _ _ _) [s2 [rs2 [E2 [_ <-]]]]]]].
have := sdag_memo ND rnds (iota 0 p) E1 IX GG; rewrite Es; case ED : (D G (iota 0 p)) => [[m sc]|x] //.
move=> [mc EC [s1' [[<- Er] E3 I3]]].
have [P _] := SO (variances r1.1); have EP : size (variances r1.1) = p by rewrite /variances size_map size_enum_ord.
rewrite EP in P; have IQ : incl (argsort (variances r1.1)) (iota 0 p) by move=> k /(Permutation_in _ P).
have NQ : NoDup (argsort (variances r1.1)) := Permutation_NoDup (Permutation_sym P) (seq_NoDup p 0).
have [|H1 H2] := loop_same GG ED E3 I3 NQ _ IQ E2.
  move=> x; case: (has _ xs) => [/FX [_ H] k /IQ /H //|].
  by rewrite -cats1 => /in_app_iff [/FX [_ H] k /IQ /H|[<-|[]]].
by exists r1.1, m, rs2; split=> // y ys /H2 [j _ Ej]; exists j.
Qed.
End Loop.

(** The class of a DAG with almost all variables as targets *)
Lemma almost_all_rigid p G J D : square p G -> acyclic G -> acyclic D -> almost_all p J -> imarkov_equiv J G D ->
  forall i j, edge D i j <-> edge G i j.
Proof.
move=> SG AC AD HJ [[SK _] SP].
have NE k : ~ edge G k k by move=> E; apply: (AC k); apply: Relation_Operators.t_step.
have LT a b : edge G a b -> [/\ (a < p)%N, (b < p)%N & a <> b].
  by move=> E; have [/ssrnat.ltP Ha /ssrnat.ltP Hb] := edge_lt _ _ _ _ SG E; split=> // EQ; apply: (NE b); rewrite -{1}EQ.
have H1 i j : edge D i j -> edge G i j.
  move=> E; have /SK [//|E'] : adjacent D i j by left.
  have [Hj Hi N] := LT _ _ E'; case: (HJ _ _ Hj Hi N) => /SP H; first by apply/H.
  by move/H: E' => E'; case: (acyclic_asym _ _ _ AD E).
move=> i j; split=> [|E]; first exact: H1.
by have /SK [//|/H1 E'] : adjacent G i j by [left]; case: (acyclic_asym _ _ _ AC E).
Qed.

Section Class.
Variables (F : realFieldType) (p : nat) (w : world F p 1) (a : args F).

Lemma fit_h_memo tr tg prune gs n h x : no_draws (train_conf w a tr h) -> Forall (graph p) gs -> fit_h w a tr tg prune None gs n h = Ok x ->
  exists S xs, (en_obj x).1 = Some (lists xs) /\ memo (train_conf w a tr (en_h x)) S xs.
Proof.
move=> ND GS; rewrite /fit_h; case: ifP => // _; case: gs GS => [|G gs] GS //.
have E0 : iota 0 (length G) = iota 0 p by rewrite (square_length (proj1 (Forall_inv GS))).
rewrite /prune_graphs E0.
have := prune_each_outcome ND (w_rnds w n) (w_fuel w) prune (s := new_sobj F p h 1) (xs := [::]) erefl (memo0 _) GS.
case EL : visits => [L|ex]; last by case: prune_each => s r /= [x' ->].
move=> [s1 [ms1 [xs1 [-> E1 M1 F1 G1]]]] /(@bindOk _ _ _ _ _) [ms Er /(@bindOk _ _ _ _ _) [xs _ /(@bindOk _ _ _ _ _) [b _ [<-]]]] /=.
by exists (rev L ++ [::]), xs1.
Qed.

Lemma minus_almost j : almost_all p (minus (iota 0 p) [:: j]).
Proof.
move=> i k Hi Hk N; have IN x : (x < p)%N -> x <> j -> In x (minus (iota 0 p) [:: j]).
  move=> Hx NX; apply/minus_In; split; last by case=> // EQ; case: NX.
  by apply/in_seq; split; [lia|apply/ssrnat.ltP].
by case: (Nat.eq_dec i j) => [E|/(IN _ Hi)]; [right; apply: IN => // EQ; apply: N; rewrite E EQ|left].
Qed.

Lemma fit_I_almost tr ti x S xs am J sc : sorts (w_argsort w) -> (forall k : 'I_1, (0 < n_obs tr k)%N) -> no_draws (train_conf w a tr (en_h x)) ->
  graph p (en_graph x) -> (en_obj x).1 = Some (lists xs) -> memo (train_conf w a tr (en_h x)) S xs ->
  fit_I w a tr ti None x = Ok (am, J, sc) -> almost_all p J.
Proof.
move=> SO N0 ND GG E1 MX; rewrite /fit_I; case EP : prune_I => [s' r].
move=> /(@bindOk _ _ _ _ _) [rs Er /(@bindOk _ _ _ _ _) [ys /test_scores_spec FX /(@bindOk _ _ _ _ _) [b Hb [_ <- _]]]].
rewrite Er in EP; have [m0 [m [rs' [ER H1 H2]]]] := pruned_I ND N0 SO GG E1 MX EP.
case: (best_scoring_spec ys) => [[_]|[b' []]]; rewrite Hb // => -[<-] [us [vs [EY LU _]]].
rewrite ER in FX; have [v [vs' [Ey Ev FX']]] : exists v vs', [/\ ys = v :: vs', v.2 = (m0, iota 0 p) &
    Forall2 (fun mt x => x.2 = mt /\ score (w_log w) mt.1 (covs w ti) (n_obs ti) = Ok x.1) rs' vs'].
  by inversion FX as [|u v us' vs' [Ev _] FX' E2 E3]; exists v, vs'.
clear FX Hb EP Er ER; move: EY; rewrite Ey => EY {Ey}.
have FULL : almost_all p (iota 0 p) by move=> i j Hi Hj _; left; apply/in_seq; split; [lia|apply/ssrnat.ltP].
case: us LU EY => [|u0 us] LU [E4 E5]; first by rewrite -E4 Ev.
case: us LU E5 => [|u1 us] LU E5.
  rewrite E5 in FX'; inversion FX' as [|y2 v2 l1 l2 [Ev2 _] _ E6 E7]; subst rs'.
  by rewrite Ev2; have [j ->] := H2 _ _ erefl; exact: minus_almost.
rewrite E5 in FX'; inversion FX' as [|y2 v2 l1 l2 [Ev2 Es2] FX2 E6 E7]; subst rs'.
have [y3 [I3 [Eb Es3]]] : exists y3, In y3 l1 /\ (b.2 = y3 /\ score (w_log w) y3.1 (covs w ti) (n_obs ti) = Ok b.1).
  have : In b (us ++ b :: vs) by apply/in_app_iff; right; left.
  elim: FX2 {H1 H2 LU FX' E5} => // u v1 us1 vs1 Huv _ IH [<-|/IH [mt [A1 A2]]]; first by exists u; split; [left|].
  by exists mt; split=> //; right.
have : b.1 < u1.1 by apply: LU; right; left.
have E8 : y2.1 = m by apply: H1; left.
have E9 : y3.1 = m by apply: H1; right.
by move: Es2 Es3; rewrite E8 E9 => -> [->]; rewrite ltxx.
Qed.

Lemma fit_all_almost data ig prune seed am J sc : sorts (w_argsort w) -> a_solver a = Cvx ->
  (forall gs, ig = Some gs -> Forall (graph p) gs) -> (forall tr gs, ig = None -> fit_ges w tr = Ok gs -> Forall (graph p) gs) ->
  (forall tr tg ti, split_data (w_shuffle w seed) [seq data k | k <- enum 'I_1] (a_folds a) = Ok [:: tr; tg; ti] -> forall k : 'I_1, (0 < n_obs tr k)%N) ->
  fit_all w a data ig prune None None seed = Ok (am, J, sc) -> almost_all p J.
Proof.
move=> SO EC G1 G2 N0; rewrite /fit_all => /(@bindOk _ _ _ _ _) [[|tr [|tg [|ti [|? ?]]]] Es] //.
move=> /(@bindOk _ _ _ _ _) [gs Eg /(@bindOk _ _ _ _ _) [hs Eh /(@bindOk _ _ _ _ _) [d + /(@bindOk _ _ _ _ _) [x Ex Ei]]]].
rewrite fit_hs_table => Ed.
have GS : Forall (graph p) gs by move: Eg; case: ig G1 G2 => [gs0|] G1 G2 => [[<-]|]; [apply: G1 | apply: G2].
have D0 : NoDup (List.map (@en_h F p 1) [::]) by constructor.
have [D1 _ D3 D4] := table_spec (@fit_hE F p 1 w a tr tg prune None gs) D0 Ed.
case: (select_h_spec D1) => [[_]|[x' []]]; rewrite Ex // => -[<-] Hx Lx.
case: (D3 _ Hx) => [[//]|[k [Hk Fx Lk]]]; rewrite add0n in Fx.
have [R [G HIG [GG SG]]] := fit_h_reached GS Fx.
have NDh h : no_draws (train_conf w a tr h) by exact: cvx_no_draws.
have [S [xs [E1 MX]]] := fit_h_memo (NDh _) GS Fx.
exact: fit_I_almost SO (N0 _ _ _ Es) (NDh _) GG E1 MX Ei.
Qed.

Lemma icpdag_single h G J ic : graph p G -> acyclic G -> almost_all p J -> dag_to_icpdag h G J = Ok ic ->
  (forall i j, edge ic i j <-> edge G i j) /\ forall D, square p D -> consistent_ext D ic -> forall i j, edge D i j <-> edge G i j.
Proof.
move=> [SG NG] AC HJ E.
have [M [EM [_ [_ [_ [CM H]]]]]] := dag_to_icpdag_spec h p G J SG NG AC.
have [M' [EM' [_ [_ U]]]] := dag_to_icpdag_union h p G J SG NG AC.
move: EM EM'; rewrite E => -[EM] [EM']; rewrite -EM in H CM; rewrite -EM' in U.
have RG D : acyclic D -> imarkov_equiv J G D -> forall i j, edge D i j <-> edge G i j := fun AD => almost_all_rigid SG AC AD HJ.
split; last by move=> D SD /(H D SD) [AD ID]; exact: RG.
move=> i j; split=> [/U [D [[_ [_ AD]] [ID ED]]]|Eij]; first by apply/(RG D AD ID).
exact: ext_edge CM Eij.
Qed.

Lemma class_single candidates data prune seed ic J am : sorts (w_argsort w) -> a_solver a = Cvx -> Forall (graph p) candidates -> some_training w a data ->
  equivalence_class w a candidates data prune seed = Ok (ic, J, am) ->
  [/\ almost_all p J, forall i j, edge ic i j <-> edge (mA (projT2 am)) i j
    & forall D, square p D -> consistent_ext D ic -> forall i j, edge D i j <-> edge (mA (projT2 am)) i j].
Proof.
move=> SO EC GC N0; rewrite /equivalence_class => /(@bindOk _ _ _ _ _) [[[am' J'] sc] Ef /(@bindOk _ _ _ _ _) [ic' Ei [<- <- <-]]].
have G1 gs : Some candidates = Some gs -> Forall (graph p) gs by case=> <-.
have G2 tr gs : Some candidates = None -> fit_ges w tr = Ok gs -> Forall (graph p) gs by [].
have HJ := fit_all_almost SO EC G1 G2 N0 Ef.
have [tr [tg [ti [gs [hs [k [v [_ _ _ _ [[GA AC _ _ _] _ _]]]]]]]]] := fit_all_spec G1 G2 Ef.
by have [H1 H2] := icpdag_single GA AC HJ Ei; split.
Qed.
Lemma ges_single data seed ic J am : sorts (w_argsort w) -> a_solver a = Cvx -> ges_pdag w -> some_training w a data ->
  equivalence_class_w_ges w a data seed = Ok (ic, J, am) ->
  [/\ almost_all p J, forall i j, edge ic i j <-> edge (mA (projT2 am)) i j
    & forall D, square p D -> consistent_ext D ic -> forall i j, edge D i j <-> edge (mA (projT2 am)) i j].
Proof.
move=> SO EC HP N0; rewrite /equivalence_class_w_ges => /(@bindOk _ _ _ _ _) [[[am' J'] sc] Ef /(@bindOk _ _ _ _ _) [ic' Ei [<- <- <-]]].
have G1 gs : None = Some gs -> Forall (graph p) gs by [].
have G2 tr gs : @None (seq mat) = None -> fit_ges w tr = Ok gs -> Forall (graph p) gs.
  move=> _ E; have [gs' [E' H]] := fit_ges_spec tr HP; move: E'; rewrite E => -[Egs]; rewrite -Egs in H.
  by apply/Forall_forall => D /H [[SD [BD _]] _]; split=> //; apply: binary_nonneg.
have HJ := fit_all_almost SO EC G1 G2 N0 Ef.
have [tr [tg [ti [gs [hs [k [v [_ _ _ _ [[GA AC _ _ _] _ _]]]]]]]]] := fit_all_spec G1 G2 Ef.
by have [H1 H2] := icpdag_single GA AC HJ Ei; split.
Qed.
End Class.
