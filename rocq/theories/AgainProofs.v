(** A result is reproduced by a run on the returned DAG and the returned number of latents alone (C144). *)
From Coq Require Import ZArith Lia List Permutation.
From mathcomp Require Import all_ssreflect all_algebra.
From Verif Require Import Base GraphModel GraphSpec ListModel NumModel NumSpec NumProofs ScoreModel CacheSpec CacheProofs ScoreSpec ScoreProofs HistProofs.
From Verif Require Import MainModel MainSpec PruneProofs PruneIProofs SelectProofs FitProofs ClassProofs TotalProofs LimitProofs NamesProofs ClassNamesProofs CandSpec CandProofs AgainSpec.
Set Implicit Arguments.
Unset Strict Implicit.
Unset Printing Implicit Defensive.
Import Order.Theory GRing.Theory Num.Theory.
Local Open Scope nat_scope.
Local Open Scope ring_scope.

Section Object.
Variables (F : realFieldType) (p l e : nat) (cf : conf F p l e).
Hypothesis ND : no_draws cf.
Local Notation model := (model F p l e).
Local Notation sobj := (sobj F p l e).
Local Notation entry := (mat * seq nat * model * F)%type.
Local Notation full := (iota 0 p).

(** Two objects with the same keys for G *)
Definition alike (G : mat) (s s' : sobj) : Prop :=
  exists xs xs', [/\ s.1 = Some (lists xs), s'.1 = Some (lists xs'), inv cf xs, inv cf xs' & forall I, has (key G I) xs = has (key G I) xs'].
Variables (rnds rnds' : nat -> nat -> 'M[F]_p * 'M[F]_p) (G : mat).
Hypothesis GG : graph p G.

Lemma sdag_alike (s s' : sobj) I : alike G s s' ->
  (sdag cf rnds s G I).2 = (sdag cf rnds' s' G I).2 /\
  forall r, (sdag cf rnds s G I).2 = Ok r -> alike G (sdag cf rnds s G I).1 (sdag cf rnds' s' G I).1.
Proof.
move=> [xs [xs' [E1 E1' IX IX' SK]]]; have H := sdag_memo ND rnds I E1 IX GG; have H' := sdag_memo ND rnds' I E1' IX' GG.
move: H H'; case ED : (D cf G I) => [[m sc]|x]; last by move=> -> ->.
move=> [mc EC [s1 [-> E2 I2]]] [mc' EC' [s1' [-> E2' I2']]].
have EQ : mc' = mc by move: EC'; rewrite EC => -[].
rewrite EQ in E2' I2' *; rewrite /= -(SK I) in E2' I2' *; split=> // _ _.
eexists; eexists; split; [exact: E2|exact: E2'|exact: I2|exact: I2'|].
by case: (has (key G I) xs) => // J; rewrite !has_rcons SK.
Qed.
Lemma prune_I_loop_alike (s s' : sobj) I js : alike G s s' ->
  (prune_I_loop cf rnds s G I js).2 = (prune_I_loop cf rnds' s' G I js).2.
Proof.
move=> T; elim: js s s' I T => [|j js IH] s s' I T //; rewrite !prune_I_loopS; cbv zeta.
have [E1 T1] := sdag_alike (minus I [:: j]) T; move: E1 T1; rewrite /sbind.
case: (sdag cf rnds s G _) => s1 r1; case: (sdag cf rnds' s' G _) => s2 r2 /= <-; case: r1 => [x|x] // /(_ _ erefl) T1.
have := IH s1 s2 (minus I [:: j]) T1.
by case: (prune_I_loop _ _ s1 _ _ _) => s3 r3; case: (prune_I_loop _ _ s2 _ _ _) => s4 r4 /= <-; case: r3.
Qed.
Lemma prune_I_alike argsort (s s' : sobj) : alike G s s' ->
  (prune_I cf rnds argsort None s G).2 = (prune_I cf rnds' argsort None s' G).2.
Proof.
move=> T; rewrite /prune_I; cbv zeta; have [E1 T1] := sdag_alike (iota 0 (length G)) T; move: E1 T1; rewrite /sbind.
case: (sdag cf rnds s G _) => s1 r1; case: (sdag cf rnds' s' G _) => s2 r2 /= <-; case: r1 => [x|x] // /(_ _ erefl) T1.
have := prune_I_loop_alike (iota 0 (length G)) (argsort (variances x.1)) T1.
by case: (prune_I_loop _ _ s1 _ _ _) => s3 r3; case: (prune_I_loop _ _ s2 _ _ _) => s4 r4 /= <-; case: r3.
Qed.

Lemma memo_alike S S' xs xs' (s s' : sobj) : s.1 = Some (lists xs) -> s'.1 = Some (lists xs') -> memo cf S xs -> memo cf S' xs' ->
  seenb G S -> seenb G S' -> alike G s s'.
Proof.
move=> E E' [I1 K1 X1] [I2 K2 X2] S1 S2; exists xs, xs'; split=> // I.
have full_only (S0 : seq mat) ys : inv cf ys -> (forall A, graph p A -> has (key A full) ys = seenb A S0) -> (forall x, In x ys -> same_set (eI x) full) ->
    seenb G S0 -> has (key G I) ys <-> same_set full I.
  move=> [SX _ HX] KX FX SG; split.
    move/has_exists_In => [x Hx]; move/(keyP _ (proj1 GG) (SX _ Hx)) => [EA SI].
    exact: same_set_trans (same_set_sym (FX _ Hx)) SI.
  move=> SI; move: SG; rewrite -KX // => /has_exists_In [x Hx]; move/(keyP _ (proj1 GG) (SX _ Hx)) => [EA SX'].
  by apply/has_exists_In; exists x => //; apply/(keyP _ (proj1 GG) (SX _ Hx)); split=> //; exact: same_set_trans SX' SI.
have H1 := full_only _ _ I1 K1 X1 S1; have H2 := full_only _ _ I2 K2 X2 S2.
by apply/idP/idP => H; [apply/H2/H1 | apply/H1/H2].
Qed.
End Object.

Section Again.
Variables (F : realFieldType) (p e : nat) (w : world F p e) (a : args F).
Local Notation sample := (seq 'rV[F]_p).
Local Notation full := (iota 0 p).
Variables (training test_g test_I : seq sample) (h : nat).
Local Notation cf := (train_conf w a training h).
Local Notation cf' := (train_conf w (only_number a h) training h).
Hypothesis ND : no_draws cf.

(** The graph with the best score and the object *)
Lemma fit_h_memo prune Gs n x : Forall (graph p) Gs -> fit_h w a training test_g prune None Gs n h = Ok x ->
  too_small training = false /\ exists v G ys (s : sobj F p h e) L xs r,
  [/\ x = Entry n v G ys s, graph p G, s.1 = Some (lists xs), memo cf (rev L ++ [::]) xs /\ seenb G (rev L ++ [::]) & D cf G full = Ok r].
Proof.
move=> HG E; have [_ [G0 _ [GX _]]] := fit_h_reached HG E; move: E GX; rewrite /fit_h; case: ifP => // _.
case: Gs HG => [|G Gs] HG; first by rewrite /prune_graphs.
rewrite /prune_graphs (square_length (proj1 (Forall_inv HG))).
have := prune_each_outcome ND (w_rnds w n) (w_fuel w) prune (s := new_sobj F p h e) (xs := [::]) erefl (memo0 _) HG.
case EL : (visits _ _ _ _) => [L|x0]; last by move=> [x' H]; case: prune_each H => s r /= ->.
move=> [s1 [ms1 [xs1 [-> E1 M1 F1 G1]]]] /=.
case ET : test_scores => [xs|] //=; case EB : best_scoring => [[v A]|] //= [<-] /= GA; split=> //.
have IA : In A (map (@mA F p h e) ms1).
  case: (best_scoring_spec [seq (y.1, y.2.2) | y <- xs]) => [[_ E0]|[b0 [E0 [us [vs [EX _ _]]]]]]; first by rewrite E0 in EB.
  have : In (v, A) [seq (y.1, y.2.2) | y <- xs] by rewrite EX; apply/in_app_iff; right; left; move: EB; rewrite E0 => -[].
  move=> /in_map_iff [y [[_ <-] Hy]]; have FT := test_scores_spec ET.
  elim: ms1 xs FT Hy {F1 EB ET E0 EX} => [|m ms IH] xs FT Hy; inversion FT as [|x1 y1 l1 m1 [R1 R2] H2]; subst; first by case: Hy.
  by case: Hy => [Hy|/(IH _ H2)]; [left; rewrite -Hy R1 | right].
have [IL [r ED]] : In A L /\ exists r, D cf A full = Ok r.
  move: IA F1 G1; move: [::] => S0; elim: L S0 ms1 {EL M1 ET} => [|A' L IH] S0 ms1 IA F1 G1; inversion F1 as [|x' y' l2 m2 R' H2]; subst; first by case: IA.
  case: IA => [EA|IA]; last by have [H1 H3] := IH _ _ IA H2 (Forall_inv_tail G1); split=> //; right.
  have GA' := Forall_inv G1; case: R' => m0 [sc [ED H]]; rewrite /= in ED H.
  have [mc EC [EA1 _ _ EA0]] := D_copy GA' ED; have EM : mA y' = A' by case: (seenb A' S0) H => [|->] //; rewrite EC => -[<-].
  by rewrite -EA EM; split; [left | exists (m0, sc)].
exists v, A, [seq (y.1, y.2.2) | y <- xs], s1, L, xs1, r; split=> //; split=> //.
rewrite /seenb cats0 has_rev -/(seenb A L); apply/(seenb_In (p := p)) => //; first exact: (proj1 GA).
by apply: (Forall_impl _ _ G1) => B [].
Qed.

Lemma fit_h_again prune Gs n x : Forall (graph p) Gs -> fit_h w a training test_g prune None Gs n h = Ok x ->
  exists x', fit_h w (only_number a h) training test_g false None [:: en_graph x] 0 h = Ok x' /\
    fit_I w (only_number a h) training test_I None x' = fit_I w a training test_I None x.
Proof.
move=> HG E; have [TS [v [G [ys [s [L [xs [[m sc] [-> GG E1 [M1 S1] ED]]]]]]]]] := fit_h_memo HG E.
rewrite /= /fit_h TS /prune_graphs (square_length (proj1 GG)).
have := prune_each_outcome ND (w_rnds w 0) (w_fuel w) false (s := new_sobj F p h e) (xs := [::]) erefl (memo0 _) (Forall_cons _ GG (Forall_nil _)).
rewrite /= /visit ED /=; move=> [s2 [ms2 [xs2 [+ E2 M2 F2 _]]]].
rewrite -[cf']/cf => -> /=.
have [m2 E3 [m0 [sc0 [ED0 EM]]]] : exists2 m2, ms2 = [:: m2] & model_at cf (G, false) m2.
  by inversion F2 as [|x' y' l2 m3 R' H2]; inversion H2; subst; exists y'.
move: ED0; rewrite /= ED => -[Em _]; rewrite /= -Em in EM.
have [[AG EA SB [Po Ps _]] _] := fit_facts (proj1 GG) (proj2 GG) (I := full) (init := None) ltac:(by []) ED.
rewrite E3 EM /=; rewrite score_value //=; last by move=> i j; apply: ltW.
rewrite /best_scoring /=.
eexists; split; first reflexivity.
rewrite /fit_I /= EA -[cf']/cf.
have T : alike cf G s2 s.
  by apply: (memo_alike GG E2 E1 M2 M1) => //; apply/(@seenb_In p) => //; [exact: (proj1 GG) | constructor=> //; exact: (proj1 GG) | left].
have := prune_I_alike ND (w_rnds w 0) (w_rnds w n) GG (w_argsort w) T.
by case: prune_I => s3 r3; case: prune_I => s4 r4 /= ->.
Qed.
End Again.

Section AgainAll.
Variables (F : realFieldType) (p e : nat) (w : world F p e) (a : args F).
Lemma fit_all_again data ig prune seed am J sc training test_graph test_I :
  split_data (w_shuffle w seed) [seq data k | k <- enum 'I_e] (a_folds a) = Ok [:: training; test_graph; test_I] ->
  no_draws (train_conf w a training (projT1 am)) ->
  (forall gs, ig = Some gs -> Forall (graph p) gs) -> (forall tr gs, ig = None -> fit_ges w tr = Ok gs -> Forall (graph p) gs) ->
  fit_all w a data ig prune None None seed = Ok (am, J, sc) ->
  fit_all w (only_number a (projT1 am)) data (Some [:: mA (projT2 am)]) false None None seed = Ok (am, J, sc).
Proof.
move=> Es ND G1 G2; rewrite /fit_all [a_folds (only_number _ _)]/(a_folds a) Es.
move=> /(@bindOk _ _ _ _ _) [_ [<-] /(@bindOk _ _ _ _ _) [gs Eg /(@bindOk _ _ _ _ _) [hs Eh /(@bindOk _ _ _ _ _) [d + /(@bindOk _ _ _ _ _) [x Ex Ei]]]]].
rewrite fit_hs_table => Ed.
have GS : Forall (graph p) gs by move: Eg; case: ig G1 G2 => [gs0|] G1 G2 => [[<-]|]; [apply: G1 | apply: G2].
have D0 : List.NoDup (List.map (@en_h F p e) [::]) by constructor.
have [D1 _ D3 D4] := table_spec (@fit_hE F p e w a training test_graph prune None gs) D0 Ed.
case: (select_h_spec D1) => [[_]|[x' []]]; rewrite Ex // => -[<-] Hx Lx.
case: (D3 _ Hx) => [[//]|[k [Hk Fx Lk]]]; rewrite add0n in Fx.
have [R [G HIG [GG SG]]] := fit_h_reached GS Fx.
have [m [Em EA HF HJ SC]] := fit_I_spec R GG Ei.
have [Eh' _] := fit_hE Fx; have E1 : projT1 am = en_h x by rewrite Em.
have E2 : mA (projT2 am) = en_graph x by rewrite Em.
rewrite E2 E1; rewrite E1 in ND.
have [x2 [F2 I2]] := fit_h_again test_I ND GS Fx.
by rewrite /= F2 /= /select_h /= I2.
Qed.

Lemma class_again candidates data prune seed ic J am training test_graph test_I :
  split_data (w_shuffle w 42) [seq data k | k <- enum 'I_e] (a_folds a) = Ok [:: training; test_graph; test_I] ->
  no_draws (train_conf w a training (projT1 am)) -> Forall (graph p) candidates ->
  equivalence_class w a candidates data prune seed = Ok (ic, J, am) ->
  forall seed', equivalence_class w (only_number a (projT1 am)) [:: mA (projT2 am)] data false seed' = Ok (ic, J, am).
Proof.
move=> Es ND Hc; rewrite /equivalence_class => /(@bindOk _ _ _ _ _) [[[am' J'] sc] Ef /(@bindOk _ _ _ _ _) [ic' Ei [E1 E2 E3]]] seed'.
rewrite -E1 -E2 -E3 in Ef Ei ND *.
by rewrite (fit_all_again Es ND _ _ Ef) //= ?Ei // => gs [<-].
Qed.
Lemma ges_again data seed ic J am training test_graph test_I :
  split_data (w_shuffle w 42) [seq data k | k <- enum 'I_e] (a_folds a) = Ok [:: training; test_graph; test_I] ->
  no_draws (train_conf w a training (projT1 am)) -> ges_pdag w ->
  equivalence_class_w_ges w a data seed = Ok (ic, J, am) ->
  forall seed', equivalence_class w (only_number a (projT1 am)) [:: mA (projT2 am)] data false seed' = Ok (ic, J, am).
Proof.
move=> Es ND HP; rewrite /equivalence_class_w_ges => /(@bindOk _ _ _ _ _) [[[am' J'] sc] Ef /(@bindOk _ _ _ _ _) [ic' Ei [E1 E2 E3]]] seed'.
rewrite -E1 -E2 -E3 in Ef Ei ND *.
rewrite /equivalence_class (fit_all_again Es ND _ _ Ef) //= ?Ei // => tr gs _ Eg.
have [gs' [E' H]] := fit_ges_spec tr HP; move: E'; rewrite Eg => -[Egs]; rewrite -Egs in H.
by apply/Forall_forall => G /H [[SD [BD _]] _]; split=> //; apply: binary_nonneg.
Qed.
End AgainAll.
