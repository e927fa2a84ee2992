(** Candidates with negative weights are not pruned (C135). *)
From Coq Require Import ZArith QArith Lia List.
From mathcomp Require Import all_ssreflect all_algebra.
From Verif Require Import Base GraphModel GraphSpec TopoProofs MeekProofs ListModel NumModel NumSpec LinAlgProofs NumProofs ScoreModel CacheSpec CacheProofs.
From Verif Require Import ScoreSpec GDProofs ScoreProofs HistProofs LoopProofs Lr0Proofs NoErrProofs RunProofs Run2Proofs CovModel MainModel MainSpec PruneProofs.
From Verif Require Import SelectProofs FitProofs TotalProofs MainRunProofs SeedProofs ClassProofs ExMainDefs QFieldProofs CandSpec CandProofs DupProofs.
From Verif Require Import OptSpec ClassNamesProofs EnvProofs WeightSpec WCandSpec ExactSpec WCandProofs.
Set Implicit Arguments.
Unset Strict Implicit.
Unset Printing Implicit Defensive.
Import Order.Theory GRing.Theory Num.Theory.
Local Open Scope nat_scope.
Local Open Scope ring_scope.
Local Notation "a ## b" := (Qmake (Zpos a) b) (at level 30).

Definition minus_one (i j : nat) : Z := Zneg xH.
Lemma minus_one_neg : negative_weights minus_one. Proof. by []. Qed.

Section WNeg.
Variables (F : realFieldType) (log : F -> F) (pi : F) (h : hord).
Hypothesis LL : log_like log.
Local Notation qF := (@qF F).
Local Notation full := (iota 0 2).
Local Notation mixed := (mixed F).
Local Notation w := (env_world log pi h).
Local Notation a := (dup_args F).
Local Notation tr := [:: mixed; mixed].
Local Notation te := [:: equal2 F; axes2 F].
Local Notation cf := (train_conf w a tr 0).

Lemma env_sees : solver_sees_edges w.
Proof.
move=> l m m' [_ [_ E]] _ _ _ _ _; congr Some; apply/matrixP => i j; rewrite !mxE.
have {}E := E i j; rewrite /edge in E; case: Z.eqb_spec => H; case: Z.eqb_spec => H' //; by case: E; tauto.
Qed.
Lemma A2_ok : Forall (fun G => graph 2 G /\ acyclic G) [:: A2].
Proof. by constructor=> //; split; [exact: A2_graph|exact: A2_acyclic]. Qed.
Lemma env_weight A I rnd m s : graph 2 A -> acyclic A -> fit cf A I None rnd = Ok (m, s) -> mB m = fit_weight F A.
Proof. by move=> GA AA; have [pm [s' [_ _ ->]]] := env_fit log pi h I rnd GA AA => -[<- _]. Qed.
Lemma A2_only (i j : 'I_2) : edge A2 i j -> i = 0 /\ j = 1.
Proof. by move=> /A2_edge [Q1 Q2]; split; exact: val_inj. Qed.
Lemma weightN : qF (4 ## 5) != 0. Proof. by rewrite /QFieldProofs.qF mulf_neq0 ?invr_neq0 ?pF_neq0. Qed.
Lemma env_some : some_weight cf.
Proof.
move=> A I rnd m s GA E [i [j Eij]]; have [SA NA] := GA.
have [[AA _ _ _] _] := fit_facts SA NA (I := I) (init := None) (rnd := rnd) ltac:(by []) E.
rewrite (env_weight GA AA E) => H; have [x [y [_ _ Exy]]] := edge_ord SA Eij.
move: H => /matrixP /(_ x y) /eqP; rewrite !mxE; case: Z.eqb_spec Exy => // _ _; by rewrite (negbTE weightN).
Qed.
Lemma weakest2 : weakest_edge (fit_weight F A2) = Ok (0, 1)%N.
Proof.
have [i [j [-> [[H _]|[H _ _]]]]] := weakest_edge_spec (fit_weight F A2) (erefl _ : (0 < 2)%N).
  suff /A2_only [-> ->] : edge A2 i j by [].
  by move: H; rewrite mxE /edge; case: Z.eqb_spec => //; rewrite eqxx.
by move: H => /matrixP /(_ 0 1) /eqP; rewrite !mxE /= (negbTE weightN).
Qed.
Lemma noedge_ok : graph 2 no_edge2 /\ acyclic no_edge2.
Proof. by split; [split; [exact: noedge_sq|move=> i j; rewrite noedge_get]|exact: (noedge_acyclic noedge_edge)]. Qed.
Lemma chain_A2 : chain cf 4 A2 (fit_weight F A2) = Ok [:: no_edge2].
Proof.
change (bind (weakest_edge (fit_weight F A2)) (fun ij => let dag' := upd A2 ij.1 ij.2 Z0 in bind (D cf dag' full) (fun r =>
  bind (chain cf 3 dag' (mB r.1)) (fun L => Ok (dag' :: L)))) = Ok [:: no_edge2]).
have [GN AN] := noedge_ok; have [pm [s [_ _ E]]] := env_fit log pi h full (fun=> (0, 0)) GN AN.
rewrite weakest2 [bind (Ok _) _]/= (_ : D cf no_edge2 full = Ok (MkModel no_edge2 (fit_weight F no_edge2) (mgamma pm) (momegas pm) (mpsis pm) (1%:M - (mB pm)^T), s)) //.
Qed.
Lemma visits_A2 : visits cf 4 true [:: A2] = Ok [:: A2; no_edge2].
Proof.
have [pm [s [_ _ E]]] := env_fit log pi h full (fun=> (0, 0)) A2_graph A2_acyclic.
change (bind (bind (D cf A2 full) (fun r => bind (chain cf 4 A2 (mB r.1)) (fun L => Ok (A2 :: L)))) (fun L => Ok (L ++ [::])) = Ok [:: A2; no_edge2]).
rewrite (_ : D cf A2 full = Ok (MkModel A2 (fit_weight F A2) (mgamma pm) (momegas pm) (mpsis pm) (1%:M - (mB pm)^T), s)) //.
by rewrite -[bind (Ok _) _]/(bind (chain cf 4 A2 (fit_weight F A2)) (fun L => Ok (A2 :: L))) chain_A2.
Qed.
Lemma pruned_class seed : exists r, equivalence_class w a [:: A2] (@env_data F) true seed = Ok r /\ mA (projT2 r.2) = no_edge2.
Proof.
have G1 : Forall (graph 2) [:: A2] by constructor=> //; exact: A2_graph.
have ES := env_split log pi h.
have PR k : In k [:: 0%N] -> prunable w a true tr k by move=> [<-|//] _; split=> //; exact: env_some.
have [am [J [sc E]]] : exists am J sc, fit_all w a (@env_data F) (Some [:: A2]) true None None 42 = Ok (am, J, sc).
  have := @fit_all_total F 2 2 w a (@env_data F) (Some [:: A2]) true 42 tr te tr [:: A2] [:: 0%N] ES (or_introl erefl) erefl G1 ltac:(by []) ltac:(by []) erefl PR.
  move=> [[[[am J] sc] E]|[h' [n [x [Hh _ [A [I [rk [GA [B HB SB]]]]]]]]]]; first by exists am, J, sc.
  case: Hh => [<-|//] EF; have AA : acyclic A by apply: (sub_acyclic SB); case: HB => [<-|//]; exact: A2_acyclic.
  by have [pm [s [_ _ E]]] := env_fit log pi h I (w_rnds w n rk) GA AA; rewrite E in EF.
have [|//|t1 [t2 [t3 [gs [hs [k [v [ES' [HI HN] [HL HV _] _ [[[SA NA] AC _ _ _] _ _]]]]]]]]] := fit_all_spec _ _ E; first by move=> gs [<-].
have [M [EM _]] := dag_to_icpdag_spec h 2 _ J SA NA AC.
exists (M, J, am); split; first by rewrite /equivalence_class E /= EM.
have [E1 [E2 E3]] : t1 = tr /\ t2 = te /\ t3 = tr by move: ES'; rewrite ES => -[<- <- <-].
case: HI => [[EG]|[]//]; move: HV HL; rewrite -EG E1 E2 {ES' EG E1 E2 E3}; move: HN => [<-].
case: am E SA NA AC EM => h0 m0 /= E _ _ _ _ HV [HL _]; have E0 : h0 = 0%N by case: k HL {HV} => [[]//|[]].
move: m0 E HV; rewrite E0 => m0 E [ms [EP [[m [HM HA HS]] HB]]]; rewrite -HA.
have {EP} F2 : Forall2 (model_at cf) (lab [::] [:: A2; no_edge2]) ms.
  move: EP; rewrite /prune_graphs; have ND : no_draws cf by apply: cvx_no_draws.
  have := prune_each_outcome ND (w_rnds w k) (w_fuel w) true (s := new_sobj F 2 0 2) (xs := [::]) erefl (memo0 cf) G1.
  by rewrite -[w_fuel w]/4%N visits_A2 => -[s' [ms' [xs' [-> _ _ F2 _]]]] [<-].
move: F2; rewrite [lab _ _]/= => FM; inversion FM as [|x y l1 l2 R1 FM' Q1 Q2]; subst; inversion FM' as [|x' y' l3 l4 R2 FM2 Q1 Q2]; subst.
inversion FM2; subst; move: R1 R2 => [m1 [s0 [D1 /= ->]]] [m2 [s0' [D2 /= ->]]] in HM HB *.
have [A1 S1] := edge_model D1; have [B1 S2] := no_edge_model D2; have /andP [G1' G2'] := log_gap LL.
case: HM => [EM|[EM|//]]; last by rewrite -EM.
have [z [Z1 Z2]] := HB m2 (or_intror (or_introl erefl)); rewrite -EM in HS; move: Z2.
have {}S1 := S1 (equal2 F) (axes2 F) erefl erefl; have {}S2 := S2 (equal2 F) (axes2 F) erefl erefl.
rewrite (env_fun Z1 S2) (env_fun HS S1).
rewrite !equal_cov !axes_cov /= leNgt => /negP []; rewrite two_envD [X in _ < X]two_envD.
apply: le_lt_trans (ler_add (two_env_le G2') (lexx _)) _; rewrite two_env0 -[X in X < _]addrA ltr_add2l.
rewrite !two_envQ; qflt.
Qed.
Lemma unpruned_class seed : exists r, equivalence_class w a [:: weigh 2 minus_one A2] (@env_data F) true seed = Ok r /\ mA (projT2 r.2) = weigh 2 minus_one A2.
Proof.
have [am [J [sc E]]] := @env_runs F log pi h (@env_data F) te _ (env_split log pi h) A2_ok ltac:(by []).
have [ic EC] := env_class seed A2_ok E.
rewrite -[[:: weigh _ _ _]]/(List.map (weigh 2 minus_one) [:: A2]) (class_negative _ _ _ minus_one_neg env_sees A2_ok) EC /=.
exists (ic, J, existT (fun l => model F 2 l 2) (projT1 am) (weigh_model minus_one (projT2 am))); split=> //=.
have [|//|t1 [t2 [t3 [gs [hs [k [v [_ [HI _] _ [G HG EG] _]]]]]]]] := fit_all_spec _ _ E.
  by move=> gs [<-]; constructor=> //; exact: A2_graph.
by case: HI HG => [[<-]|[]//] [HG|//]; rewrite EG -HG.
Qed.
End WNeg.

Lemma negative_refuted (F : realFieldType) (log : F -> F) (pi : F) (h : hord) : log_like log ->
  exists (w : world F 2 2) (a : args F) data G v,
  [/\ w_log w = log /\ w_pi w = pi, [/\ w_h w = h, solver_sees_edges w & exact_solver w a data], negative_weights v, graph 2 G /\ acyclic G
    & forall seed, exists r r', [/\ equivalence_class w a [:: G] data true seed = Ok r,
        equivalence_class w a [:: weigh 2 v G] data true seed = Ok r', forall i j, ~ edge (mA (projT2 r.2)) i j & mA (projT2 r'.2) = weigh 2 v G]].
Proof.
move=> LL; exists (env_world log pi h), (dup_args F), (@env_data F), A2, minus_one; split=> //.
- by split=> //; [exact: env_sees|exact: env_exact].
- by split; [exact: A2_graph|exact: A2_acyclic].
move=> seed; have [r [E H]] := pruned_class pi h LL seed; have [r' [E' H']] := unpruned_class log pi h seed.
by exists r, r'; split=> //; rewrite H; exact: noedge_edge.
Qed.
