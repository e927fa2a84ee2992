(** A run on exact data with exact fits: the graph that generated the data is not in the returned class (C119). *)
From Coq Require Import ZArith QArith_base Lia List.
From mathcomp Require Import all_ssreflect all_algebra.
From Verif Require Import Base GraphModel GraphSpec TopoProofs MeekProofs EnumProofs ListModel NumModel NumSpec LinAlgProofs NumProofs ScoreModel CacheSpec.
From Verif Require Import GradSpec OptSpec ScoreSpec FieldTac GDProofs ScoreProofs HistProofs LoopProofs Lr0Proofs NoErrProofs RunProofs Run2Proofs Init2Proofs.
From Verif Require Import CovModel MainModel MainSpec PruneProofs PruneIProofs SelectProofs FitProofs TotalProofs MainRunProofs ClassProofs SeedProofs LimitSpec LimitProofs.
Set Implicit Arguments.
Unset Strict Implicit.
Unset Printing Implicit Defensive.
Import Order.Theory GRing.Theory Num.Theory.
Local Open Scope nat_scope.
Local Open Scope ring_scope.

Section Run.
Variables (F : realFieldType) (log : F -> F) (pi : F) (h : hord).
Add Field ff : (fieldT F).
Local Notation sample := (seq 'rV[F]_2).

(** X1 = X0 + noise *)
Definition pair_row (x y : F) : 'rV[F]_2 := \row_k (if k == 0 then x else y).
Definition linked : sample := [:: pair_row 1 1; - pair_row 1 1; pair_row 0 1; - pair_row 0 1].
Definition linked3 (k : 'I_1) : sample := linked ++ linked ++ linked.
Definition vr : F := 3%:R^-1 * 2%:R.
Definition sg : 'M[F]_2 := \matrix_(i, j) (if (i == 1) && (j == 1) then 2%:R * vr else vr).
Definition lower : 'M[F]_2 := \matrix_(i, j) (if i == j then 1 else if i == 1 then 1 else 0).

(** The regression coefficients *)
Definition coefs (A : mat) : 'M[F]_2 :=
  \matrix_(i, j) (if Z.eqb (get A i j) Z0 then 0 else if i == 0 then 1 else 2%:R^-1).

Definition A01 : mat := A2.
Definition A10 : mat := cons (cons Z0 (cons Z0 nil)) (cons (cons (Zpos xH) (cons Z0 nil)) nil).
Definition lim_world : world F 2 1 :=
  World log pi h id (fun l m => Some (coefs (mA m))) (fun=> (0, 0)) id (fun=> true) (@np_argsort F) (@np_cov F 2)
    (fun _ _ => A10) (fun seed k xs => xs) (fun _ _ _ => (0, 0)) 4.
Definition lim_args : args F := Args (Some [:: 0%N]) [:: third; third; third] None false 1 0 0 1 0 0 Cvx.
Local Notation tr := [:: linked].
Local Notation cf := (train_conf lim_world lim_args tr 0).

Lemma vr_gt0 : 0 < vr. Proof. by rewrite /vr mulr_gt0 ?invr_gt0 ?ltr0n. Qed.
Lemma linked_cov : np_cov linked = sg.
Proof.
rewrite /linked cov4 scalerA -/vr; apply/matrixP => i j; rewrite !mxE !big_ord1 !mxE.
case: i => [[|[|i]] Hi] //; case: j => [[|[|j]] Hj] //=; rewrite ?mul0r ?mulr0 ?addr0 ?mulr1 //.
by rewrite mulr2n mulrDl mulrDr !mul1r mulr1.
Qed.
Lemma lim_cov (k : 'I_1) : covs lim_world tr k = sg.
Proof. by rewrite /covs (ord1 k) /= linked_cov. Qed.
Lemma sg_lower : sg = lower *m vr%:M *m lower^T.
Proof.
apply/matrixP => i j; rewrite !mxE !big_ord_recl !big_ord0 !mxE !big_ord_recl !big_ord0 !mxE.
have E2 : 2%:R = 1 + 1 :> F by rewrite -(natrD _ 1 1).
by case: i => [[|[|i]] Hi] //; case: j => [[|[|j]] Hj] //=; rewrite ?mulr1n ?mulr0n ?E2 !(mul0r, mulr0, mul1r, mulr1, addr0, add0r) // mulrDl mul1r.
Qed.
Lemma sg_posdef : posdef sg.
Proof.
rewrite sg_lower; apply: posdef_congr; last first.
  have -> : vr%:M = diag_mx (const_mx vr : 'rV[F]_2) by rewrite diag_const_mx.
  by apply: diag_posdef => i; rewrite mxE vr_gt0.
rewrite unitmxE (expand_det_row _ 0) !big_ord_recl big_ord0 !mxE /= mul0r !addr0 mul1r /cofactor expr0 mul1r det_mx11 !mxE /=.
exact: unitr1.
Qed.
Lemma lim_posdef (k : 'I_1) : posdef (covs lim_world tr k). Proof. by rewrite lim_cov; exact: sg_posdef. Qed.
Lemma lim_nobs (k : 'I_1) : (0 < n_obs tr k)%N. Proof. by rewrite /n_obs (ord1 k). Qed.
Lemma lim_avg : avg_cov cf = sg.
Proof.
rewrite /avg_cov !big_ord1 [cf_sigmas _ _]lim_cov.
by rewrite scalerA mulVf ?scale1r // pnatr_eq0 -lt0n; exact: lim_nobs.
Qed.

Lemma coefs_supported A : supported A (coefs A).
Proof. by move=> i j; rewrite mxE /edge; case: Z.eqb_spec; rewrite ?eqxx. Qed.

Lemma lim_init A B : acyclic A -> initialize_B cf A = Ok B -> B = coefs A.
Proof.
move=> AC EB; have SS : (avg_cov cf)^T = avg_cov cf by rewrite lim_avg; case: sg_posdef.
have [SB NE] := initialize_B_normal SS EB; rewrite lim_avg in NE.
have Z (i j : 'I_2) : ~ edge A i j -> B i j = 0 by move=> H; apply/eqP; apply: contraT => /SB.
have D (i : 'I_2) : B i i = 0 by apply: Z => E; apply: (AC i); apply: Relation_Operators.t_step.
apply/matrixP => i j; rewrite mxE; case: Z.eqb_spec => [E|E]; first by apply: Z.
have := NE i j E; rewrite mxE !big_ord_recl big_ord0 addr0 !mxE; have V : vr != 0 by rewrite gt_eqF ?vr_gt0.
have E2 : 2%:R != 0 :> F by rewrite pnatr_eq0.
case: i E => [[|[|i]] Hi] // E; case: j E => [[|[|j]] Hj] //= E.
- by case: (AC 0%N); apply: Relation_Operators.t_step.
- have -> : lift ord0 ord0 = Ordinal Hj by apply: val_inj.
  have -> : ord0 = Ordinal Hi by apply: val_inj.
  by rewrite D mulr0 addr0 => /(canRL (mulKf V)) ->; rewrite mulVf.
- have -> : lift ord0 ord0 = Ordinal Hi by apply: val_inj.
  have -> : ord0 = Ordinal Hj by apply: val_inj.
  rewrite D mulr0 add0r => EQ; apply: (mulfI (mulf_neq0 E2 V)); rewrite EQ.
  by rewrite mulrAC mulfV // mul1r.
by case: (AC 1%N); apply: Relation_Operators.t_step.
Qed.

(** Fitting a graph keeps the initial parameters *)
Lemma lim_fit A I rnd : graph 2 A -> acyclic A -> exists g s x, fit cf A I None rnd =
  Ok (MkModel A (coefs A) g (initialize_omegas cf (coefs A) I) s (1%:M - (coefs A)^T), x).
Proof.
move=> [SA NA] AC.
have [k|m <- //|pm [s [EI SB E]]] := @fit_const F 2 0 1 cf A SA NA AC erefl erefl erefl lim_posdef _ erefl erefl erefl erefl erefl
  (coefs A) (@coefs_supported A) _ erefl I rnd.
  exact: lim_nobs.
have [EB EG EO EP] := initial_fields SA NA EI; have EC := lim_init AC EB.
by exists (mgamma pm), (mpsis pm), s; rewrite E EO EC.
Qed.

(** The parameters of a graph with one edge entail the covariances *)
Lemma lim_entailed A I (g : 'M[F]_(0, 2)) (s : 'M[F]_(1, 0)) : graph 2 A -> acyclic A -> (exists i j, edge A i j) ->
  forall k, entailed (coefs A) g (initialize_omegas cf (coefs A) I) s k = covs lim_world tr k.
Proof.
move=> GA AC EX k; have U : 1%:M - (coefs A)^T \in unitmx.
  by rewrite unitmxE (det_sub_dag AC (@coefs_supported A)); exact: unitr1.
have EN : noise g (initialize_omegas cf (coefs A) I) s k = (1%:M - (coefs A)^T) *m sg *m (1%:M - (coefs A)^T)^T.
  have EO u : initialize_omegas cf (coefs A) I k u = ((1%:M - (coefs A)^T) *m sg *m (1%:M - (coefs A)^T)^T) u u.
    rewrite mxE !big_ord1 [X in if _ then X else _]mxE [X in (X * _) / _]mxE ![cf_sigmas _ _]lim_cov.
    by case: memb => //; rewrite mulfK // pnatr_eq0 -lt0n; exact: lim_nobs.
  apply/matrixP => u v; rewrite [LHS]mxE big_ord0 add0r; case: eqP => [->|N]; first exact: EO.
  have D i : get A i i = Z0.
    by case: (Z.eqb_spec (get A i i) Z0) => // E; case: (AC i); apply: Relation_Operators.t_step.
  have V : vr != 0 by rewrite gt_eqF ?vr_gt0.
  have E2 : 2%:R != 0 :> F by rewrite pnatr_eq0.
  have H : forall a b : nat, edge A a b -> (a, b) = (0, 1)%N \/ (a, b) = (1, 0)%N.
    move=> a b E; have [/ssrnat.ltP Ha /ssrnat.ltP Hb] := edge_lt _ _ _ _ (proj1 GA) E.
    by case: a b Ha Hb E => [|[|a]] [|[|b]] // _ _ E; first [by left | by right | by case: E; apply: D].
  have [a [b Eab]] := EX.
  have CE : (get A 0 1 <> Z0 /\ get A 1 0 = Z0) \/ (get A 1 0 <> Z0 /\ get A 0 1 = Z0).
    have NA := acyclic_asym _ _ _ AC Eab; have Q x : ~ x <> Z0 -> x = Z0 by lia.
    by case: (H _ _ Eab) => [] [Ea Eb]; move: NA Eab; rewrite Ea Eb /edge => /Q NA Eab; [left | right].
  rewrite !mxE !big_ord_recl !big_ord0 !mxE !big_ord_recl !big_ord0 !mxE.
  case: CE => [[/Z.eqb_neq E1 E3]|[/Z.eqb_neq E1 E3]]; move: N;
    case: u => [[|[|u]] Hu] //; case: v => [[|[|v]] Hv] // N; try (by case: N; apply: val_inj); rewrite /= !D ?E1 ?E3 /= ?mulr1n ?mulr0n;
    rewrite !(subr0, sub0r, oppr0, mul0r, mulr0, mul1r, mulr1, addr0, add0r, mulN1r, mulrN1, subrr, addNr) //.
    by rewrite mulNr mulKf // subrr.
  by rewrite mulrN mulrAC mulfV // mul1r subrr.
rewrite /entailed EN lim_cov !mulmxA mulVmx // mul1mx -mulmxA -trmx_mul mulVmx // trmx1 mulmx1 //.
Qed.

(** C118: the hypotheses are met *)
Lemma A01_dag : dag01 2 A01.
Proof. by split; [exact: A2_sq | split; [move=> [|[|[|i]]] [|[|[|j]]]; first [by left | by right] | exact: A2_acyclic]]. Qed.
Lemma A10_edge i j : edge A10 i j <-> (i, j) = (1, 0)%N.
Proof.
split; last by move=> [-> ->].
by case: i => [|[|[|i]]]; case: j => [|[|[|j]]] H; first [by [] | by case: H].
Qed.
Lemma A01_edge i j : edge A01 i j <-> (i, j) = (0, 1)%N.
Proof. by split=> [/A2_edge [-> ->]|[-> ->]]. Qed.
Lemma A10_acyclic : acyclic A10.
Proof.
have P : forall i j, Relation_Operators.clos_trans nat (edge A10) i j -> (j < i)%N.
  by move=> i j; elim=> [x y /A10_edge [-> ->]|x y z _ H _ H'] //; apply: ltn_trans H' H.
by move=> i /P; rewrite ltnn.
Qed.
Lemma A10_dag : dag01 2 A10.
Proof.
split; first by split=> //; do 3 constructor.
by split; [move=> [|[|[|i]]] [|[|[|j]]]; first [by left | by right] | exact: A10_acyclic].
Qed.
Local Notation cands := [:: A01; A10].
Lemma cands_dag : Forall (dag01 2) cands.
Proof. by constructor; [exact: A01_dag | constructor; [exact: A10_dag | constructor]]. Qed.
Lemma cands_acyclic : Forall acyclic cands.
Proof. by apply: Forall_impl cands_dag => A /dag01_graph []. Qed.

Lemma lim_split : split_data (w_shuffle lim_world 42) [seq linked3 k | k <- enum 'I_1] (a_folds lim_args) = Ok [:: tr; tr; tr].
Proof.
by have -> : [seq linked3 k | k <- enum 'I_1] = [:: linked ++ linked ++ linked] by rewrite enum_ordSl /= (size0nil (size_enum_ord 0)).
Qed.
Lemma lim_folds : exact_folds lim_world tr tr tr.
Proof. by move=> k; split=> //; exact: lim_nobs. Qed.

Lemma lim_unexplained A I : ~ (exists i j, edge A i j) -> ~ explainable cf A I.
Proof.
move=> N [m [SB _ _ X]].
have B0 : mB m = 0 by apply/matrixP => i j; rewrite [RHS]mxE; apply/eqP; apply: contraT => /SB E; case: N; exists i, j.
move: (X 0); rewrite /entailed B0 trmx0 subr0 invmx1 trmx1 mul1mx mulmx1 [cf_sigmas _ _]lim_cov.
move=> /matrixP /(_ 0 1); rewrite !mxE big_ord0 add0r /= => /esym /eqP.
by rewrite gt_eqF // vr_gt0.
Qed.
Lemma lim_fits prune : exact_fits lim_world lim_args tr prune cands [:: 0%N].
Proof.
move=> hh G A I [<-|//] HG GA HS SI HE rnd m s.
have AG : acyclic G by move/Forall_forall: cands_acyclic; apply.
have AC : acyclic A by case: prune HS => [HS|->] //; apply: sub_acyclic HS AG.
have EX : exists i j, edge A i j.
  case E : (has (fun i => has (fun j => ~~ Z.eqb (get A i j) Z0) (iota 0 2)) (iota 0 2)).
    by move/hasP: E => [i _ /hasP [j _ /negP E]]; exists i, j => E'; apply: E; rewrite E'.
  case: (lim_unexplained _ HE) => -[i [j Eij]].
  have [/ssrnat.ltP Hi /ssrnat.ltP Hj] := edge_lt _ _ _ _ (proj1 GA) Eij.
  move/negbT/hasPn: E => /(_ i); rewrite mem_iota => /(_ Hi) /hasPn /(_ j); rewrite mem_iota => /(_ Hj) /negPn /Z.eqb_spec E.
  by case: Eij.
have [g [s' [x E]]] := lim_fit I rnd GA AC; rewrite E => -[<- _] /=; split=> // k.
exact: lim_entailed.
Qed.

Lemma lim_explainable G I : List.In G cands -> explainable cf G I.
Proof.
move=> HG; have [GG AG] : graph 2 G /\ acyclic G by apply: dag01_graph; move/Forall_forall: cands_dag; apply.
have EX : exists i j, edge G i j by case: HG => [<-|[<-|//]]; [exists 0%N, 1%N | exists 1%N, 0%N].
have [g [s' [x E]]] := lim_fit I (fun=> (0, 0)) GG AG.
have [SG NG] := GG; have [//|[_ _ H1 H2] H3] := @fit_facts _ _ _ _ cf G SG NG I None _ _ _ _ E.
by eexists; split; [exact: H1 | exact: H2 | exact: H3 | exact: lim_entailed].
Qed.

Lemma lim_some : some_weight cf.
Proof.
move=> A I rnd m s GA E [i [j Eij]].
have [SA NA] := GA; have AA : acyclic A.
  case: (is_dag_spec (cf_h cf) 2 A SA NA) => d [_ Hd]; case: d Hd => Hd; first by apply/Hd.
  by move: E; rewrite fit_notdag // => /Hd.
have [g [s' [x E']]] := lim_fit I rnd GA AA; move: E; rewrite E' => -[<- _] /=.
have [/ssrnat.ltP Hi /ssrnat.ltP Hj] := edge_lt _ _ _ _ SA Eij.
move=> /matrixP /(_ (Ordinal Hi) (Ordinal Hj)) /eqP; rewrite !mxE /=.
by case: Z.eqb_spec Eij => // _ _; case: ifP => _; rewrite ?oner_eq0 // invr_eq0 pnatr_eq0.
Qed.

Lemma lim_run prune n : exists ic J am, equivalence_class lim_world lim_args cands linked3 prune n = Ok (ic, J, am).
Proof.
have G1 : Forall (graph 2) cands by apply: Forall_impl cands_dag => A /dag01_graph [].
have P k : List.In k [:: 0%N] -> prunable lim_world lim_args prune tr k by move=> [<-|//] _; split; first exact: lim_some.
have := @fit_all_total F 2 1 lim_world lim_args linked3 (Some cands) prune 42 tr tr tr cands [:: 0%N] lim_split
  (or_introl erefl) erefl G1 ltac:(by []) ltac:(by []) erefl P.
move=> [[[[am J] sc] E]|[k [m [x [[<-|//] _ [A [I [r [GA [G HG SG] EF]]]]]]]]]; last first.
  have AA : acyclic A by apply: (sub_acyclic SG); move/Forall_forall: cands_acyclic => /(_ _ HG).
  by have [g [s [y EF']]] := lim_fit I (w_rnds lim_world m r) GA AA; rewrite EF' in EF.
have [||t1 [t2 [t3 [gs [hs [k [v [_ _ _ _ [[[SA NA] AC _ _ _] _ _]]]]]]]]] := fit_all_spec _ _ E => //; first by move=> gs [<-].
have [M [EM _]] := dag_to_icpdag_spec h 2 _ J SA NA AC.
by exists M, J, am; rewrite /equivalence_class E /= EM.
Qed.

Hypothesis LL : log_like log.

Lemma lim_result prune n : exists am, equivalence_class lim_world lim_args cands linked3 prune n = Ok (A01, [:: 0; 1]%N, am) /\
  explains (covs lim_world tr) (projT2 am).
Proof.
have [ic [J [am E]]] := lim_run prune n; exists am; rewrite E.
have XE : exists h G, [/\ List.In h [:: 0%N], List.In G cands & explainable (train_conf lim_world lim_args tr h) G (List.seq 0 2)].
  by exists 0%N, A01; split; [left | left | apply: lim_explainable; left].
have [EJ Eic _] := class_limit cands_dag E lim_split erefl LL lim_folds (@lim_fits prune) XE.
have G1 : Forall (graph 2) cands by apply: Forall_impl cands_dag => A /dag01_graph [].
move: E; rewrite /equivalence_class => /(@bindOk _ _ _ _ _) [[[am' J'] sc] Ef /(@bindOk _ _ _ _ _) [ic' Ei [E1 E2 E3]]].
rewrite E2 E3 in Ef.
have XE' : exists h G, [/\ List.In h [:: 0%N], List.In G cands, acyclic G & explainable (train_conf lim_world lim_args tr h) G (List.seq 0 2)].
  by exists 0%N, A01; split; [left | left | exact: A2_acyclic | apply: lim_explainable; left].
have [XM _ [_ [us [vs [Egs HU]]]] [E0|//] _] := fit_all_limit G1 Ef lim_split erefl LL lim_folds (@lim_fits prune) XE'.
split=> //; rewrite EJ Eic; congr (Ok (_, _, _)).
case: us Egs HU => [[<- _]//|u us [<- _]] HU; rewrite -E0 in HU.
by case: (HU A01 (or_introl erefl)); apply: lim_explainable; left.
Qed.

(** C119 *)
Lemma lim_refuted prune n : exists (w : world F 2 1) a data gs tr hs ic J am G,
  [/\ [/\ Forall (dag01 2) gs, split_data (w_shuffle w 42) [seq data k | k <- enum 'I_1] (a_folds a) = Ok [:: tr; tr; tr],
           numbers w a tr = Ok hs & w_log w = log],
      exact_folds w tr tr tr /\ exact_fits w a tr prune gs hs,
      [/\ List.In 0%N hs, List.In G gs & explainable (train_conf w a tr 0) G [::]],
      equivalence_class w a gs data prune n = Ok (ic, J, am)
    & ~ consistent_ext G ic /\ J = [:: 0; 1]%N].
Proof.
have [am [E _]] := lim_result prune n.
exists lim_world, lim_args, linked3, cands, tr, [:: 0%N], A01, [:: 0; 1]%N, am, A10; split=> //.
- by split=> //; [exact: cands_dag | exact: lim_split].
- by split; [exact: lim_folds | exact: lim_fits].
- by split; [left | right; left | apply: lim_explainable; right; left].
split=> // -[_ [_ [_ HO]]]; have : edge A10 0 1 by apply: HO; split=> // /A01_edge.
by move/A10_edge.
Qed.
End Run.
