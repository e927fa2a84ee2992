(** Concrete inputs that meet the hypotheses of the theorems of PropClassNames.v. *)
From Coq Require Import ZArith QArith_base Lia List Permutation.
From mathcomp Require Import all_ssreflect all_algebra all_fingroup.
From Verif Require Import Base GraphModel GraphSpec RenameSpec TopoProofs MeekProofs ListModel NumModel NumSpec LinAlgProofs NumProofs ScoreModel CacheSpec.
From Verif Require Import ScoreSpec GDProofs ScoreProofs HistProofs LoopProofs Lr0Proofs NoErrProofs RunProofs Run2Proofs CovModel MainModel MainSpec PruneProofs.
From Verif Require Import SelectProofs FitProofs TotalProofs MainRunProofs SeedProofs ClassProofs ExMainDefs PropMain NamesSpec ClassNamesSpec ExNames PropClassNames.
Set Implicit Arguments.
Unset Strict Implicit.
Unset Printing Implicit Defensive.
Import Order.Theory GRing.Theory Num.Theory.
Local Open Scope nat_scope.
Local Open Scope ring_scope.

Section Ex.
Variables (F : realFieldType) (log : F -> F) (pi : F) (h : hord).
Local Notation sample := (seq 'rV[F]_2).

(** Two variables and two environments.  Only the variance of the second variable changes. *)
Definition two_world : world F 2 2 :=
  World log pi h id (fun l m => Some (edge_weights F 2 (mA m))) (fun=> (0, 0)) id (fun=> true) (@np_argsort F) (@np_cov F 2)
    (fun _ _ => no_edge2) (fun seed k xs => xs) (fun _ _ _ => (0, 0)) 4.
Definition two_args : args F := Args (Some [:: 0%N]) [:: third; third; third] None false 1 0 0 1 0 0 Cvx.
Definition cross2 (k : nat) : sample :=
  [:: unit_row 0 (1 : F); - unit_row 0 (1 : F); unit_row 1 (k.+1%:R : F); - unit_row 1 (k.+1%:R : F)].
Definition two_data (k : 'I_2) : sample := cross2 k ++ cross2 k ++ cross2 k.
Local Notation tr := [:: cross2 0; cross2 1].
Local Notation cf := (train_conf two_world two_args tr 0).

Lemma two_split : split_data (w_shuffle two_world 42) [seq two_data k | k <- enum 'I_2] (a_folds two_args) = Ok [:: tr; tr; tr].
Proof.
have -> : [seq two_data k | k <- enum 'I_2] = [:: two_data 0; two_data 1].
  by rewrite enum_ordSl enum_ordSl /= (size0nil (size_enum_ord 0)).
by [].
Qed.
Lemma cov_cross2 k : np_cov (cross2 k) = diag_mx (\row_j (if j == 0 then cval 1 else cval k.+1%:R)).
Proof.
rewrite /cross2 cov4; apply/matrixP => i j; rewrite !mxE !big_ord1 !mxE.
by case: i => [[|[|i]] Hi] //; case: j => [[|[|j]] Hj] //; rewrite /= ?mul0r ?mulr0 ?addr0 ?add0r ?mulr0 ?mulr1n ?mulr0n -?expr2.
Qed.
Lemma two_cov (k : 'I_2) : covs two_world tr k = diag_mx (\row_j (if j == 0 then cval 1 else cval k.+1%:R)).
Proof. by rewrite -cov_cross2 /covs; case: k => [[|[|k]] Hk]. Qed.
Lemma two_posdef (k : 'I_2) : posdef (covs two_world tr k).
Proof.
rewrite two_cov; apply: diag_posdef => i; rewrite mxE; case: ifP => _; apply: cval_gt0; first exact: oner_neq0.
by rewrite pnatr_eq0.
Qed.
Lemma two_nobs (k : 'I_2) : (0 < n_obs tr k)%N.
Proof. by rewrite /n_obs; case: k => [[|[|k]] Hk]. Qed.

Lemma A2_sub A i j : subgraph A A2 -> edge A i j -> i = 0%N /\ j = 1%N.
Proof. by move=> S /S /A2_edge. Qed.

Lemma two_no_ties prune : no_ties cf (w_rnds two_world 0) prune [:: A2].
Proof.
move=> A k m s GA [G [<-|//] SG] E; have [SA NA] := GA.
have AA : acyclic A by exact: (sub_acyclic SG A2_acyclic).
have [pm [s' [EI SB EF]]] := @fit_const F 2 0 2 cf A SA NA AA erefl erefl erefl two_posdef two_nobs erefl erefl erefl erefl erefl
  (edge_weights F 2 A) (@weights_supported F 2 A) ltac:(by move=> m' <-) erefl (iota 0 2) (w_rnds two_world 0 k).
move: E; rewrite EF => -[<- _]; split=> [_|].
  move=> i j /= Eij; split.
    by rewrite mxE; case: Z.eqb_spec Eij => // _ _; apply/eqP; rewrite pnatr_eq0 addn1.
  move=> i' j' Eij' _; have [E1 E2] := A2_sub SG Eij; have [E3 E4] := A2_sub SG Eij'.
  by split; apply: ord_inj; rewrite ?E1 ?E2 ?E3 ?E4.
have EO : momegas pm = initialize_omegas cf (mB pm) (iota 0 2).
  by move: EI; rewrite /initial_model; case: initialize_B => //= B; rewrite /new_model; case: ifP => // _; case: is_dag => //= d; case: ifP => // _; case: ifP => // _ [<-].
have B0 (i j : 'I_2) : (i != 0) || (j != 1) -> mB pm i j = 0.
  move=> H; apply/eqP; apply: contraT => /SB /(A2_sub SG) [E1 E2]; move: H.
  by rewrite (ord_inj (E1 : nat_of_ord i = nat_of_ord (0 : 'I_2))) (ord_inj (E2 : nat_of_ord j = nat_of_ord (1 : 'I_2))).
have O (a j : 'I_2) : momegas pm a j = ((j == 0)%:R - mB pm 0 j) ^+ 2 * cval 1 + ((j == 1)%:R - mB pm 1 j) ^+ 2 * cval a.+1%:R.
  rewrite EO [LHS]mxE; have -> : memb j (iota 0 2) = true by case: j => [[|[|j]] Hj].
  rewrite [LHS]mxE (_ : cf_sigmas cf a = covs two_world tr a) // two_cov; set P := 1%:M - _; set d := \row_j _.
  rewrite [LHS]mxE big_ord_recl big_ord_recl big_ord0 addr0.
  have Q x : (P *m diag_mx d) j x * P^T x j = P j x ^+ 2 * d 0 x.
    by rewrite mul_mx_diag !mxE expr2 mulrAC.
  have -> : lift ord0 ord0 = 1 :> 'I_2 by exact: ord_inj.
  by rewrite !Q !mxE /=.
have O0 (a : 'I_2) : momegas pm a 0 = cval 1 by rewrite O /= !B0 // subr0 subrr expr1n mul1r expr0n mul0r addr0.
have O1 (a : 'I_2) : momegas pm a 1 = mB pm 0 1 ^+ 2 * cval 1 + cval a.+1%:R.
  by rewrite O /= (B0 1 1) // sub0r sqrrN subr0 expr1n mul1r.
have L : cval (1%:R : F) < cval 2%:R.
  rewrite /cval ltr_pmul2l ?invr_gt0 ?ltr0n // ltr_pmul2l ?ltr0n // -!natrX ltr_nat; exact: erefl.
have V0 : variance (fun k => momegas pm k 0) = 0.
  have A0 : average (fun x => momegas pm x 0) = cval 1.
    by rewrite /average (eq_bigr (fun=> cval 1)) => [|x _]; rewrite ?O0 // sumr_const card_ord -[_ *+ 2]mulr_natr mulfK ?pnatr_eq0.
  by rewrite /variance {1}/average bigop.big1 ?mul0r // => x _; rewrite A0 O0 subrr expr0n.
have V1 : variance (fun k => momegas pm k 1) <> 0.
  rewrite /variance /average !big_ord_recl !big_ord0 !O1 !addr0 => /eqP; rewrite mulf_eq0 invr_eq0 pnatr_eq0 orbF.
  rewrite paddr_eq0 ?sqr_ge0 // !sqrf_eq0 !subr_eq0 => /andP [/eqP E1 /eqP E2].
  by have := etrans E1 (esym E2); move/addrI => E3; rewrite E3 ltxx in L.
have VI (i : 'I_2) : i = 0 \/ i = 1 by case: i => [[|[|i]] Hi]; [left|right|]; try exact: ord_inj.
move=> i j; case: (VI i) => ->; case: (VI j) => -> EV; [exact: erefl| | |exact: erefl].
  by case: V1; rewrite -V0; exact: (esym EV).
by case: V1; rewrite -V0; exact: EV.
Qed.

Lemma two_runs prune seed : exists ic J am, equivalence_class two_world two_args [:: A2] two_data prune seed = Ok (ic, J, am).
Proof.
have G1 : Forall (graph 2) [:: A2] by constructor; [exact: A2_graph | constructor].
have G2 : Forall acyclic [:: A2] by constructor; [exact: A2_acyclic | constructor].
have SW : some_weight cf by apply: weights_some => //; [exact: two_posdef | exact: two_nobs].
have PR k : List.In k [:: 0%N] -> prunable two_world two_args prune tr k by move=> [<-|//] _; split; [exact: SW|].
have := C55_no_comparison_error two_split (or_introl erefl) erefl G1 ltac:(by []) ltac:(by []) erefl PR.
have NF n x : ~ failed cf (w_rnds two_world n) [:: A2] x by apply: weights_ok => //; [exact: two_posdef | exact: two_nobs].
move=> [[[[am J] sc] E]|[k [m [x [[<-|//] _]]]]]; last by move/NF.
have [||t1 [t2 [t3 [gs [hs [k [v [_ _ _ _ [[[SA NA] AC _ _ _] _ _]]]]]]]]] := C55_selection _ _ E => //; first by move=> gs [<-].
have [M [EM _]] := dag_to_icpdag_spec h 2 _ J SA NA AC.
by exists M, J, am; rewrite /equivalence_class E /= EM.
Qed.

(** C125: the two variables exchange their names. *)
Example C125_ex prune seed : exists w' ic J am J' am',
  [/\ renamed_world swap2 (tperm 0 1) two_world w', rename 2 swap2 A2 <> A2,
      equivalence_class two_world two_args [:: A2] two_data prune seed = Ok (ic, J, am) &
      equivalence_class w' two_args [:: rename 2 swap2 A2] (fun k => rename_sample (tperm 0 1) (two_data k)) prune seed =
        Ok (rename 2 swap2 ic, J', am') /\ same_set J' (List.map swap2 J)].
Proof.
have [w' [RW EW]] := C125_renamed F 2 2 _ _ _ two_world swap2_names; have [ic [J [am E]]] := two_runs prune seed.
have := C125_class_names F 2 2 _ _ _ two_world w' two_args [:: A2] two_data _ prune seed _ _ _ [:: 0%N] swap2_names RW (@argsort_sorts F)
  ltac:(by rewrite EW; exact: argsort_sorts) (fun=> erefl) two_split erefl ltac:(by constructor; [exact: A2_graph | constructor]) erefl
  (fun k => conj (two_posdef k) (two_nobs k)) ltac:(by move=> [|[|n]] // h0 [<-]; exact: two_no_ties).
rewrite E; case E' : equivalence_class => [[[ic' J'] am']|x] //= [E1 E2 _].
by exists w', ic, J, am, J', am'; split=> //; rewrite E' E1.
Qed.
End Ex.
