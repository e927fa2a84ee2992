(** Concrete inputs that meet the hypotheses of the theorems of PropLeak.v. *)
From Coq Require Import ZArith QArith List.
From mathcomp Require Import all_ssreflect all_algebra.
From Verif Require Import Base GraphModel GraphSpec NumModel NumSpec ListModel ScoreModel CovModel CacheSpec ScoreSpec MainModel MainSpec PruneProofs Run2Proofs TotalProofs SeedProofs MainRunProofs ExMainDefs.
From Verif Require Import TopoProofs MeekProofs EnumProofs LinAlgProofs NumProofs GDProofs ScoreProofs HistProofs LoopProofs Lr0Proofs NoErrProofs RunProofs ClassProofs NamesSpec ClassNamesProofs QFieldProofs OrderProofs CandSpec CandProofs DupProofs StatSpec FitProofs LeakSpec LeakProofs PropStat PropLeak.
Import Order.Theory GRing.Theory Num.Theory.
Local Open Scope nat_scope.
Local Open Scope ring_scope.

Local Notation "a ## b" := (Qmake (Zpos a) b) (at level 30).

Section Leak.
Variables (F : realFieldType) (log : F -> F) (pi : F) (h : hord).
Local Notation sample := (seq 'rV[F]_2).
Local Notation w := (dup_world log pi h).
Local Notation a := (dup_args F).
Local Notation tr := [:: axes F (3 ## 1) (3 ## 1); mixed F].
Local Notation te := [:: axes F (2 ## 1) (3 ## 1); mixed F].

(** [dup_data] with other second and third folds: the environment k has second k and third k. *)
Definition with_folds (second third : 'I_2 -> sample) (k : 'I_2) : sample :=
  (if k == 0 then axes F (3 ## 1) (3 ## 1) else mixed F) ++ second k ++ third k.
Lemma folds_split s t : (forall k, size (s k) = 4%N) -> (forall k, size (t k) = 4%N) ->
  split_data (w_shuffle w 42) [seq with_folds s t k | k <- enum 'I_2] (a_folds a) = Ok [:: tr; [:: s 0; s 1]; [:: t 0; t 1]].
Proof.
move=> Ls Lt; have -> : [seq with_folds s t k | k <- enum 'I_2] = [:: with_folds s t 0; with_folds s t 1].
  rewrite enum_ordSl enum_ordSl /= (size0nil (size_enum_ord 0)) /=; congr [:: _; with_folds s t _]; exact: val_inj.
rewrite /with_folds /=; move: (Ls 0) (Ls 1) (Lt 0) (Lt 1).
case: (s 0) => [|? [|? [|? [|? []]]]] //; case: (s 1) => [|? [|? [|? [|? []]]]] //.
by case: (t 0) => [|? [|? [|? [|? []]]]] //; case: (t 1) => [|? [|? [|? [|? []]]]].
Qed.

Lemma tr_runs s t Gs : (forall k, size (s k) = 4%N) -> (forall k, size (t k) = 4%N) -> Forall (fun G => graph 2 G /\ acyclic G) Gs -> Gs <> [::] ->
  exists am J sc, fit_all w a (with_folds s t) (Some Gs) false None None 42 = Ok (am, J, sc).
Proof.
move=> Ls Lt HG N0; have G1 : Forall (graph 2) Gs by apply: (Forall_impl _ _ HG) => G [].
have := @fit_all_total F 2 2 w a (with_folds s t) (Some Gs) false 42 tr _ _ Gs [:: 0%N] (folds_split s t Ls Lt) (or_introl erefl) erefl G1 N0 ltac:(by []) erefl (fun _ _ H => ltac:(by [])).
move=> [[[[am J] sc] E]|[h' [n [x [Hh _ [A [I [rk [GA [B HB SB]]]]]]]]]]; first by exists am, J, sc.
case: Hh => [<-|//] EF; have [SA NA] := GA.
have AA : acyclic A by apply: (sub_acyclic SB); have [] := proj1 (Forall_forall _ _) HG _ HB.
have PN k : (0 < cf_n_obs (train_conf w a tr 0) k)%N by rewrite /= dup_nobs.
have [pm [v [_ _ E]]] := @fit_once F 2 0 2 (train_conf w a tr 0) A SA NA AA erefl erefl erefl (dup_posdef log pi h) PN erefl erefl erefl erefl erefl (fun m => new_weight A (momegas m))
  (fun m' _ => @new_supported F A (momegas m')) ltac:(by move=> m' <-) erefl I (w_rnds w n rk).
by rewrite E in EF.
Qed.

(** The folds of [dup_data] and others *)
Definition old_second (k : 'I_2) : sample := if k == 0 then axes F (2 ## 1) (3 ## 1) else mixed F.
Definition new_second (k : 'I_2) : sample := if k == 0 then mixed F else axes F (7 ## 1) (1 ## 2).
Definition old_third (k : 'I_2) : sample := if k == 0 then axes F (3 ## 1) (3 ## 1) else mixed F.
Definition new_third (k : 'I_2) : sample := if k == 0 then axes F (5 ## 1) (1 ## 3) else axes F (1 ## 4) (9 ## 1).
Definition negated_third (k : 'I_2) : sample := map -%R (old_third k).
Lemma four_obs : [/\ forall k, size (old_second k) = 4%N, forall k, size (new_second k) = 4%N, forall k, size (old_third k) = 4%N,
  forall k, size (new_third k) = 4%N & forall k, size (negated_third k) = 4%N].
Proof. by split=> k; rewrite ?size_map /old_second /new_second /old_third /new_third; case: ifP. Qed.

Lemma two_ok : Forall (fun G => graph 2 G /\ acyclic G) [:: A2; back2].
Proof. by constructor; [exact: (Forall_inv cand_ok)|exact: (Forall_inv_tail (Forall_inv_tail cand_ok))]. Qed.
Lemma two_graphs : Forall (graph 2) [:: A2; back2].
Proof. by apply: (Forall_impl _ _ two_ok) => G []. Qed.
Lemma old_data_run : exists am J sc, fit_all w a (with_folds old_second old_third) (Some [:: A2; back2]) false None None 42 = Ok (am, J, sc) /\ mA (projT2 am) = A2.
Proof.
have [r [r' [+ _ EA _]]] := dup_refuted log pi h 42; rewrite /equivalence_class => /(@bindOk _ _ _ _ _) [[[am J] sc] E /(@bindOk _ _ _ _ _) [ic _ Er]].
exists am, J, sc; split; last by move: EA; case: Er => <-.
rewrite -E /fit_all; congr bind; congr split_data; apply: eq_map => k.
by rewrite /with_folds /old_second /old_third /dup_data; case: ifP.
Qed.

(** C131, third fold: the candidates are 0 -> 1 and 1 -> 0.  The first run selects 0 -> 1; so does the second. *)
Example C131_other_third : exists am J sc am' J' sc',
  [/\ fit_all w a (with_folds old_second old_third) (Some [:: A2; back2]) false None None 42 = Ok (am, J, sc),
      fit_all w a (with_folds old_second new_third) (Some [:: A2; back2]) false None None 42 = Ok (am', J', sc'),
      mA (projT2 am) = A2, mA (projT2 am') = A2 & same_set J J' -> am' = am].
Proof.
have [L1 L2 L3 L4 L5] := four_obs; have [am [J [sc [E EA]]]] := old_data_run.
have [am' [J' [sc' E']]] := tr_runs old_second new_third [:: A2; back2] L1 L4 two_ok ltac:(by []).
exists am, J, sc, am', J', sc'.
have G1 gs : Some [:: A2; back2] = Some gs -> Forall (graph 2) gs by move=> [<-]; exact: two_graphs.
have G2 (t0 : seq sample) gs : Some [:: A2; back2] = None -> fit_ges w t0 = Ok gs -> Forall (graph 2) gs by [].
have [hn [pool [m [m' [[Em Em'] Q S1 S2 D]]]]] := C131_third_fold F 2 2 w a (argsort_sorts (F:=F)) _ _ _ _ _ _ _ _ _ _ _ _ _ _ _ _ G1 G2 (folds_split _ _ L1 L3) (folds_split _ _ L1 L4) E E'.
have EA' : mA (projT2 am') = mA (projT2 am) by rewrite Em Em'.
split=> //; first by rewrite EA'.
move=> SJ; have [] // := C131_parameters F 2 2 w a (argsort_sorts (F:=F)) _ _ _ _ _ _ _ _ _ _ _ _ _ _ _ _ _ G1 G2 (folds_split _ _ L1 L3) (folds_split _ _ L1 L4) E E' _ EA' SJ.
by rewrite Em Em'.
Qed.

(** C131, second fold: the only candidate is 0 -> 1, so both runs select it. *)
Lemma nums_one data J sc am : fit_all w a data (Some [:: A2]) false None None 42 = Ok (am, J, sc) -> projT1 am = 0%N /\ mA (projT2 am) = A2.
Proof.
move=> E; have [|//|t1 [t2 [t3 [gs [hs [k [v [ES [HI HN] [HL HV _] [G HG EG] _]]]]]]]] := fit_all_spec _ _ E.
  by move=> gs [<-]; constructor=> //; exact: (Forall_inv two_graphs).
case: HI HG EG => [[<-]|[]//] [<-|//] EG; split=> //; move: HN HL => [<-] []; case: k {HV} => [|k] /=; first by case.
by case: k.
Qed.
Example C131_other_second : exists am J sc,
  [/\ fit_all w a (with_folds old_second old_third) (Some [:: A2]) false None None 42 = Ok (am, J, sc),
      fit_all w a (with_folds new_second old_third) (Some [:: A2]) false None None 42 = Ok (am, J, sc) & mA (projT2 am) = A2].
Proof.
have [L1 L2 L3 L4 L5] := four_obs; have O1 : Forall (fun G => graph 2 G /\ acyclic G) [:: A2] by constructor=> //; exact: (Forall_inv two_ok).
have [am [J [sc E]]] := tr_runs old_second old_third [:: A2] L1 L3 O1 ltac:(by []).
have [am' [J' [sc' E']]] := tr_runs new_second old_third [:: A2] L2 L3 O1 ltac:(by []).
have [N1 A1] := nums_one _ _ _ _ E; have [N2 B1] := nums_one _ _ _ _ E'.
exists am, J, sc; split=> //; rewrite E'; congr Ok.
have G1 gs : Some [:: A2] = Some gs -> Forall (graph 2) gs by move=> [<-]; apply: (Forall_impl _ _ O1) => G [].
apply: (C131_second_fold F 2 2 w a _ _ _ _ _ _ _ _ _ _ _ _ _ _ _ _ G1 _ (folds_split _ _ L1 L3) (folds_split _ _ L2 L3) E E') => //.
  by rewrite N1.
by rewrite A1.
Qed.

(** C131, parameters: the second fold is another one and the observations of the third change their signs. *)
Lemma cov_negated (X : seq 'rV[F]_2) : np_cov (map -%R X) = np_cov X.
Proof.
rewrite /np_cov size_map !big_map; congr (_ *: _); apply: eq_bigr => x _.
by rewrite sumrN scalerN -opprD mulmxN (linearN (trmx_linear _ _ _)) mulNmx opprK.
Qed.
Example C131_other_folds seed : exists r,
  [/\ equivalence_class w a [:: A2] (with_folds old_second old_third) false seed = Ok r,
      equivalence_class w a [:: A2] (with_folds new_second negated_third) false seed = Ok r & mA (projT2 r.2) = A2].
Proof.
have [L1 L2 L3 L4 L5] := four_obs; have [am [J [sc [E E' EA]]]] := C131_other_second.
have O1 : Forall (graph 2) [:: A2] by constructor=> //; exact: (Forall_inv two_graphs).
have AC : acyclic A2 by have [] := Forall_inv two_ok.
have [N1 _] := nums_one _ _ _ _ E.
have EC : equivalence_class w a [:: A2] (with_folds new_second negated_third) false seed = equivalence_class w a [:: A2] (with_folds new_second old_third) false seed.
  apply: (C128_statistics _ _ _ _ _ _ _ _ _ _ _ _ _ _ _ _ (folds_split _ _ L2 L3) (folds_split _ _ L2 L5)).
  - by do 3 constructor=> //.
  - by do 3 constructor=> //.
  by constructor; [|constructor=> //]; split; rewrite /negated_third ?size_map //; exact: cov_negated.
have [ic Ei] : exists ic, dag_to_icpdag h (mA (projT2 am)) J = Ok ic.
  have [SA NA] := Forall_inv O1; rewrite EA.
  by have [M [EM _]] := dag_to_icpdag_spec h 2 _ J SA NA AC; exists M.
exists (ic, J, am); rewrite EC /equivalence_class E E' /= Ei /=; split=> //.
Qed.
End Leak.
