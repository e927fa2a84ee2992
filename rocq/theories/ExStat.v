(** Concrete inputs that meet the hypotheses of the theorems of PropStat.v. *)
From Coq Require Import ZArith QArith List Rbase Rpower.
From mathcomp Require Import all_ssreflect all_algebra.
From Verif Require Import Base GraphSpec NumModel NumSpec ListModel ScoreModel CovModel MainModel MainSpec PruneProofs Run2Proofs TotalProofs MainRunProofs ExMainDefs.
From Verif Require Import NamesSpec ClassNamesProofs QFieldProofs CandSpec CandProofs DupProofs StatSpec StatProofs GesMeanProofs OptSpec ConsistProofs RealProofs PropStat.
Import Order.Theory GRing.Theory Num.Theory.
Local Open Scope nat_scope.
Local Open Scope ring_scope.

(** C128: the second environment of [dup_data] is moved by (2, -4); the result is a model of 0 -> 1 for both data sets. *)
Example C128_moved (F : realFieldType) (log : F -> F) (pi : F) (h : hord) seed :
  exists r, [/\ equivalence_class (dup_world log pi h) (dup_args F) [:: A2; back2] (dup_data F) false seed = Ok r,
    equivalence_class (dup_world log pi h) (dup_args F) [:: A2; back2] (fun k => translate (ges_shift F k) (dup_data F k)) false seed = Ok r
    & mA (projT2 r.2) = A2].
Proof.
have [r [r' [E _ EA _]]] := dup_refuted log pi h seed; exists r; split=> //.
by rewrite -E; apply: (@C128_translate F 2 2 (dup_world log pi h) (dup_args F) _ _ (ges_shift F) _ (dup_data F)).
Qed.
Example C128_really_moved (F : realFieldType) : ges_shift F 0 = 0 /\ ges_shift F 1 = \row_k (if k == 0 then 2%:R else - 4%:R).
Proof.
split=> //; apply/rowP => j; rewrite /ges_shift /= !mxE; case: ifP => _; first by rewrite (qF_nat F 2).
by rewrite (qF_nat F 4) -qFN.
Qed.

(** C128: all observations change their signs; the folds keep their sizes and covariances. *)
Lemma cov_negated (F : realFieldType) (X : seq 'rV[F]_2) : np_cov (map -%R X) = np_cov X.
Proof.
rewrite /np_cov size_map !big_map; congr (_ *: _); apply: eq_bigr => x _.
by rewrite sumrN scalerN -opprD mulmxN (linearN (trmx_linear _ _ _)) mulNmx opprK.
Qed.
Lemma negated_fold (F : realFieldType) (log : F -> F) (pi : F) (h : hord) fold : same_fold (dup_world log pi h) fold (map (map -%R) fold).
Proof. by elim: fold => [|X fold IH]; constructor=> //; split; [rewrite size_map|exact: cov_negated]. Qed.
Example C128_negated (F : realFieldType) (log : F -> F) (pi : F) (h : hord) seed :
  exists r, [/\ equivalence_class (dup_world log pi h) (dup_args F) [:: A2; back2] (dup_data F) false seed = Ok r,
    equivalence_class (dup_world log pi h) (dup_args F) [:: A2; back2] (fun k => map -%R (dup_data F k)) false seed = Ok r
    & mA (projT2 r.2) = A2].
Proof.
have [r [r' [E _ EA _]]] := dup_refuted log pi h seed; exists r; split=> //; rewrite -E.
have ES := dup_split log pi h.
have ES' : split_data (w_shuffle (dup_world log pi h) 42) [seq map -%R (dup_data F k) | k <- enum 'I_2] (a_folds (dup_args F)) = 
  res_map (List.map (List.map (List.map -%R))) (split_data (w_shuffle (dup_world log pi h) 42) [seq dup_data F k | k <- enum 'I_2] (a_folds (dup_args F))).
  by rewrite -(@split_data_map _ _ -%R (w_shuffle (dup_world log pi h) 42) (w_shuffle (dup_world log pi h) 42)) // -[List.map _ _]map_comp.
rewrite ES in ES'; by apply: (C128_statistics _ _ _ _ _ _ _ _ _ _ _ _ _ _ _ _ ES ES'); exact: negated_fold.
Qed.

(** C129: the same vector (2, -4) is added to both environments of the data of the refutation.  Here ges sees the covariance of the
    union of the environments, which stays the same. *)
Example C129_moved (F : realFieldType) (log : F -> F) (pi : F) (h : hord) seed : (forall x y : F, 0 < x -> x < y -> log x < log y) ->
  exists r, [/\ equivalence_class_w_ges (ges_world log pi h) (dup_args F) (ges_data F) seed = Ok r,
    equivalence_class_w_ges (ges_world log pi h) (dup_args F) (fun k => translate (ges_shift F 1) (ges_data F k)) seed = Ok r
    & exists i j, edge (mA (projT2 r.2)) i j].
Proof.
move=> LM; have [r [r' [E _ EA _]]] := ges_refuted pi h LM seed; exists r; split=> //; rewrite -E.
apply: (@C129_common_partial F 2 2 (ges_world log pi h) (dup_args F) _ _ (ges_shift F 1) (ges_data F)) => // X lambda.
by rewrite /= cov_translate.
Qed.

(** The refutation of C129 with the logarithm of the real numbers *)
Example C129_real (pi : R) (h : hord) : exists (w : world R_realFieldType 2 2) (a : args R_realFieldType) data c,
  [/\ w_log w = ln /\ w_pi w = pi, [/\ w_h w = h, moves_rows w & forall X, w_cov w X = np_cov X],
      ges_pdag w /\ (forall X Y lambda, np_cov X = np_cov Y -> w_ges w X lambda = w_ges w Y lambda)
    & forall seed, exists r r',
      [/\ equivalence_class_w_ges w a data seed = Ok r, equivalence_class_w_ges w a (fun k => translate (c k) (data k)) seed = Ok r',
          exists i j, edge (mA (projT2 r.2)) i j & forall i j, ~ edge (mA (projT2 r'.2)) i j]].
Proof.
apply: (C129_means_refuted R_realFieldType ln pi h) => x y; exact: (log_smono ln_log_like).
Qed.
