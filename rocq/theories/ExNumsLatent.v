(** Concrete inputs that meet the hypotheses of the theorems of PropNumsLatent.v. *)
From Coq Require Import ZArith QArith_base Lia List Permutation.
From mathcomp Require Import all_ssreflect all_algebra.
From Verif Require Import Base GraphModel GraphSpec MeekProofs EnumProofs ListModel NumModel NumSpec LinAlgProofs NumProofs ScoreModel CacheSpec CacheProofs.
From Verif Require Import ScoreSpec GDProofs ScoreProofs HistProofs LoopProofs Lr0Proofs NoErrProofs RunProofs Run2Proofs CovModel MainModel MainSpec PruneProofs PruneIProofs SelectProofs FitProofs TotalProofs MainRunProofs SeedProofs ScreeProofs ClassProofs ExMainDefs PropMain ExMain.
From Verif Require Import NumsLatentSpec PropNumsLatent.
Set Implicit Arguments.
Unset Strict Implicit.
Unset Printing Implicit Defensive.
Import Order.Theory GRing.Theory Num.Theory.
Local Open Scope nat_scope.
Local Open Scope ring_scope.

Section Ex.
Variables (F : realFieldType) (log : F -> F) (pi : F) (h : hord).
Local Notation w := (ex_world log pi h).
Local Notation a := (with_latents (ex_args F) [:: 0; 2; 1]%N).
Local Notation tr := [:: cross (1 : F)].

Lemma lat_le l : List.In l [:: 0; 2; 1]%N -> (l <= 2)%N.
Proof. by move=> [<-|[<-|[<-|]]]. Qed.
Lemma lat_prunable prune l : List.In l [:: 0; 2; 1]%N -> prunable w a prune tr l.
Proof.
move=> /lat_le H _; split=> //; apply: weights_some => //; [exact: ex_posdef | move=> k; apply: ltnW; exact: ex_nobs].
Qed.
Lemma lat_ok l n Gs x : (l <= 2)%N -> Forall acyclic Gs -> ~ failed (train_conf w a tr l) (w_rnds w n) Gs x.
Proof. by move=> H; apply: weights_ok => //; [exact: ex_posdef | move=> k; apply: ltnW; exact: ex_nobs]. Qed.

(** nums_latent = [0, 2, 1] and [1, 0, 1, 2] *)
Example C110_class_ex prune n : exists r,
  equivalence_class w (with_latents (ex_args F) [:: 0; 2; 1]%N) [:: A2] (seed_data F) prune n = Ok r /\
  equivalence_class w (with_latents (ex_args F) [:: 1; 0; 1; 2]%N) [:: A2] (seed_data F) prune n = Ok r.
Proof.
have G1 : Forall (graph 2) [:: A2] by constructor; [exact: A2_graph | constructor].
have G2 : Forall acyclic [:: A2] by constructor; [exact: A2_acyclic | constructor].
have ES : split_data (w_shuffle w 42) [seq seed_data F k | k <- enum 'I_1] (a_folds a) = Ok [:: tr; [:: cross 2%:R]; [:: cross 3%:R]] by exact: (ex_split log pi h).
have := C55_no_comparison_error ES (or_introl erefl) erefl G1 ltac:(by []) ltac:(by []) erefl (@lat_prunable prune).
move=> [[[[am J] sc] E]|[k [m [x [Hk _]]]]]; last by move/(lat_ok (lat_le Hk)) => /(_ G2).
have [||t1 [t2 [t3 [gs [hs [k [v [_ _ _ _ [[[SA NA] AC _ _ _] _ _]]]]]]]]] := C55_selection _ _ E => //; first by move=> gs [<-].
have [M [EM _]] := dag_to_icpdag_spec h 2 _ J SA NA AC.
have R : equivalence_class w a [:: A2] (seed_data F) prune n = Ok (M, J, am) by rewrite /equivalence_class E /= EM.
exists (M, J, am); split=> //.
by apply: C110_class R; [left | move=> l /=; tauto].
Qed.

Example C110_ges_ex n : exists r,
  equivalence_class_w_ges w (with_latents (ex_args F) [:: 0]%N) (seed_data F) n = Ok r /\
  equivalence_class_w_ges w (with_latents (ex_args F) [:: 0; 0]%N) (seed_data F) n = Ok r.
Proof.
have [r R] := C76_ex log pi h n; exists r; split=> //.
by apply: C110_ges R; [left | move=> l /=; tauto].
Qed.
End Ex.
