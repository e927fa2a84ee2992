(** Instances of the theorems of PropBound.v. *)
From Coq Require Import ZArith List.
From mathcomp Require Import all_ssreflect all_algebra.
From Verif Require Import Base GraphModel GraphSpec TopoProofs NumModel NumSpec ScoreModel ScoreSpec OptSpec MainModel MainSpec TermSpec.
From Verif Require Import MeekProofs FitProofs SeedProofs Run2Proofs MainRunProofs ExMainDefs ExMain LimitProofs LimitRunProofs ExNest ExTerm NestSpec BoundSpec PropBound.
Import Order.Theory GRing.Theory Num.Theory.
Local Open Scope ring_scope.

(** A model of 1 -> 0 with one hidden variable, whose variance changes from 1 to 9 between the environments, and one with the
    same covariances in which no variance of a hidden variable is above 1/2 *)
Section Two.
Variable F : realFieldType.
Definition ninefold : model F 2 1 2 := let B : 'M[F]_2 := \matrix_(i, j) (if (i == 1) && (j == 0) then 3%:R else 0) in
  MkModel A10 B (const_mx 1) (const_mx 1) (\matrix_(i, j) (if i == 0 then 1 else 9%:R)) (1%:M - B^T).
Example C143_limit_ex : exists m' : model F 2 1 2,
  [/\ allowed (Some (2%:R)^-1) false A10 [::] m', forall i, mnoise m' i = mnoise ninefold i & mpsis m' 1 0 / mpsis m' 0 0 = 9%:R].
Proof.
have Al : allowed None false A10 [::] ninefold.
  split=> //.
  - move=> i j; rewrite mxE; case: ifP; rewrite ?eqxx // => /andP [/eqP -> /eqP ->] _; exact/A10_edge.
  - by split=> // i j /=; rewrite mxE; [exact: ltr01 | case: ifP; rewrite ?ltr0n ?ltr01].
  by split=> // j _ a b /=; rewrite !mxE.
have [//|m' [H1 _ H3 H4 _]] := @C143_limit_refuted F 2 1 2 (2%:R)^-1 false A10 [::] ninefold _ Al; first by rewrite invr_gt0 ltr0n.
by exists m'; split=> //; rewrite H4 /= !mxE /= divr1.
Qed.
End Two.

(** A run with the bound 2 and one with the bound 1 *)
Section Runs.
Variables (F : archiFieldType) (pi : F) (h : hord).
Example C143_class_ex prune seed : exists k ic J am,
  equivalence_class (w_with_fuel (exw pi h) k) (exa F) [:: A2] (seed_data F) prune seed = Ok (ic, J, am) /\ changes_below 2%:R (projT2 am).
Proof.
have [[[ic J] am] [k H]] := C99_class_ex pi h prune seed; have E := H k (leqnn k); exists k, ic, J, am; split=> //.
by apply: (C143_class_partial _ _ _ _ _ _ _ _ _ _ _ _ _ _ _ E) => //; constructor; [exact: A2_graph | constructor].
Qed.
Definition exa1 : args F := Args (Some [:: 2; 1]%N) [:: third; third; third] (Some 1) false 3 0 0 2 (10%:R)^-1 1 Cvx.
Example C143_small_ex prune seed r : equivalence_class (exw pi h) exa1 [:: A2] (seed_data F) prune seed <> Ok r.
Proof.
apply: (C143_class_refuted F 2 1 (exw pi h) exa1 [:: A2] (seed_data F) prune seed r 1) => //; first by move=> hs [<-] [|[|]].
by constructor; [exact: A2_graph | constructor].
Qed.
End Runs.
