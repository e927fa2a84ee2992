(** Instances of the theorems of PropMore.v. *)
From Coq Require Import ZArith QArith_base List Permutation.
From mathcomp Require Import all_ssreflect all_algebra.
From Verif Require Import Base GraphModel GraphSpec ListModel NumModel NumSpec ScoreModel ScoreSpec OptSpec MainModel MainSpec TermSpec CandSpec MoreSpec.
From Verif Require Import TopoProofs MeekProofs LimitSpec LimitProofs CandProofs SeedProofs Run2Proofs MainRunProofs LimitRunProofs ExMainDefs ExMain ExTerm PropTerm PropCand PropMore.
Import Order.Theory GRing.Theory Num.Theory.
Local Open Scope ring_scope.

Section Runs.
Variables (F : archiFieldType) (pi : F) (h : hord).
Local Notation w k := (w_with_fuel (exw pi h) k).
Local Notation a' := (with_numbers (exa F) [:: 0; 1; 2]%N).
Local Notation data := (seed_data F).
(** One candidate, two numbers of latents and no pruning; two candidates, three numbers of latents and pruning *)
Example C145_class_ex : exists k ic J am ic' J' am' v v',
  [/\ equivalence_class (w k) (exa F) [:: A2] data false 0 = Ok (ic, J, am),
      equivalence_class (w k) a' [:: A10; A2] data true 0 = Ok (ic', J', am'),
      validated (w k) (exa F) [:: cross (1 : F)] [:: cross 2%:R] false [:: A2] [:: 2; 1]%N am v,
      validated (w k) a' [:: cross (1 : F)] [:: cross 2%:R] true [:: A10; A2] [:: 0; 1; 2]%N am' v' & v' <= v].
Proof.
have [S10 N10] : graph 2 A10 by have [] := dag01_graph A10_dag.
have C10 : acyclic A10 by have [] := dag01_graph A10_dag.
have GG : Forall (graph 2) [:: A10; A2] by constructor=> //; constructor; [exact: A2_graph | constructor].
have [[[ic J] am] [k H]] := C99_class_ex pi h false 0.
have [[[ic' J'] am'] [k' H']] : exists x, settles (fun k => equivalence_class (w k) a' [:: A10; A2] data true 0) (Ok x).
  apply: (C99_class_returns (a := a') (w := exw pi h) _ _ (exw_split pi h) erefl) => //.
  - by move=> n /= [<-|[<-|[<-|]]].
  - by constructor=> //; constructor; [exact: A2_acyclic | constructor].
  - exact: exw_data.
  - exact: exw_tangent.
  - exact: exa_threshold.
  - exact: exa_psi.
  exact: exw_answers.
have E := H _ (leq_maxl k k'); have E' := H' _ (leq_maxr k k').
have [|n Hn|||v [v' [V V' L]]] := C145_class F 2 1 (w (maxn k k')) (exa F) [:: A2] [:: A10; A2] [:: A10] data false true 0 0 ic J am ic' J' am'
  _ _ _ [:: 2; 1]%N [:: 0; 1; 2]%N (exw_split pi h) erefl _ _ _ GG _ E E'.
- by move=> n [<-|[<-|[]]]; [right; right; left | right; left].
- exact: C126_cvx.
- exact: perm_swap.
- by [].
by exists (maxn k k'), ic, J, am, ic', J', am', v, v'.
Qed.
End Runs.
