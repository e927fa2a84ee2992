(** A concrete run that meets the hypotheses of C120. *)
From Coq Require Import ZArith List.
From mathcomp Require Import all_ssreflect all_algebra.
From Verif Require Import Base GraphModel GraphSpec TopoProofs EdgeProofs ListModel NumModel ScoreModel CacheSpec ScoreSpec HistProofs LoopProofs RunProofs Run2Proofs MainModel MainSpec PruneProofs MainRunProofs SeedProofs ExMainDefs ExMain.
From Verif Require Import FullModel FullSpec PropFull ExFull CostSpec PropCost.
Set Implicit Arguments.
Unset Strict Implicit.
Unset Printing Implicit Defensive.
Import Order.Theory GRing.Theory Num.Theory.
Local Open Scope ring_scope.

Section Ex.
Variables (F : realFieldType) (log : F -> F) (pi : F) (h : hord).
Local Notation w := (ex_world log pi h).

(** One candidate with an edge, two variables: five calls, at most four fits *)
Example C120_ex : exists am J sc H gs Is s c,
  [/\ fit_full w (ex_args F) (@ex_ges_full F) (seed_data F) (Some [:: A2]) true None None (no_opts F) 42 (Zpos (xI xH)) = Ok (am, J, sc, Some H),
      hi_pruned H = Some (gs, Is) /\ hi_cache H = Some s, size gs = 2%N /\ size Is = 3%N, s.2 = 5%N
    & s.1 = Some c /\ (size (cAs c) <= 4)%N].
Proof.
have [am [J [sc [H [Ef [HP [HC _]]]]]]] := C111_history_ex log pi h true.
case EP : (hi_pruned H) HP => [[gs Is]|] // _; case EC : (hi_cache H) HC => [s|] // _.
have GI : forall training gs, initial w (@ex_ges_full F) training (Some [:: A2]) (no_opts F) = Ok gs -> Forall (graph 2) gs.
  by move=> tr gs' [<-]; constructor; [exact: A2_graph | constructor].
have [_ HH] := C111_history _ _ _ _ _ _ _ _ _ _ _ _ _ _ _ _ GI Ef.
have [tr [sg [si [m [_ [_ EI] _ _ _]]]]] := HH H erefl.
have SO : sorts (w_argsort w) := @argsort_sorts F.
have [c [ns [[F2 _] S1 S2 S3 [Ec Lc _]]]] := C120_cost _ _ _ _ _ _ _ _ _ _ _ _ _ _ _ _ SO GI Ef _ _ _ EP EC.
have En : ns = [:: 1%N].
  case: EI F2 => <- F2; inversion F2 as [|? n ? ns' [xs [ND [HX Ln]]] F2']; subst; inversion F2'; subst; congr [:: _].
  have I1 : List.incl xs [:: (0, 1)%N] by move=> [i j] /HX; case: i => [|[|[|i]]]; case: j => [|[|[|j]]] //; left.
  have I2 : List.incl [:: (0, 1)%N] xs by move=> ij [<-|[]]; apply/HX.
  apply/eqP; rewrite eqn_leq; apply/andP; split; apply/ssrnat.leP.
    exact: (NoDup_incl_length ND I1).
  have N1 : List.NoDup [:: (0, 1)%N] by constructor; [case | constructor].
  exact: (NoDup_incl_length N1 I2).
rewrite En /= in S1; rewrite S1 S2 in S3.
by exists am, J, sc, H, gs, Is, s, c; split=> //; split=> //; move: Lc; rewrite S3.
Qed.
End Ex.
