(** Property C120: the cost of _fit. *)
From Coq Require Import ZArith List.
From mathcomp Require Import all_ssreflect all_algebra.
From Verif Require Import Base GraphModel GraphSpec ListModel NumModel ScoreModel CacheSpec ScoreSpec MainModel MainSpec FullModel FullSpec CostSpec CostProofs.
Local Open Scope ring_scope.

(** C120.  s is the Score object of the selected number of latents at the end.  It was called once for every pruned graph and
    every pruned set of targets: with pruning, once for every candidate and each of its edges (at most p (p - 1) / 2), and then
    p + 1 times.  At least one of the calls did not fit, and no pair of a graph and targets was fitted twice. *)
Theorem C120_cost : forall (F : realFieldType) (p e : nat) (w : world F p e) (a : args F) ges data ig prune o seed store am J sc H,
  sorts (w_argsort w) ->
  (forall training gs, initial w ges training ig o = Ok gs -> Forall (graph p) gs) ->
  fit_full w a ges data ig prune None None o seed store = Ok (am, J, sc, Some H) ->
  forall gs Is s, hi_pruned H = Some (gs, Is) -> hi_cache H = Some s -> exists c ns,
  [/\ Forall2 edge_count (hi_initial H) ns /\ Forall (fun n => (n.*2 <= p * p.-1)%N) ns,
      size gs = if prune then sumn [seq n.+1 | n <- ns] else size (hi_initial H),
      size Is = p.+1, s.2 = (size gs + size Is)%N
    & [/\ s.1 = Some c, (size (cAs c) < s.2)%N & pairs_once c]].
Proof. exact @full_cost. Qed.
Print Assumptions C120_cost.
