(** Property C138: more edges, targets or latents explain the training data at least as well. *)
From Coq Require Import ZArith List.
From mathcomp Require Import all_ssreflect all_algebra.
From Verif Require Import Base GraphModel GraphSpec ListModel NumModel NumSpec ScoreModel ScoreSpec MainModel MainSpec NestSpec NestProofs.
Set Implicit Arguments.
Unset Strict Implicit.
Unset Printing Implicit Defensive.
Import Order.Theory GRing.Theory Num.Theory.
Local Open Scope ring_scope.

(** C138: a model for a graph, targets and a number of latents has a counterpart with the same weights, noise and scores for any
    larger graph, targets and number of latents. *)
Theorem C138_nested : forall (F : realFieldType) (log : F -> F) (p e : nat) (psi_max : option F) (psi_fixed : bool) (l l' : nat) A A' I I'
  (m : model F p l e),
  (l <= l')%N -> subgraph A A' -> incl I I' -> (forall u, psi_max = Some u -> 0 < u) -> allowed psi_max psi_fixed A I m ->
  exists m' : model F p l' e, [/\ allowed psi_max psi_fixed A' I' m', mB m' = mB m, forall i, mnoise m' i = mnoise m i
    & forall sigmas n_obs, score log m' sigmas n_obs = score log m sigmas n_obs].
Proof. exact nested. Qed.
Print Assumptions C138_nested.

(** C138: the best score is at most that of any model with fewer edges, targets and latents. *)
Theorem C138_optimum : forall (F : realFieldType) (log : F -> F) (p e : nat) (psi_max : option F) (psi_fixed : bool) (l l' : nat) A A' I I'
  (m : model F p l e) (m' : model F p l' e) sigmas n_obs y y',
  (l <= l')%N -> subgraph A A' -> incl I I' -> (forall u, psi_max = Some u -> 0 < u) ->
  allowed psi_max psi_fixed A I m -> optimal log psi_max psi_fixed sigmas n_obs A' I' m' ->
  score log m sigmas n_obs = Ok y -> score log m' sigmas n_obs = Ok y' -> y' <= y.
Proof. exact nested_optimum. Qed.
Print Assumptions C138_optimum.

(** C138: if the fits are optimal, the training scores do not decrease while edges are pruned ... *)
Theorem C138_pruning : forall (F : realFieldType) (p l e : nat) (cf : conf F p l e), (forall u, cf_psi_max cf = Some u -> 0 < u) ->
  optimal_fits cf -> forall rnds fuel (s : sobj F p l e) Gs ms,
  some_weight cf -> reached cf s.1 -> Forall (graph p) Gs -> Gs <> [::] -> (p * p <= fuel)%N ->
  (prune_graphs cf rnds fuel true None s Gs).2 = Ok ms ->
  exists mss, ms = concat mss /\
    Forall2 (fun G c => rising cf c /\ exists m c', [/\ c = m :: c', mA m = G & edge_count G (size c')]) Gs mss.
Proof. exact prune_graphs_rising. Qed.
Print Assumptions C138_pruning.

(** ... nor while targets are. *)
Theorem C138_targets : forall (F : realFieldType) (p l e : nat) (cf : conf F p l e), (forall u, cf_psi_max cf = Some u -> 0 < u) ->
  optimal_fits cf -> forall rnds argsort (s : sobj F p l e) G rs, reached cf s.1 -> graph p G -> sorts argsort ->
  (prune_I cf rnds argsort None s G).2 = Ok rs -> size rs = p.+1 /\ rising cf [seq r.1 | r <- rs].
Proof. exact prune_I_rising. Qed.
Print Assumptions C138_targets.
