(** Properties C52-C57, C69, C75-C79: main.py. *)
From Coq Require Import ZArith QArith_base List.
From mathcomp Require Import all_ssreflect all_algebra.
From Verif Require Import Base GraphModel GraphSpec MeekProofs ListModel NumModel NumSpec ScoreModel CacheSpec ScoreSpec MainModel MainSpec.
From Verif Require Import PruneProofs PruneIProofs SelectProofs FitProofs TotalProofs RunProofs Run2Proofs MainRunProofs SeedProofs ScreeProofs ClassProofs.
Set Implicit Arguments.
Unset Strict Implicit.
Unset Printing Implicit Defensive.
Import Order.Theory GRing.Theory Num.Theory.
Local Open Scope ring_scope.

(** C52, for a Score object in any state, when no graph with an edge is fitted with B = 0.  [failed]: fitting one of the
    subgraphs raised. *)
Theorem C52_chain : forall (F : realFieldType) (p l e : nat) (cf : conf F p l e) rnds fuel (s : sobj F p l e) Gs,
  some_weight cf -> reached cf s.1 -> Forall (graph p) Gs -> Gs <> [::] -> (p * p <= fuel)%N ->
  let r := prune_graphs cf rnds fuel true None s Gs in
  (exists mss, r.2 = Ok (concat mss) /\
     Forall2 (fun G ms => exists m ms', [/\ ms = m :: ms', mA m = G, pruned ms & edge_count G (size ms')]) Gs mss) \/
  (exists x, r.2 = Err x /\ failed cf rnds Gs x).
Proof. exact prune_graphs_chain. Qed.
Print Assumptions C52_chain.

(** C52: without pruning. *)
Theorem C52_plain : forall (F : realFieldType) (p l e : nat) (cf : conf F p l e) rnds fuel (s : sobj F p l e) Gs,
  reached cf s.1 -> Forall (graph p) Gs -> Gs <> [::] ->
  let r := prune_graphs cf rnds fuel false None s Gs in
  (exists ms, r.2 = Ok ms /\ map (@mA F p l e) ms = Gs) \/ (exists x, r.2 = Err x /\ failed cf rnds Gs x).
Proof. exact prune_graphs_plain. Qed.
Print Assumptions C52_plain.

(** C52: with a threshold. *)
Theorem C52_threshold : forall (F : realFieldType) (p l e : nat) (cf : conf F p l e) rnds fuel t (s : sobj F p l e) Gs,
  reached cf s.1 -> Forall (graph p) Gs -> Gs <> [::] -> (0 < p)%N ->
  let r := prune_graphs cf rnds fuel true (Some t) s Gs in
  (exists ms, r.2 = Ok ms /\ Forall2 (thresholded cf t (iota 0 p)) Gs ms) \/
  (exists x A J rnd, [/\ r.2 = Err x, graph p A & fit cf A J None rnd = Err x]).
Proof. exact prune_graphs_threshold. Qed.
Print Assumptions C52_threshold.

(** C53, when no graph with an edge is fitted with B = 0: p * p rounds are enough.  Missing: this hypothesis is needed. *)
Theorem C53_terminates_partial : forall (F : realFieldType) (p l e : nat) (cf : conf F p l e) rnds fuel (s : sobj F p l e) Gs,
  some_weight cf -> reached cf s.1 -> Forall (graph p) Gs -> Gs <> [::] -> (p * p <= fuel)%N ->
  exists r, r = (prune_graphs cf rnds fuel true None s Gs).2 /\
  ((exists ms, r = Ok ms /\ forall m, In m ms -> exists2 G, In G Gs & subgraph (mA m) G) \/
   (exists x, r = Err x /\ failed cf rnds Gs x)).
Proof. exact prune_graphs_ends. Qed.
Print Assumptions C53_terminates_partial.

(** C53 is false of the code: two uncorrelated variables, an edge and a convex solver that returns 0; no number of
    rounds is enough. *)
Theorem C53_terminates_refuted : forall (F : realFieldType) (log : F -> F) (h : hord) rnds fuel,
  acyclic A2 /\ (prune_graphs (conf3 log h) rnds fuel true None (new_sobj F 2 0 1) [:: A2]).2 = Err OutOfFuel.
Proof. exact prune_forever2. Qed.
Print Assumptions C53_terminates_refuted.

(** C54: the k-th model is fitted for the targets without the first k variables of the order. *)
Theorem C54_chain : forall (F : realFieldType) (p l e : nat) (cf : conf F p l e) rnds argsort (s : sobj F p l e) G,
  reached cf s.1 -> graph p G -> sorts argsort ->
  let r := (prune_I cf rnds argsort None s G).2 in
  (exists rs m0 order (f : nat -> F),
     [/\ r = Ok rs, size rs = p.+1, (forall j : 'I_p, f j = variance (fun k => momegas m0 k j)),
         increasing p f order /\ List.nth_error rs 0 = Some (m0, List.seq 0 p)
       & forall k m J, (k <= p)%N -> List.nth_error rs k = Some (m, J) ->
           [/\ mA m = G, fitted_for cf J m & forall j, List.In j J <-> (j < p)%N /\ ~ List.In j (firstn k order)]]) \/
  (exists x, r = Err x /\ failed cf rnds [:: G] x).
Proof. exact prune_I_chain. Qed.
Print Assumptions C54_chain.

(** C54: with a threshold. *)
Theorem C54_threshold : forall (F : realFieldType) (p l e : nat) (cf : conf F p l e) rnds argsort t (s : sobj F p l e) G,
  reached cf s.1 -> graph p G -> (0 < p)%N ->
  let r := (prune_I cf rnds argsort (Some t) s G).2 in
  (exists m J m0 mx,
     [/\ r = Ok [:: (m, J)], mA m = G /\ fitted_for cf J m, mA m0 = G /\ fitted_for cf (List.seq 0 p) m0,
         (exists j, variance (fun k => momegas m0 k j) = mx) /\ (forall j, variance (fun k => momegas m0 k j) <= mx)
       & (forall j, List.In j J -> (j < p)%N) /\
         forall j : 'I_p, List.In (j : nat) J <-> mx * t < variance (fun k => momegas m0 k j)]) \/
  (exists x, r = Err x /\ failed cf rnds [:: G] x).
Proof. exact prune_I_threshold. Qed.
Print Assumptions C54_threshold.

(** C55 *)
Theorem C55_best_scoring : forall (F : realFieldType) (T : Type) (ts : list (F * T)),
  (ts = [::] /\ best_scoring ts = Err ValueError) \/ exists t, best_scoring ts = Ok t /\ first_least ts t.
Proof. exact best_scoring_spec. Qed.
Print Assumptions C55_best_scoring.

(** C55: the result of _fit.  A number of latents that occurs twice in nums_latent counts as its last occurrence. *)
Theorem C55_selection : forall (F : realFieldType) (p e : nat) (w : world F p e) (a : args F) data ig prune seed am J sc,
  (forall gs, ig = Some gs -> Forall (graph p) gs) ->
  (forall tr gs, ig = None -> fit_ges w tr = Ok gs -> Forall (graph p) gs) ->
  fit_all w a data ig prune None None seed = Ok (am, J, sc) ->
  exists training test_graph test_I graphs hs k v,
  [/\ split_data (w_shuffle w seed) [seq data k | k <- enum 'I_e] (a_folds a) = Ok [:: training; test_graph; test_I],
      (ig = Some graphs \/ ig = None /\ fit_ges w training = Ok graphs) /\ numbers w a training = Ok hs,
      [/\ last_at hs k (projT1 am), validation w a training test_graph prune graphs k (projT1 am) v (mA (projT2 am))
        & forall k' h, last_at hs k' h -> exists v' G, validation w a training test_graph prune graphs k' h v' G /\
            (v < v' \/ (v = v' /\ (projT1 am <= h)%N))],
      exists2 G, List.In G graphs & if prune then subgraph (mA (projT2 am)) G else mA (projT2 am) = G
    & [/\ fitted_for (train_conf w a training (projT1 am)) J (projT2 am), List.incl J (List.seq 0 p)
        & scored w test_I (projT2 am) sc]].
Proof. exact fit_all_spec. Qed.
Print Assumptions C55_selection.

(** C55: the comparisons never raise: _fit fails only if fitting a subgraph of an initial graph fails. *)
Theorem C55_no_comparison_error : forall (F : realFieldType) (p e : nat) (w : world F p e) (a : args F) data ig prune seed
  training test_graph test_I graphs hs,
  split_data (w_shuffle w seed) [seq data k | k <- enum 'I_e] (a_folds a) = Ok [:: training; test_graph; test_I] ->
  (ig = Some graphs \/ ig = None /\ fit_ges w training = Ok graphs) -> numbers w a training = Ok hs ->
  Forall (graph p) graphs -> graphs <> [::] -> hs <> [::] -> too_small training = false ->
  (forall h, List.In h hs -> prunable w a prune training h) ->
  (exists r, fit_all w a data ig prune None None seed = Ok r) \/
  (exists h n x, [/\ List.In h hs, fit_all w a data ig prune None None seed = Err x
                   & failed (train_conf w a training h) (w_rnds w n) graphs x]).
Proof. exact fit_all_total. Qed.
Print Assumptions C55_no_comparison_error.

(** C56 *)
Theorem C56_equivalence_class : forall (F : realFieldType) (p e : nat) (w : world F p e) (a : args F)
  candidates data prune seed icpdag J am, Forall (graph p) candidates ->
  equivalence_class w a candidates data prune seed = Ok (icpdag, J, am) ->
  [/\ exists2 G, List.In G candidates & if prune then subgraph (mA (projT2 am)) G else mA (projT2 am) = G,
      List.incl J (List.seq 0 p),
      exists training, fitted_for (train_conf w a training (projT1 am)) J (projT2 am)
    & (square p icpdag /\ binary icpdag) /\
      forall D, square p D -> (consistent_ext D icpdag <-> acyclic D /\ imarkov_equiv J (mA (projT2 am)) D)].
Proof. exact equivalence_class_spec. Qed.
Print Assumptions C56_equivalence_class.

(** C57: the result does not depend on random_state; it is that of _fit with the seed 42.  Missing: random_state should be
    that seed. *)
Theorem C57_random_state_partial : forall (F : realFieldType) (p e : nat) (w : world F p e) (a : args F)
  candidates data prune n icpdag J am, equivalence_class w a candidates data prune n = Ok (icpdag, J, am) ->
  (forall n', equivalence_class w a candidates data prune n' = Ok (icpdag, J, am)) /\
  exists sc, fit_all w a data (Some candidates) prune None None 42 = Ok (am, J, sc).
Proof. exact seed_42. Qed.
Print Assumptions C57_random_state_partial.

(** C57 is false of the code: whatever the seed (other than 42), this run does not return what _fit returns with that seed. *)
Theorem C57_random_state_refuted : forall (F : realFieldType) (log : F -> F) (pi : F) (h : hord) n, n != 42%N ->
  exists ic J am J' am' sc,
  [/\ equivalence_class (seed_world log pi h) (seed_args F) [:: no_edge2] (seed_data F) false n = Ok (ic, J, am),
      fit_all (seed_world log pi h) (seed_args F) (seed_data F) (Some [:: no_edge2]) false None None n = Ok (am', J', sc)
    & forall k j, momegas (projT2 am) k j <> momegas (projT2 am') k j].
Proof. exact seed_ignored. Qed.
Print Assumptions C57_random_state_refuted.

(** C69 *)
Theorem C69_scree_range : forall (F : realFieldType) (log : F -> F) (pi : F) (svds : list F),
  ((2 < size svds)%N -> exists h, scree_selection log pi svds = Ok h /\ (0 < h < size svds)%N) /\
  (size svds = 2%N -> scree_selection log pi svds = Err ZeroDivisionError) /\
  ((size svds <= 1)%N -> scree_selection log pi svds = Err ValueError).
Proof. exact scree_range. Qed.
Print Assumptions C69_scree_range.

(** C69: the split with the least pooled variance is selected, the first one on ties. *)
Theorem C69_scree_variance : forall (F : realFieldType) (log : F -> F) (pi : F) (svds : list F), increasing_log log ->
  (2 < size svds)%N -> (forall h, (0 < h < size svds)%N -> 0 < pooled svds h) ->
  exists h, [/\ scree_selection log pi svds = Ok h, (0 < h < size svds)%N,
     forall h', (0 < h' < size svds)%N -> pooled svds h <= pooled svds h'
   & forall h', (0 < h' < h)%N -> pooled svds h < pooled svds h'].
Proof. exact scree_pooled. Qed.
Print Assumptions C69_scree_variance.

(** C75: the score returned with a newly fitted model is the score of that model.  Missing: a model from the cache. *)
Theorem C75_score_partial : forall (F : realFieldType) (p l e : nat) (cf : conf F p l e) (A : mat), square p A -> nonneg A ->
  forall I init rnd m s, (forall m0, init = Some m0 -> square p (mA m0)) ->
  fit cf A I init rnd = Ok (m, s) -> mscore cf m = Ok s.
Proof. exact own_score. Qed.
Print Assumptions C75_score_partial.

(** C75 is false of the code: the second call returns a model with another score than the one returned with it. *)
Theorem C75_score_refuted : forall (F : realFieldType) (log : F -> F) (h : hord), let cf := conf2 log h in
  exists c m s m' s', [/\ proper c, (do_call cf (fresh F 2 0 2 true) c).2 = Ok (m, s),
    (do_call cf (run cf (fresh F 2 0 2 true) [:: c]) c).2 = Ok (m', s),
    mscore cf m = Ok s /\ mscore cf m' = Ok s' & s <> s'].
Proof. exact cached_score. Qed.
Print Assumptions C75_score_refuted.

(** C76 *)
Theorem C76_ges_class : forall (F : realFieldType) (p e : nat) (w : world F p e) (a : args F) data seed icpdag J am,
  ges_pdag w -> equivalence_class_w_ges w a data seed = Ok (icpdag, J, am) ->
  exists training test_graph test_I G,
  [/\ split_data (w_shuffle w 42) [seq data k | k <- enum 'I_e] (a_folds a) = Ok [:: training; test_graph; test_I],
      dag01 p G /\ consistent_ext G (w_ges w (flatten training) (w_log w (size (flatten training))%:R)),
      subgraph (mA (projT2 am)) G /\ List.incl J (List.seq 0 p),
      fitted_for (train_conf w a training (projT1 am)) J (projT2 am)
    & (square p icpdag /\ binary icpdag) /\
      forall D, square p D -> (consistent_ext D icpdag <-> acyclic D /\ imarkov_equiv J (mA (projT2 am)) D)].
Proof. exact ges_class_spec. Qed.
Print Assumptions C76_ges_class.

(** C77 *)
Theorem C77_candidates_acyclic : forall (F : realFieldType) (p e : nat) (w : world F p e) (a : args F) candidates data prune seed r,
  Forall (graph p) candidates -> equivalence_class w a candidates data prune seed = Ok r ->
  candidates <> [::] /\ Forall acyclic candidates.
Proof. exact class_acyclic. Qed.
Print Assumptions C77_candidates_acyclic.

Theorem C77_first_cyclic : forall (F : realFieldType) (p e : nat) (w : world F p e) (a : args F) G candidates data prune seed
  training test_graph test_I h hs, graph p G -> ~ acyclic G ->
  split_data (w_shuffle w 42) [seq data k | k <- enum 'I_e] (a_folds a) = Ok [:: training; test_graph; test_I] ->
  numbers w a training = Ok (h :: hs) ->
  equivalence_class w a (G :: candidates) data prune seed = Err ValueError.
Proof. exact class_cyclic. Qed.
Print Assumptions C77_first_cyclic.

Theorem C77_no_candidates : forall (F : realFieldType) (p e : nat) (w : world F p e) (a : args F) data prune seed
  training test_graph test_I h hs,
  split_data (w_shuffle w 42) [seq data k | k <- enum 'I_e] (a_folds a) = Ok [:: training; test_graph; test_I] ->
  numbers w a training = Ok (h :: hs) -> too_small training = false ->
  equivalence_class w a [::] data prune seed = Err IndexError.
Proof. exact class_none. Qed.
Print Assumptions C77_no_candidates.

(** C78: the number selected maximises the profile log likelihood, when no pooled variance is 0.  Missing: the values
    compared are not these log likelihoods. *)
Theorem C78_profile_partial : forall (F : realFieldType) (log : F -> F) (pi : F)
  (svds : list F),
  (2 < size svds)%N -> (forall h, (0 < h < size svds)%N -> 0 < pooled svds h) ->
  exists h, [/\ scree_selection log pi svds = Ok h, (0 < h < size svds)%N,
     forall h', (0 < h' < size svds)%N -> profile log pi svds h' <= profile log pi svds h
   & forall h', (0 < h' < h)%N -> profile log pi svds h' < profile log pi svds h].
Proof. exact scree_profile. Qed.
Print Assumptions C78_profile_partial.

(** C78 is false of the code: _gaussian_log_likelihood is right for one observation, or when the constants vanish. *)
Theorem C78_likelihood_refuted : forall (F : realFieldType) (log : F -> F) (pi : F) (xs : list F) m v,
  gaussian_ll log pi xs m v = log_likelihood log pi xs m v <-> (size xs = 1)%N \/ log (2%:R * pi) + log v = 0.
Proof. exact gaussian_ll_wrong. Qed.
Print Assumptions C78_likelihood_refuted.

(** C79 *)
Theorem C79_no_exception : forall (F : realFieldType) (p e : nat) (w : world F p e) (a : args F) data candidates prune seed
  training test_graph test_I hs,
  split_data (w_shuffle w 42) [seq data k | k <- enum 'I_e] (a_folds a) = Ok [:: training; test_graph; test_I] ->
  numbers w a training = Ok hs -> hs <> [::] -> (forall h, List.In h hs -> (h <= p)%N /\ prunable w a prune training h) ->
  candidates <> [::] -> Forall (graph p) candidates -> Forall acyclic candidates ->
  (0 < p)%N -> (0 < e)%N ->
  (forall k, posdef (covs w training k) /\ (1 < n_obs training k)%N) ->
  (forall u, a_psi_max a = Some u -> 1 < u) -> (0 < a_max_iter a)%N -> (0 < a_max_fluctuations a)%N ->
  (a_solver a = Grad -> forall h n k, nontrivial (w_rnds w h n k).1) ->
  (exists r, equivalence_class w a candidates data prune seed = Ok r) \/
  (exists x, equivalence_class w a candidates data prune seed = Err x /\
     (x = OutOfFuel \/ a_solver a = Cvx /\ (x = TypeError \/ x = AssertionError))).
Proof. exact class_total. Qed.
Print Assumptions C79_no_exception.
