(** Properties C111 and C112: the options of _fit. *)
From Coq Require Import ZArith List.
From mathcomp Require Import all_ssreflect all_algebra.
From Verif Require Import Base GraphModel GraphSpec ListModel NumModel ScoreModel CacheSpec ScoreSpec MainModel MainSpec FullModel FullSpec FullProofs.
Local Open Scope ring_scope.

(** C111.  store_history changes the history and nothing else. *)
Theorem C111_store : forall (F : realFieldType) (p e : nat) (w : world F p e) (a : args F) ges data ig prune tg ti o seed store store' r hi,
  fit_full w a ges data ig prune tg ti o seed store = Ok (r, hi) ->
  exists hi', fit_full w a ges data ig prune tg ti o seed store' = Ok (r, hi').
Proof. exact @full_store. Qed.
Print Assumptions C111_store.

Theorem C111_store_error : forall (F : realFieldType) (p e : nat) (w : world F p e) (a : args F) ges data ig prune tg ti o seed store store' x,
  fit_full w a ges data ig prune tg ti o seed store = Err x -> fit_full w a ges data ig prune tg ti o seed store' = Err x.
Proof. exact @full_store_err. Qed.
Print Assumptions C111_store_error.

(** C111.  There is a history iff store_history is not 0 (a negative value stores one too); it has the pruned graphs and
    targets iff store_history > 1 and the Score object iff store_history > 2.  The result is the first entry of least score
    of pruned_Is, its graph that of the first entry of least score of pruned_graphs, and each score is that of a model fitted
    for the entry, whose parameters the stored Score object has. *)
Theorem C111_history : forall (F : realFieldType) (p e : nat) (w : world F p e) (a : args F) ges data ig prune o seed store am J sc hi,
  (forall training gs, initial w ges training ig o = Ok gs -> Forall (graph p) gs) ->
  fit_full w a ges data ig prune None None o seed store = Ok (am, J, sc, hi) -> (hi = None <-> store = Z0) /\
  forall H, hi = Some H -> exists training test_graph test_I (m : model F p (hi_num H) e),
  [/\ am = existT (fun l => model F p l e) (hi_num H) m,
      split_data (w_shuffle w seed) [seq data k | k <- enum 'I_e] (a_folds a) = Ok [:: training; test_graph; test_I] /\
        initial w ges training ig o = Ok (hi_initial H),
      (hi_pruned H <> None <-> Z.lt (Zpos xH) store) /\ (hi_cache H <> None <-> Z.lt (Zpos (xO xH)) store),
      forall gs Is, hi_pruned H = Some (gs, Is) ->
        [/\ exists v, first_least gs (v, mA m),
            forall x G, List.In (x, G) gs -> exists m' : model F p (hi_num H) e,
              [/\ mA m' = G, fitted_for (train_conf w a training (hi_num H)) (List.seq 0 p) m', scored w test_graph m' x
                & exists2 G0, List.In G0 (hi_initial H) & if prune then subgraph G G0 else G = G0],
            first_least Is (sc, (m, J))
          & forall x m' J', List.In (x, (m', J')) Is ->
              [/\ mA m' = mA m, fitted_for (train_conf w a training (hi_num H)) J' m' & scored w test_I m' x]]
    & forall s, hi_cache H = Some s -> reached (train_conf w a training (hi_num H)) s.1 /\
        forall gs Is, hi_pruned H = Some (gs, Is) ->
          (forall x G, List.In (x, G) gs -> exists m' : model F p (hi_num H) e,
             [/\ mA m' = G, scored w test_graph m' x & recorded (train_conf w a training (hi_num H)) s.1 (List.seq 0 p) m']) /\
          (forall x m' J', List.In (x, (m', J')) Is -> recorded (train_conf w a training (hi_num H)) s.1 J' m')].
Proof. exact @full_history. Qed.
Print Assumptions C111_history.

(** C112.  The initial graphs are the DAGs of the classes GES finds in the pooled data with the given penalisations (2 by
    default) and phases (all by default). *)
Theorem C112_pooled : forall (F : realFieldType) (p e : nat) (w : world F p e) ges training o,
  ges_pdags ges -> training <> [::] -> g_env o = None -> exists gs, initial w ges training None o = Ok gs /\
  forall D, List.In D gs <-> ges_dag ges (w_log w) (flatten training)
    (if g_phases o is Some ps then ps else [:: Forward; Backward; Turning]) (if g_lambdas o is Some ls then ls else [:: 2%:R]) D.
Proof. exact @initial_pooled. Qed.
Print Assumptions C112_pooled.

(** C112.  With ges_env = k, of the classes GES finds in sample k; negative k count from the end. *)
Theorem C112_env : forall (F : realFieldType) (p e : nat) (w : world F p e) ges training o k X,
  ges_pdags ges -> g_env o = Some k -> element training k X -> exists gs, initial w ges training None o = Ok gs /\
  forall D, List.In D gs <-> ges_dag ges (w_log w) X
    (if g_phases o is Some ps then ps else [:: Forward; Backward; Turning]) (if g_lambdas o is Some ls then ls else [:: 2%:R]) D.
Proof. exact @initial_env. Qed.
Print Assumptions C112_env.

Theorem C112_no_env : forall (F : realFieldType) (p e : nat) (w : world F p e) ges training o k,
  g_env o = Some k -> (forall X, ~ element training k X) -> initial w ges training None o = Err IndexError.
Proof. exact @initial_no_env. Qed.
Print Assumptions C112_no_env.

(** C112.  Without penalisations _fit raises IndexError. *)
Theorem C112_no_lambdas : forall (F : realFieldType) (p e : nat) (w : world F p e) (a : args F) ges data prune tg ti o seed store
  training test_graph test_I h hs,
  split_data (w_shuffle w seed) [seq data k | k <- enum 'I_e] (a_folds a) = Ok [:: training; test_graph; test_I] ->
  training <> [::] -> too_small training = false -> g_env o = None -> g_lambdas o = Some [::] -> a_nums_latent a = Some (h :: hs) ->
  fit_full w a ges data None prune tg ti o seed store = Err IndexError.
Proof. exact @no_lambdas. Qed.
Print Assumptions C112_no_lambdas.

(** C112.  Without options _fit is the procedure of equivalence_class and equivalence_class_w_ges (C55, C56, C76). *)
Theorem C112_default : forall (F : realFieldType) (p e : nat) (w : world F p e) (a : args F) ges data ig prune tg ti seed store, (0 < e)%N ->
  (forall X lambda, w_ges w X lambda = ges X [:: Forward; Backward; Turning] lambda) ->
  fit_all w a data ig prune tg ti seed = bind (fit_full w a ges data ig prune tg ti (no_opts F) seed store) (fun r => Ok r.1).
Proof. exact @full_default. Qed.
Print Assumptions C112_default.
