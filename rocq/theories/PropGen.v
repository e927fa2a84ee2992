(** Properties of generators.py and of scaled_latent_incoherence. *)
From Coq Require Import ZArith.
From mathcomp Require Import all_ssreflect all_algebra.
From Verif Require Import Base GraphModel GraphSpec NumModel NumSpec GenModel GenSpec GenProofs Gen2Proofs Gen3Proofs
  GenRunProofs IncoProofs.
Set Implicit Arguments.
Unset Strict Implicit.
Unset Printing Implicit Defensive.
Import Order.Theory GRing.Theory Num.Theory.
Local Open Scope nat_scope.
Local Open Scope ring_scope.

(** C64: the numbers of variables, latents and environments are in the type of the model. *)
Theorem C64_sample_parameters : forall (F : realFieldType) (h : hord) (g : generator F) (p l e : nat) A I (b : bounds F)
    (sparse obs : bool) rs (verbose : bool),
  square p A -> nonneg A -> List.NoDup I -> (verbose -> (0 < e)%N /\ (0 < p)%N) ->
  let valid := acyclic A /\ forall j, List.In j I -> (j < p)%N in
  let out := sample_parameters h g p l e A I b sparse obs rs verbose in
  (valid /\ exists m, out = Ok m /\ [/\ mA m = A, supported A (mB m), mI_B m = 1%:M - (mB m)^T &
     forall j : 'I_p, ~ List.In (nat_of_ord j) I -> const_col (momegas m) j]) \/
  (~ valid /\ out = Err ValueError).
Proof. exact sample_parameters_spec. Qed.
Print Assumptions C64_sample_parameters.

Theorem C64_verbose_no_environments : forall (F : realFieldType) (h : hord) (g : generator F) (p l e : nat) A I (b : bounds F)
    (sparse obs : bool) rs,
  e = 0%N -> square p A -> nonneg A -> acyclic A -> (forall j, List.In j I -> (j < p)%N) ->
  sample_parameters h g p l e A I b sparse obs rs true = Err IndexError.
Proof. exact sample_parameters_verbose. Qed.
Print Assumptions C64_verbose_no_environments.

Theorem C64_edge_weights : forall (F : realFieldType) (h : hord) (g : generator F) (p l e : nat) A I (b : bounds F)
    (sparse obs : bool) rs (verbose : bool) (m : model F p l e),
  square p A -> nonneg A -> fair g -> ordered b ->
  sample_parameters h g p l e A I b sparse obs rs verbose = Ok m ->
  forall i j : 'I_p, binary A -> edge A i j -> within (B_lo b) (B_hi b) (mB m i j).
Proof. exact edge_weight_range. Qed.
Print Assumptions C64_edge_weights.

(** C65 is false: with two targets the variance of one of them gets two interventions. *)
Theorem C65_variances_refuted : forall (F : realFieldType) (h : hord) (g : generator F) (sparse verbose : bool) rs, fair g ->
  exists m : model F 2 1 2,
    sample_parameters h g 2 1 2 empty2 [:: 0%N; 1%N] (ones F) sparse true rs verbose = Ok m /\
    exists j : 'I_2, nat_of_ord j \in [:: 0%N; 1%N] /\ momegas m ord_max j = 3%:R /\
      var_hi (ones F) + int_var_hi (ones F) < momegas m ord_max j.
Proof. exact vars_exceeded. Qed.
Print Assumptions C65_variances_refuted.

(** With three environments the latent variances of the second one get two interventions. *)
Theorem C65_psis_refuted : forall (F : realFieldType) (h : hord) (g : generator F) (sparse verbose : bool) rs, fair g ->
  exists m : model F 2 1 3,
    sample_parameters h g 2 1 3 empty2 [::] (ones F) sparse true rs verbose = Ok m /\
    mpsis m (@Ordinal 3 1 isT) ord0 = 3%:R /\ psi_hi (ones F) + int_psi_hi (ones F) < mpsis m (@Ordinal 3 1 isT) ord0.
Proof. exact psis_exceeded. Qed.
Print Assumptions C65_psis_refuted.

(** With obs=False the documentation promises the interval of the intervened environments. *)
Theorem C65_no_obs_refuted : forall (F : realFieldType) (h : hord) (g : generator F) (sparse verbose : bool) rs, fair g ->
  exists m : model F 2 1 2,
    sample_parameters h g 2 1 2 empty2 [:: 0%N] (ones F) sparse false rs verbose = Ok m /\
    momegas m ord0 ord0 < var_lo (ones F) + int_var_lo (ones F) /\ mpsis m ord0 ord0 < psi_lo (ones F) + int_psi_lo (ones F).
Proof. exact no_obs_low. Qed.
Print Assumptions C65_no_obs_refuted.

(** The ranges that the code respects: the targets get 1, 2, ..., |I| interventions in some order, the latents of
    environment i get e-i. *)
Theorem C65_ranges_partial : forall (F : realFieldType) (h : hord) (g : generator F) (p l e : nat) A I (b : bounds F)
    (sparse obs : bool) rs (verbose : bool) (m : model F p l e),
  square p A -> nonneg A -> fair g -> ordered b ->
  sample_parameters h g p l e A I b sparse obs rs verbose = Ok m ->
  List.NoDup I -> obs -> (1 < e)%N ->
  (exists rank : nat -> nat,
    (forall j, List.In j I -> (0 < rank j <= size I)%N) /\
    (forall j k, List.In j I -> List.In k I -> rank j = rank k -> j = k) /\
    forall (i : 'I_e) (j : 'I_p),
      ((i == 0%N :> nat) || (nat_of_ord j \notin I) -> within (var_lo b) (var_hi b) (momegas m i j)) /\
      ((0 < i)%N -> nat_of_ord j \in I ->
        within (var_lo b + int_var_lo b *+ rank j) (var_hi b + int_var_hi b *+ rank j) (momegas m i j))) /\
  forall (i : 'I_e) (j : 'I_l),
    if i == 0%N :> nat then within (psi_lo b) (psi_hi b) (mpsis m i j)
    else within (psi_lo b + int_psi_lo b *+ (e - i)) (psi_hi b + int_psi_hi b *+ (e - i)) (mpsis m i j).
Proof. exact ranges_obs. Qed.
Print Assumptions C65_ranges_partial.

Theorem C65_no_obs_partial : forall (F : realFieldType) (h : hord) (g : generator F) (p l e : nat) A I (b : bounds F)
    (sparse obs : bool) rs (verbose : bool) (m : model F p l e),
  square p A -> nonneg A -> fair g -> ordered b ->
  sample_parameters h g p l e A I b sparse obs rs verbose = Ok m ->
  obs = false \/ (e <= 1)%N ->
  (forall i j, within (var_lo b) (var_hi b) (momegas m i j)) /\
  (forall i j, within (psi_lo b) (psi_hi b) (mpsis m i j)).
Proof. exact ranges_other. Qed.
Print Assumptions C65_no_obs_partial.

(** The documented ranges hold with at most one target *)
Theorem C65_one_target_partial : forall (F : realFieldType) (h : hord) (g : generator F) (p l e : nat) A I (b : bounds F)
    (sparse obs : bool) rs (verbose : bool) (m : model F p l e),
  square p A -> nonneg A -> fair g -> ordered b ->
  sample_parameters h g p l e A I b sparse obs rs verbose = Ok m ->
  List.NoDup I -> obs -> (size I <= 1)%N -> documented_vars b obs I (momegas m).
Proof. exact documented_one. Qed.
Print Assumptions C65_one_target_partial.

(** and with at most two environments. *)
Theorem C65_two_environments_partial : forall (F : realFieldType) (h : hord) (g : generator F) (p l e : nat) A I (b : bounds F)
    (sparse obs : bool) rs (verbose : bool) (m : model F p l e),
  square p A -> nonneg A -> fair g -> ordered b ->
  sample_parameters h g p l e A I b sparse obs rs verbose = Ok m ->
  obs -> (e <= 2)%N -> documented_psis b obs (mpsis m).
Proof. exact documented_two. Qed.
Print Assumptions C65_two_environments_partial.

(** C66: a number *)
Theorem C66_number : forall (F : realFieldType) (g : generator F) (p : nat) rs, fair g -> forall (n : num_arg) k,
  n = NInt k \/ n = NNumpy k ->
  (Z.le Z0 k /\ Z.le k (Z.of_nat p) /\ exists s, intervention_targets g p n rs = Ok s /\ targets_of p (Z.to_nat k) s) \/
  ((Z.lt k Z0 \/ Z.lt (Z.of_nat p) k) /\ intervention_targets g p n rs = Err ValueError).
Proof. exact targets_int. Qed.
Print Assumptions C66_number.

(** A pair: the documented upper end of the range is excluded. *)
Theorem C66_pair_partial : forall (F : realFieldType) (g : generator F) (p : nat) rs, fair g -> forall lo hi,
  let out := intervention_targets g p (NTuple [:: lo; hi]) rs in
  ((Z.lt (Z.of_nat p) lo \/ Z.lt (Z.of_nat p) hi \/ Z.le hi lo) -> out = Err ValueError) /\
  (Z.le Z0 lo -> Z.lt lo hi -> Z.le hi (Z.of_nat p) -> exists s, out = Ok s /\ targets_of p (length s) s /\
     Z.le lo (Z.of_nat (length s)) /\ Z.lt (Z.of_nat (length s)) hi).
Proof. exact targets_pair. Qed.
Print Assumptions C66_pair_partial.

Theorem C66_pair_refuted : forall (F : realFieldType) (g : generator F) (p : nat) rs, fair g -> forall lo hi s,
  intervention_targets g p (NTuple [:: lo; hi]) rs = Ok s -> Z.lt (Z.of_nat (length s)) hi.
Proof. exact targets_below. Qed.
Print Assumptions C66_pair_refuted.

Theorem C66_tuple : forall (F : realFieldType) (g : generator F) (p : nat) rs zs,
  length zs <> 2%N -> intervention_targets g p (NTuple zs) rs = Err ValueError.
Proof. exact targets_tuple. Qed.
Print Assumptions C66_tuple.

(** C67 *)
Theorem C67_dag : forall (F : realFieldType) (g : generator F) (st0 : gst g) (p : nat) (k w_min w_max : F) (ro : bool) rs,
  fair g -> p <> 1%N -> exists W ord,
  dag_avg_deg st0 p k w_min w_max ro rs = Ok (W, if ro then Some ord else None) /\
  (forall A, graph_of p W A -> acyclic A /\ topo_order p A ord) /\
  (w_min <= w_max -> forall i j, (i < p)%N -> (j < p)%N -> W i j <> 0 -> within w_min w_max (W i j)).
Proof. exact dag_spec. Qed.
Print Assumptions C67_dag.

Theorem C67_one_node : forall (F : realFieldType) (g : generator F) (st0 : gst g) (p : nat) (k w_min w_max : F) (ro : bool) rs,
  p = 1%N -> dag_avg_deg st0 p k w_min w_max ro rs = Err ZeroDivisionError.
Proof. exact dag_one. Qed.
Print Assumptions C67_one_node.

(** C80 is false: random_state and obs are not passed on. *)
Theorem C80_random_state_refuted : forall (F : realFieldType) (h : hord), fair (toy F) /\ exists rs m m',
  [/\ chain_graph_model h (toy F) 2 1 2 [:: 0%N] (one_two F) false true rs false = Ok m,
      sample_parameters h (toy F) 2 1 2 (chain_graph 2) [:: 0%N] (one_two F) false true rs false = Ok m' &
      momegas m ord0 ord0 <> momegas m' ord0 ord0].
Proof. exact (fun F h => conj (toy_fair F) (chain_seed_lost F h)). Qed.
Print Assumptions C80_random_state_refuted.

Theorem C80_obs_refuted : forall (F : realFieldType) (h : hord) (g : generator F), fair g -> exists m m',
  [/\ chain_graph_model h g 2 0 2 [:: 0%N] (ones F) false false (Z.of_nat 42) false = Ok m,
      sample_parameters h g 2 0 2 (chain_graph 2) [:: 0%N] (ones F) false false (Z.of_nat 42) false = Ok m' &
      momegas m ord_max ord0 <> momegas m' ord_max ord0].
Proof. exact chain_obs_lost. Qed.
Print Assumptions C80_obs_refuted.

Theorem C80_chain_partial : forall (F : realFieldType) (h : hord) (g : generator F) (p l e : nat) I (b : bounds F) sparse obs rs
    verbose, List.NoDup I ->
  let out := chain_graph_model h g p l e I b sparse obs rs verbose in
  out = sample_parameters h g p l e (chain_graph p) I b sparse true (Z.of_nat 42) false /\
  (((forall j, List.In j I -> (j < p)%N) /\ exists m, out = Ok m /\ mA m = chain_graph p) \/
   (~ (forall j, List.In j I -> (j < p)%N) /\ out = Err ValueError)).
Proof. exact chain_model_spec. Qed.
Print Assumptions C80_chain_partial.

(** C81 is false: ZeroDivisionError for one variable, and random_state is not used for the parameters. *)
Theorem C81_one_node_refuted : forall (F : realFieldType) (h : hord) (g : generator F) (p l e : nat) (st0 : gst g) (k : F) I
    (b : bounds F) sparse obs rs verbose, p = 1%N ->
  random_graph_model h st0 p l e k I b sparse obs rs verbose = Err ZeroDivisionError.
Proof. exact random_model_one. Qed.
Print Assumptions C81_one_node_refuted.

Theorem C81_random_state_refuted : forall (F : realFieldType) (h : hord), fair (toy F) /\ exists rs W m m',
  [/\ dag_avg_deg (g := toy F) Z0 2 0 1 1 false (Some rs) = Ok (W, None),
      random_graph_model (g := toy F) h Z0 2 1 2 0 [:: 0%N] (one_two F) false true (Some rs) false = Ok m,
      sample_parameters h (toy F) 2 1 2 (mA m) [:: 0%N] (one_two F) false true rs false = Ok m' &
      momegas m ord0 ord0 <> momegas m' ord0 ord0].
Proof. exact (fun F h => conj (toy_fair F) (random_seed_lost F h)). Qed.
Print Assumptions C81_random_state_refuted.

Theorem C81_parameters_partial : forall (F : realFieldType) (h : hord) (g : generator F) (p l e : nat) (st0 : gst g) (k : F) I
    (b : bounds F) sparse obs rs rs' verbose,
  dag_avg_deg st0 p k 1 1 false rs = dag_avg_deg st0 p k 1 1 false rs' ->
  random_graph_model h st0 p l e k I b sparse obs rs verbose =
  random_graph_model h st0 p l e k I b sparse obs rs' verbose.
Proof. exact random_model_seed. Qed.
Print Assumptions C81_parameters_partial.

Theorem C81_graph_partial : forall (F : realFieldType) (h : hord) (g : generator F) (p l e : nat) (st0 : gst g) (k : F) I
    (b : bounds F) sparse obs rs (verbose : bool), fair g -> p <> 1%N -> List.NoDup I ->
  (verbose -> (0 < e)%N /\ (0 < p)%N) ->
  exists W, dag_avg_deg st0 p k 1 1 false rs = Ok (W, None) /\
  (forall i j, (i < p)%N -> (j < p)%N -> W i j = 0 \/ W i j = 1) /\
  let out := random_graph_model h st0 p l e k I b sparse obs rs verbose in
  (((forall j, List.In j I -> (j < p)%N) /\ exists m, out = Ok m /\ graph_of p W (mA m) /\ binary (mA m) /\ acyclic (mA m)) \/
   (~ (forall j, List.In j I -> (j < p)%N) /\ out = Err ValueError)).
Proof. exact random_model_spec. Qed.
Print Assumptions C81_graph_partial.

(** C82 *)
Theorem C82_positive_definite : forall (F : realFieldType) (h : hord) (g : generator F) (p l e : nat) A I (b : bounds F)
    (sparse obs : bool) rs (verbose : bool) (m : model F p l e),
  square p A -> nonneg A -> fair g -> ordered b ->
  sample_parameters h g p l e A I b sparse obs rs verbose = Ok m ->
  0 < var_lo b -> 0 <= int_var_lo b -> 0 <= psi_lo b -> 0 <= int_psi_lo b -> List.NoDup I ->
  positive (momegas m) /\ (forall i j, 0 <= mpsis m i j) /\
  exists Sigma, covariances m = Ok Sigma /\ forall i, posdef (Sigma i).
Proof. exact generated_posdef. Qed.
Print Assumptions C82_positive_definite.

(** C83: 5 n is within 2 of p for one n only, round(p/5). *)
Theorem C83_sparse : forall (F : realFieldType) (h : hord) (g : generator F) p l e A I (b : bounds F) obs rs verbose
    (m : model F p l e) (i : 'I_l),
  square p A -> nonneg A -> fair g -> (0 < p)%N ->
  sample_parameters h g p l e A I b true obs rs verbose = Ok m ->
  exists s : seq nat, (5 * size s <= p + 2)%N /\ (p <= 5 * size s + 2)%N /\
    forall j : 'I_p, mgamma m i j <> 0 -> nat_of_ord j \in s.
Proof. exact sparse_spec. Qed.
Print Assumptions C83_sparse.

(** C84 *)
Theorem C84_complete : forall (F : realFieldType) (g : generator F) (st0 : gst g) (p : nat) (k w_min w_max : F) (ro : bool) rs,
  fair g -> (1 < p)%N -> p%:R - 1 <= k -> 0 < w_min -> w_min <= w_max -> exists W o,
  dag_avg_deg st0 p k w_min w_max ro rs = Ok (W, o) /\
  forall i j, (i < p)%N -> (j < p)%N -> i <> j -> W i j <> 0 \/ W j i <> 0.
Proof. exact dag_complete. Qed.
Print Assumptions C84_complete.

Theorem C84_empty : forall (F : realFieldType) (g : generator F) (st0 : gst g) (p : nat) (k w_min w_max : F) (ro : bool) rs,
  fair g -> (1 < p)%N -> k < 0 -> exists W o,
  dag_avg_deg st0 p k w_min w_max ro rs = Ok (W, o) /\ forall i j, (i < p)%N -> (j < p)%N -> W i j = 0.
Proof. exact dag_empty. Qed.
Print Assumptions C84_empty.

(** C85: the factors returned by the decomposition have orthonormal columns. *)
Theorem C85_incoherence : forall (F : realFieldType) (h : hord) (p l e : nat) (svd : 'M[F]_(p, l) -> 'M[F]_(p, minn p l)),
  (forall X, (svd X)^T *m svd X = 1%:M) -> forall m : model F p l e,
  (0 < p)%N -> (0 < e)%N -> square p (mA m) -> nonneg (mA m) ->
  exists (d : nat) x, scaled_latent_incoherence h svd m = Ok x /\
  (exists v, (v < p)%N /\ moral_degree (mA m) v d) /\
  (forall v n, (v < p)%N -> moral_degree (mA m) v n -> (n <= d)%N) /\
  within (d%:R * (minn p l)%:R / p%:R) d%:R x.
Proof. exact incoherence_bounds. Qed.
Print Assumptions C85_incoherence.
