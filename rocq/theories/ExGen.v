(** Examples for PropGen.v, over the rationals. *)
From Coq Require Import ZArith.
From mathcomp Require Import all_ssreflect all_algebra.
From Verif Require Import Base GraphModel GraphSpec TopoProofs NumModel NumSpec NumProofs GenModel GenSpec GenProofs Gen2Proofs Gen3Proofs
  GenRunProofs IncoProofs PropGen.
Set Implicit Arguments.
Unset Strict Implicit.
Unset Printing Implicit Defensive.
Import Order.Theory GRing.Theory Num.Theory.
Local Open Scope nat_scope.
Local Open Scope ring_scope.

Definition Q : realFieldType := [realFieldType of rat].
Definition gen : generator Q := toy Q.
Lemma gen_fair : fair gen. Proof. exact: toy_fair. Qed.
Definition seed7 : Z := Z.of_nat 7.

(** 0 -> 2 <- 1 *)
Definition vee : mat := [:: [:: Z0; Z0; Zpos xH]; [:: Z0; Z0; Zpos xH]; [:: Z0; Z0; Z0]].
Lemma vee_square : square 3 vee. Proof. by split=> //; repeat constructor. Qed.
Lemma vee_binary : binary vee.
Proof. by move=> [|[|[|[|i]]]] [|[|[|[|j]]]]; (by left) || (by right). Qed.
Lemma vee_nonneg : nonneg vee. Proof. exact: binary_nonneg vee_binary. Qed.
Lemma vee_acyclic : acyclic vee.
Proof.
have [d [E H]] := is_dag_spec ho_id 3 vee vee_square vee_nonneg.
by apply/H; move: E; vm_compute; case.
Qed.

Definition tgts : seq nat := [:: 2%N; 0%N].
Lemma tgts_nodup : List.NoDup tgts. Proof. by repeat constructor => /=; intuition. Qed.
Lemma tgts_nodes j : List.In j tgts -> (j < 3)%N. Proof. by move=> /= [<-|[<-|[]]]. Qed.

(** C64, C65, C82, C83: a model with 3 variables, 2 latents and 4 environments exists *)
Notation run sparse obs := (sample_parameters ho_rev gen 3 2 4 vee tgts (one_two Q) sparse obs seed7 true).
Lemma run_ok sparse obs : exists m, run sparse obs = Ok m /\ [/\ mA m = vee, supported vee (mB m),
  mI_B m = 1%:M - (mB m)^T & forall j : 'I_3, ~ List.In (nat_of_ord j) tgts -> const_col (momegas m) j].
Proof.
have [//|[_ H]|[H _]] := @C64_sample_parameters Q ho_rev gen 3 2 4 vee tgts (one_two Q) sparse obs seed7 true
  vee_square vee_nonneg tgts_nodup; first exact: H.
by case: H; split; [exact: vee_acyclic | exact: tgts_nodes].
Qed.

Example C64_ex : exists m, run false true = Ok m /\ mA m = vee /\ mB m 0 1 = 0 /\ const_col (momegas m) 1.
Proof.
have [m [E [H1 H2 _ H4]]] := run_ok false true; exists m; split=> //; split=> //; split.
  by apply/eqP; apply: contraT => /H2; case.
by apply: H4 => /= -[|[|[]]].
Qed.
(** a cycle is refused, a target that is not a node too *)
Example C64_ex_targets : sample_parameters ho_rev gen 3 2 4 vee [:: 3%N] (one_two Q) false true seed7 false = Err ValueError.
Proof.
have N : List.NoDup [:: 3%N] by repeat constructor => /=; intuition.
have [//|[[_ H] _]|[_ //]] := @C64_sample_parameters Q ho_rev gen 3 2 4 vee [:: 3%N] (one_two Q) false true seed7 false
  vee_square vee_nonneg N.
by have := H 3%N (or_introl erefl).
Qed.
Definition loop2 : mat := [:: [:: Z0; Zpos xH]; [:: Zpos xH; Z0]].
Example C64_ex_cycle : sample_parameters ho_rev gen 2 2 4 loop2 [::] (one_two Q) false true seed7 false = Err ValueError.
Proof.
have S : square 2 loop2 by split=> //; repeat constructor.
have N : nonneg loop2 by move=> [|[|[|i]]] [|[|[|j]]].
have [//|[[H _] _]|[_ //]] := @C64_sample_parameters Q ho_rev gen 2 2 4 loop2 [::] (one_two Q) false true seed7 false
  S N (List.NoDup_nil _).
by case: (H 0%N); apply: (Relation_Operators.t_trans _ _ _ 1%N); apply: Relation_Operators.t_step.
Qed.
Example C64_ex_verbose : sample_parameters ho_rev gen 3 2 0 vee tgts (one_two Q) false true seed7 true = Err IndexError.
Proof. by apply: C64_verbose_no_environments; [|exact: vee_square|exact: vee_nonneg|exact: vee_acyclic|exact: tgts_nodes]. Qed.
Example C64_ex_weights : exists m, run true true = Ok m /\ within 1 2 (mB m ord0 ord_max).
Proof.
have [m [E _]] := run_ok true true; exists m; split=> //.
have H : edge vee (@ord0 2) (@ord_max 2) by [].
exact (C64_edge_weights vee_square vee_nonneg gen_fair (one_two_ordered Q) E vee_binary H).
Qed.
Example C65_ex : exists m, run false true = Ok m /\ exists rank,
  (forall (i : 'I_4) (j : 'I_3), (0 < i)%N -> nat_of_ord j \in tgts ->
     within (1 + 1 *+ rank j) (2 + 2 *+ rank j) (momegas m i j)) /\
  forall j, within (1 + 1 *+ 3) (2 + 2 *+ 3) (mpsis m 1 j).
Proof.
have [m [E _]] := run_ok false true; exists m; split=> //.
have [[rank [_ [_ R]]] P] := C65_ranges_partial vee_square vee_nonneg gen_fair (one_two_ordered Q) E tgts_nodup isT isT.
by exists rank; split=> [i j i0 jI|j]; [case: (R i j) => _; apply | exact: (P 1 j)].
Qed.
Example C65_ex_no_obs : exists m, run false false = Ok m /\ forall i j, within 1 2 (momegas m i j).
Proof.
have [m [E _]] := run_ok false false; exists m; split=> //.
by have [] := C65_no_obs_partial vee_square vee_nonneg gen_fair (one_two_ordered Q) E (or_introl erefl).
Qed.
Example C65_ex_documented : exists m : model Q 3 2 2,
  sample_parameters ho_id gen 3 2 2 vee [:: 1%N] (one_two Q) false true seed7 false = Ok m /\
  documented_vars (one_two Q) true [:: 1%N] (momegas m) /\ documented_psis (one_two Q) true (mpsis m).
Proof.
have N : List.NoDup [:: 1%N] by repeat constructor => /=; intuition.
have [//|[_ [m [E _]]]|[H _]] := @C64_sample_parameters Q ho_id gen 3 2 2 vee [:: 1%N] (one_two Q) false true seed7 false
  vee_square vee_nonneg N; last by case: H; split; [exact: vee_acyclic | move=> j /= [<-|[]]].
exists m; split=> //; split.
  exact: (C65_one_target_partial vee_square vee_nonneg gen_fair (one_two_ordered Q) E N isT isT).
exact: (C65_two_environments_partial vee_square vee_nonneg gen_fair (one_two_ordered Q) E isT isT).
Qed.
Example C82_ex : exists m, run false true = Ok m /\ positive (momegas m).
Proof.
have [m [E _]] := run_ok false true; exists m; split=> //.
by have [] := C82_positive_definite vee_square vee_nonneg gen_fair (one_two_ordered Q) E isT isT isT isT tgts_nodup.
Qed.
(** round(3/5) = 1: one variable per latent *)
Example C83_ex : exists m, run true true = Ok m /\ forall i : 'I_2, exists k, forall j : 'I_3, mgamma m i j <> 0 -> j = k :> nat.
Proof.
have [m [E _]] := run_ok true true; exists m; split=> // i.
have [s [H1 [H2 H3]]] := C83_sparse i vee_square vee_nonneg gen_fair isT E.
by move: H1 H2 H3; case: s => [|k [|? ?]] //=; [|by rewrite !mulnS] => _ _ H3; exists k => j /H3; rewrite inE => /eqP.
Qed.

(** C66 *)
Example C66_ex : intervention_targets gen 5 (NInt (Z.of_nat 3)) seed7 = Ok [:: 2%N; 1%N; 0%N]. Proof. by vm_compute. Qed.
Example C66_ex_many : intervention_targets gen 5 (NInt (Z.of_nat 6)) seed7 = Err ValueError. Proof. by vm_compute. Qed.
Example C66_ex_numpy : intervention_targets gen 5 (NNumpy (Zneg xH)) seed7 = Err ValueError. Proof. by vm_compute. Qed.
Example C66_ex_pair : intervention_targets gen 5 (NTuple [:: Z.of_nat 2; Z.of_nat 5]) seed7 = Ok [:: 1%N; 0%N].
Proof. by vm_compute. Qed.
Example C66_ex_equal : intervention_targets gen 5 (NTuple [:: Z.of_nat 2; Z.of_nat 2]) seed7 = Err ValueError.
Proof. by vm_compute. Qed.

(** C67, C84: the draws of seed 0 give the complete graph, in reverse order *)
Example C67_ex : exists W, dag_avg_deg (g := gen) seed7 3 2%:R 1 2%:R true (Some Z0) = Ok (W, Some [:: 2%N; 1%N; 0%N]) /\
  W 2%N 0%N = 1 /\ W 0%N 2%N = 0.
Proof. by eexists; split; first by []; split; apply/eqP; vm_compute. Qed.
Example C84_ex : exists W o, dag_avg_deg (g := gen) seed7 3 2%:R 1 2%:R true None = Ok (W, o) /\
  (W 0%N 1%N <> 0 \/ W 1%N 0%N <> 0).
Proof.
have [//|W [o [E H]]] := C84_complete (g := gen) seed7 (k := 2%:R) true None gen_fair (isT : (1 < 3)%N) _ (isT : (0 < 1 :> Q)) (isT : 1 <= 2%:R :> Q).
by exists W, o; split=> //; apply: H.
Qed.
Example C84_ex_empty : exists W o, dag_avg_deg (g := gen) seed7 3 (- 1) 1 2%:R true None = Ok (W, o) /\ W 1%N 0%N = 0.
Proof.
have [W [o [E H]]] := C84_empty (g := gen) seed7 1 2%:R true None gen_fair (isT : (1 < 3)%N) (isT : -1 < 0 :> Q).
by exists W, o; split=> //; apply: H.
Qed.

(** C80, C81 *)
Example C80_ex : exists m, chain_graph_model ho_rev gen 4 1 3 tgts (one_two Q) true false seed7 true = Ok m /\ mA m = chain_graph 4.
Proof.
have [_ [[_ H]|[H _]]] := @C80_chain_partial Q ho_rev gen 4 1 3 tgts (one_two Q) true false seed7 true tgts_nodup; first exact: H.
by case: H => j /tgts_nodes /ltnW.
Qed.
Example C81_ex : exists m, random_graph_model (g := gen) ho_rev Z0 4 1 3 2%:R tgts (one_two Q) true false (Some seed7) true = Ok m /\
  binary (mA m) /\ acyclic (mA m).
Proof.
have [//|//|W [_ [_ [[_ [m [E [_ H]]]]|[H _]]]]] := @C81_graph_partial Q ho_rev gen 4 1 3 Z0 2%:R tgts (one_two Q) true false (Some seed7) true gen_fair _ tgts_nodup.
  exact (ex_intro _ m (conj E H)).
by case: H => j /tgts_nodes /ltnW.
Qed.

Lemma vee_edges i j : edge vee i j -> (i < 2)%N /\ j = 2%N.
Proof. by rewrite /edge; move: i j => [|[|[|[|i]]]] [|[|[|[|j]]]] // H; case: H. Qed.

(** C85: in the moral graph of 0 -> 2 <- 1 every degree is 2 *)
Definition first_columns (X : 'M[Q]_(3, 2)) : 'M[Q]_(3, minn 3 2) := pid_mx 2.
Lemma first_columns_orthonormal X : (first_columns X)^T *m first_columns X = 1%:M.
Proof. by rewrite /first_columns tr_pid_mx mul_pid_mx; exact: pid_mx_1. Qed.
Example C85_ex : exists m x, run false true = Ok m /\ scaled_latent_incoherence ho_rev first_columns m = Ok x /\
  within (4%:R / 3%:R) 2%:R x.
Proof.
have [m [E [EA _ _ _]]] := run_ok false true.
have [//|//|||d [x [Ex [[v [Hv Hd]] [Hm W]]]]] := C85_incoherence ho_rev first_columns_orthonormal (m := m);
  [by rewrite EA; exact: vee_square | by rewrite EA; exact: vee_nonneg |].
exists m, x; split=> //; split=> //; suff E2 : d = 2%N by move: W; rewrite E2 -natrM.
have L2 : moral_degree vee 2 2.
  exists [:: 0%N; 1%N]; split; first by repeat constructor => /=; intuition.
  split=> // i; split; first by move=> /= [<-|[<-|[]]]; left; left.
  by case=> [[/vee_edges [H _]|/vee_edges [//]]|[c [[/vee_edges [_ ->] _] [[/vee_edges [//]]]]]];
    move: i H => [|[|i]] //= _; auto.
apply/anti_leq; rewrite (Hm 2%N 2%N) ?EA // andbT; move: Hd; rewrite EA => -[t [Nt [Ht <-]]].
have It : List.incl t [seq w <- [:: 0%N; 1%N; 2%N] | w != v].
  move=> i /Ht Hi; apply/In_mem; rewrite mem_filter.
  case: Hi => [[/vee_edges [H1 ->]|/vee_edges [H1 ->]]|[c [[/vee_edges [H1 _] _] [_ [/eqP -> _]]]]].
  - by move: i H1 => [|[|i]].
  - by rewrite !inE eqxx !orbT andbT; move: v H1 {Hv Hm Ht} => [|[|v]].
  - by move: i H1 => [|[|i]].
have /ssrnat.leP := List.NoDup_incl_length Nt It.
by move: v Hv {Hm Ht It} => [|[|[|v]]].
Qed.
