(** Property C116: the I-CPDAG is what data can tell about a DAG. *)
From Coq Require Import ZArith List.
From mathcomp Require Import all_ssreflect all_algebra.
From Verif Require Import Base GraphModel GraphSpec NumModel NumSpec GradSpec OptSpec IdentSpec IdentProofs Ident2Proofs.
Import Order.Theory GRing.Theory Num.Theory.
Local Open Scope ring_scope.

(** C116: without latent variables and with at least two environments, the models of two DAGs, invariant outside of I, entail the same covariances exactly if
    dag_to_icpdag returns the same graph for both ... *)
Theorem C116_icpdag : forall (F : realFieldType) (h : hord) (p e : nat) (I : list nat) (G D : mat),
  square p G -> nonneg G -> acyclic G -> square p D -> nonneg D -> acyclic D -> forall h1 h2 : hord, (1 < e)%N ->
  (forall S : 'I_e -> 'M[F]_p, entails h 0 I G S <-> entails h 0 I D S) <-> dag_to_icpdag h1 G I = dag_to_icpdag h2 D I.
Proof. exact entails_icpdag. Qed.
Print Assumptions C116_icpdag.

(** ... that is, if the DAGs are I-Markov equivalent, and with one environment if they are Markov equivalent. *)
Theorem C116_equivalent : forall (F : realFieldType) (h : hord) (p e : nat) (I : list nat) (G D : mat),
  square p G -> nonneg G -> acyclic G -> square p D -> nonneg D -> acyclic D -> (1 < e)%N ->
  (forall S : 'I_e -> 'M[F]_p, entails h 0 I G S <-> entails h 0 I D S) <-> imarkov_equiv I G D.
Proof. exact entails_iff. Qed.
Print Assumptions C116_equivalent.

Theorem C116_one_environment : forall (F : realFieldType) (h : hord) (p : nat) (I : list nat) (G D : mat),
  square p G -> nonneg G -> acyclic G -> square p D -> nonneg D -> acyclic D ->
  (forall S : 'I_1 -> 'M[F]_p, entails h 0 I G S <-> entails h 0 I D S) <-> markov_equiv G D.
Proof. exact entails_one. Qed.
Print Assumptions C116_one_environment.

(** With latent variables, all of which may be perturbed, and no other interventions: the same holds for the CPDAG ... *)
Theorem C116_latents : forall (F : realFieldType) (h : hord) (p l e : nat) (G D : mat),
  square p G -> nonneg G -> acyclic G -> square p D -> nonneg D -> acyclic D -> (1 < e)%N -> (l.+1 < p)%N -> forall h1 h2 : hord,
  (forall S : 'I_e -> 'M[F]_p, entails h l nil G S <-> entails h l nil D S) <-> dag_to_cpdag h1 G = dag_to_cpdag h2 D.
Proof. exact entails_latent. Qed.
Print Assumptions C116_latents.

(** ... but not with one environment: 0 -> 1 and the empty graph, and one latent variable. *)
Theorem C116_one_environment_latents_refuted : forall (F : realFieldType) (h : hord), exists G D : mat,
  [/\ dag01 2 G, dag01 2 D, (forall S : 'I_1 -> 'M[F]_2, entails h 1 nil G S <-> entails h 1 nil D S) & ~ markov_equiv G D].
Proof. exact one_latent_refuted. Qed.
Print Assumptions C116_one_environment_latents_refuted.

(** In all these cases, the models entail the same covariances exactly if they reach the same scores on all data. *)
Theorem C116_scores : forall (F : realFieldType) (h : hord) (p e : nat) (I : list nat) (G D : mat),
  square p G -> nonneg G -> square p D -> nonneg D -> forall (l : nat) (log : F -> F), log_like log ->
  (forall (sigmas : 'I_e -> 'M[F]_p) (n_obs : 'I_e -> nat), (forall i, posdef (sigmas i)) -> (forall i, (0 < n_obs i)%N) ->
     forall x, reaches h l I log sigmas n_obs G x <-> reaches h l I log sigmas n_obs D x) <->
  (forall S : 'I_e -> 'M[F]_p, entails h l I G S <-> entails h l I D S).
Proof. exact reaches_log. Qed.
Print Assumptions C116_scores.
