(** Concrete instances for PropIdent.v: graphs over three variables, also over the real numbers with their logarithm. *)
From Coq Require Import ZArith List Reals.
From mathcomp Require Import all_ssreflect all_algebra.
From Verif Require Import Base GraphModel GraphSpec NumModel NumSpec GradSpec OptSpec RealProofs Basic2Proofs CompelledProofs IdentSpec PropIdent.
Import Order.Theory GRing.Theory Num.Theory.
Local Open Scope ring_scope.

(** 0 -> 1 -> 2, 0 <- 1 -> 2 and 0 -> 1 <- 2 *)
Definition ch3 : mat := cons (cons Z0 (cons (Zpos xH) (cons Z0 nil))) (cons (cons Z0 (cons Z0 (cons (Zpos xH) nil))) (cons (cons Z0 (cons Z0 (cons Z0 nil))) nil)).
Definition fork3 : mat := cons (cons Z0 (cons Z0 (cons Z0 nil))) (cons (cons (Zpos xH) (cons Z0 (cons (Zpos xH) nil))) (cons (cons Z0 (cons Z0 (cons Z0 nil))) nil)).
Definition coll3 : mat := cons (cons Z0 (cons (Zpos xH) (cons Z0 nil))) (cons (cons Z0 (cons Z0 (cons Z0 nil))) (cons (cons Z0 (cons (Zpos xH) (cons Z0 nil))) nil)).
Lemma ch3_dag : dag01 3 ch3. Proof. by apply: dag01b_ok. Qed.
Lemma fork3_dag : dag01 3 fork3. Proof. by apply: dag01b_ok. Qed.
Lemma coll3_dag : dag01 3 coll3. Proof. by apply: dag01b_ok. Qed.

Lemma ic1 : dag_to_icpdag ho_id ch3 (cons 2%N nil) = dag_to_icpdag ho_id fork3 (cons 2%N nil).
Proof. vm_compute; reflexivity. Qed.
Lemma ic2 : dag_to_icpdag ho_id ch3 (cons 0%N nil) <> dag_to_icpdag ho_id fork3 (cons 0%N nil).
Proof. vm_compute; discriminate. Qed.
Lemma ic3 : dag_to_icpdag ho_id ch3 nil <> dag_to_icpdag ho_id coll3 nil.
Proof. vm_compute; discriminate. Qed.
Lemma ic5 : dag_to_cpdag ho_id ch3 = dag_to_cpdag ho_id fork3.
Proof. vm_compute; reflexivity. Qed.
Lemma ic6 : dag_to_cpdag ho_id ch3 <> dag_to_cpdag ho_id coll3.
Proof. vm_compute; discriminate. Qed.

Section Ex.
Variables (F : realFieldType) (h : hord).

(** An intervention on 2 does not tell the chain from the fork, one on 0 does; the collider differs from both. *)
Example C116_icpdag_ex : forall e, (1 < e)%N ->
  [/\ forall S : 'I_e -> 'M[F]_3, entails h 0 (cons 2%N nil) ch3 S <-> entails h 0 (cons 2%N nil) fork3 S,
      ~ (forall S : 'I_e -> 'M[F]_3, entails h 0 (cons 0%N nil) ch3 S <-> entails h 0 (cons 0%N nil) fork3 S) &
      ~ (forall S : 'I_e -> 'M[F]_3, entails h 0 nil ch3 S <-> entails h 0 nil coll3 S)].
Proof.
move=> e e1; have [S1 [B1 A1]] := ch3_dag; have [S2 [B2 A2]] := fork3_dag; have [S3 [B3 A3]] := coll3_dag.
have N1 := binary_nonneg B1; have N2 := binary_nonneg B2; have N3 := binary_nonneg B3; split.
- exact (proj2 (C116_icpdag F h 3 e (cons 2%N nil) ch3 fork3 S1 N1 A1 S2 N2 A2 ho_id ho_id e1) ic1).
- move=> H; exact (ic2 (proj1 (C116_icpdag F h 3 e (cons 0%N nil) ch3 fork3 S1 N1 A1 S2 N2 A2 ho_id ho_id e1) H)).
- move=> H; exact (ic3 (proj1 (C116_icpdag F h 3 e nil ch3 coll3 S1 N1 A1 S3 N3 A3 ho_id ho_id e1) H)).
Qed.

Example C116_equivalent_ex : imarkov_equiv (cons 2%N nil) ch3 fork3 /\ ~ imarkov_equiv (cons 0%N nil) ch3 fork3.
Proof.
have [S1 [B1 A1]] := ch3_dag; have [S2 [B2 A2]] := fork3_dag; have N1 := binary_nonneg B1; have N2 := binary_nonneg B2.
have [H1 H2 _] := C116_icpdag_ex 2 isT; split.
- exact (proj1 (C116_equivalent F h 3 2 (cons 2%N nil) ch3 fork3 S1 N1 A1 S2 N2 A2 isT) H1).
- move=> H; exact (H2 (proj2 (C116_equivalent F h 3 2 (cons 0%N nil) ch3 fork3 S1 N1 A1 S2 N2 A2 isT) H)).
Qed.

(** With one environment the interventions do not matter. *)
Example C116_one_environment_ex (S : 'I_1 -> 'M[F]_3) : entails h 0 (cons 0%N nil) ch3 S <-> entails h 0 (cons 0%N nil) fork3 S.
Proof.
have [S1 [B1 A1]] := ch3_dag; have [S2 [B2 A2]] := fork3_dag; have N1 := binary_nonneg B1; have N2 := binary_nonneg B2.
move: S; apply (C116_one_environment F h 3 (cons 0%N nil) ch3 fork3 S1 N1 A1 S2 N2 A2).
exact: C116_equivalent_ex.1.1.
Qed.
End Ex.

(** One latent variable with two environments: the chain has the models of the fork, not those of the collider. *)
Example C116_latents_ex (F : realFieldType) (h : hord) :
  (forall S : 'I_2 -> 'M[F]_3, entails h 1 nil ch3 S <-> entails h 1 nil fork3 S) /\
  ~ (forall S : 'I_2 -> 'M[F]_3, entails h 1 nil ch3 S <-> entails h 1 nil coll3 S).
Proof.
have [S1 [B1 A1]] := ch3_dag; have [S2 [B2 A2]] := fork3_dag; have [S3 [B3 A3]] := coll3_dag.
have N1 := binary_nonneg B1; have N2 := binary_nonneg B2; have N3 := binary_nonneg B3; split.
- exact (proj2 (C116_latents F h 3 1 2 ch3 fork3 S1 N1 A1 S2 N2 A2 isT isT ho_id ho_id) ic5).
- move=> H; exact (ic6 (proj1 (C116_latents F h 3 1 2 ch3 coll3 S1 N1 A1 S3 N3 A3 isT isT ho_id ho_id) H)).
Qed.

(** The chain and the collider are told apart by the scores on some data; the chain and the fork are not. *)
Example C116_scores_ex (h : hord) :
  ~ (forall (sigmas : 'I_2 -> 'M[R_realFieldType]_3) (n_obs : 'I_2 -> nat), (forall i, posdef (sigmas i)) -> (forall i, (0 < n_obs i)%N) ->
       forall x, reaches h 1 nil (ln : R_realFieldType -> R_realFieldType) sigmas n_obs ch3 x <-> reaches h 1 nil ln sigmas n_obs coll3 x) /\
  (forall (sigmas : 'I_2 -> 'M[R_realFieldType]_3) (n_obs : 'I_2 -> nat), (forall i, posdef (sigmas i)) -> (forall i, (0 < n_obs i)%N) ->
       forall x, reaches h 1 nil (ln : R_realFieldType -> R_realFieldType) sigmas n_obs ch3 x <-> reaches h 1 nil ln sigmas n_obs fork3 x).
Proof.
have [S1 [B1 A1]] := ch3_dag; have [S2 [B2 A2]] := fork3_dag; have [S3 [B3 A3]] := coll3_dag.
have N1 := binary_nonneg B1; have N2 := binary_nonneg B2; have N3 := binary_nonneg B3.
have [L1 L2] := C116_latents_ex [realFieldType of R_realFieldType] h; split.
- move=> H; exact (L2 (proj1 (C116_scores _ h 3 2 nil ch3 coll3 S1 N1 S3 N3 1 ln ln_log_like) H)).
- exact (proj2 (C116_scores _ h 3 2 nil ch3 fork3 S1 N1 S2 N2 1 ln ln_log_like) L1).
Qed.
