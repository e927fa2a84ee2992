(** Examples for C122. *)
From Coq Require Import ZArith List.
From mathcomp Require Import all_ssreflect all_algebra.
From Verif Require Import Base GraphModel GraphSpec NdModel CovModel ShapeModel ShapeSpec PropShape.
Import GRing.Theory.
Local Open Scope ring_scope.

(** Two environments with two and three observations of two variables *)
Definition sh_a : seq (seq 'rV[rat]_2) :=
  [:: [:: \row_j (val j)%:R; \row_j 2%:R]; [:: \row_j 1; \row_j (val j)%:R; \row_j (3 * val j)%:R]].

Example shape_ex : exists covs, init_covariances [seq Some (sample_array X) | X <- sh_a] true = Ok covs /\
  nshape covs = [:: 2; 2; 2]%N /\ score_dag_start ho_id covs [:: [:: Z0; Zpos xH]; [:: Z0; Z0]] = Ok (2, 2, 2)%N.
Proof.
have [] := @C122_shape _ 2 sh_a => // [X|E _]; first by rewrite !inE => /orP [] /eqP ->.
by exists (stacked [seq np_cov X | X <- sh_a]); split; [exact: E | split].
Qed.

(** One observed variable *)
Definition sh_b : seq (seq 'rV[rat]_1) := [:: [:: const_mx 0; const_mx 1]; [:: const_mx 2%:R; const_mx 0; const_mx 5%:R]].

Example one_ex : exists covs, init_covariances [seq Some (sample_array X) | X <- sh_b] true = Ok covs /\
  nshape covs = [:: 2%N] /\ score_dag_start ho_id covs [:: [:: Z0]] = Err ValueError.
Proof.
have [X|covs [E _ S D]] := @C122_one_variable_refuted _ sh_b; first by rewrite !inE => /orP [] /eqP ->.
exists covs; split=> //; split=> //; apply: (D ho_id 1%N); first by split=> //; constructor.
by move=> [|[|i]] [|[|j]].
Qed.

(** A cycle of two variables *)
Example cyclic_ex : forall covs : nd [realFieldType of rat],
  score_dag_start ho_id covs [:: [:: Z0; Zpos xH]; [:: Zpos xH; Z0]] = Err ValueError.
Proof. by []. Qed.
