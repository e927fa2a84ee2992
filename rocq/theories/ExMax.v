(** Instances of C27 and C86-C88. *)
From Coq Require Import List Arith ZArith.
Import ListNotations.
From Verif Require Import Base GraphModel GraphSpec BasicProofs Basic2Proofs CompelledProofs EnumProofs MeekProofs ExGraph2 PropMax.

(** 0 -> 1, 1 - 2, 1 - 3, 2 - 3: rule 1 orients 1 -> 2 and 1 -> 3; 2 - 3 remains. *)
Definition mix4 : mat := [[0; 1; 0; 0]; [0; 0; 1; 1]; [0; 1; 0; 1]; [0; 1; 1; 0]]%Z.
Definition mix4_max : mat := [[0; 1; 0; 0]; [0; 0; 1; 1]; [0; 0; 0; 1]; [0; 0; 1; 0]]%Z.
Lemma mix4_pre : square 4 mix4 /\ binary mix4 /\ loopless mix4.
Proof.
  split; [apply squareb_ok; reflexivity|]. split; [apply binaryb_ok; reflexivity|].
  apply (looplessb_ok 4); [apply squareb_ok|]; reflexivity.
Qed.

Example C27_ex : maximally_orient ho_id mix4 = Ok mix4_max /\
  (exists D, dag01 4 D /\ consistent_ext D mix4 /\ edge D 2 3) /\
  (exists D, dag01 4 D /\ consistent_ext D mix4 /\ edge D 3 2).
Proof.
  destruct mix4_pre as (S4 & B4 & L4). assert (E : maximally_orient ho_id mix4 = Ok mix4_max) by (vm_compute; reflexivity).
  split; [exact E|].
  apply (C27_maximally_orient_maximal ho_id 4 mix4 mix4_max 2 3 S4 B4 L4 E). split; vm_compute; discriminate.
Qed.

Example C86_ex : dag01 5 dia5 /\ exists M, dag_to_icpdag ho_id dia5 [1] = Ok M /\ und M 0 2 /\
  exists D, dag01 5 D /\ imarkov_equiv [1] dia5 D /\ edge D 2 0.
Proof.
  split; [apply dia5_dag|]. pose proof dia5_dag as (SD & BD & AD).
  destruct (C86_dag_to_icpdag_union ho_id 5 dia5 [1] SD (binary_nonneg BD) AD) as (M & E & _ & _ & H).
  exists M. split; [exact E|].
  assert (U : und M 0 2).
  { vm_compute in E. inversion E; subst M. split; vm_compute; discriminate. }
  split; [exact U|]. apply H, U.
Qed.

(** The two members of the class have the same I-CPDAG; with target 2 they are distinguished. *)
Definition dia5' : mat := [[0; 1; 0; 0; 0]; [0; 0; 0; 1; 0]; [1; 0; 0; 1; 0]; [0; 0; 0; 0; 1]; [0; 0; 0; 0; 0]]%Z.
Example C87_ex : dag_to_icpdag ho_id dia5 [1] = dag_to_icpdag ho_rev dia5' [1; 1] /\
  dag_to_icpdag ho_id dia5 [2] <> dag_to_icpdag ho_id dia5' [2].
Proof. split; [vm_compute; reflexivity | vm_compute; discriminate]. Qed.

Example C88_ex : maximally_orient ho_rev mix4 = maximally_orient ho_id mix4 /\
  maximally_orient ho_id mix4_max = Ok mix4_max /\ mix4 <> mix4_max.
Proof. split; [vm_compute; reflexivity|]. split; [vm_compute; reflexivity | discriminate]. Qed.
