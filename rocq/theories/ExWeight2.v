(** Concrete instances for the theorems of PropWeight2.v. *)
From Coq Require Import List Arith ZArith Lia.
Import ListNotations.
From Verif Require Import Base GraphModel GraphSpec WeightSpec RenameSpec PropWeight2.
Local Open Scope Z_scope.

(** 0 -> 1 with weight 5, 1 - 2 with the weights 2 and 7, 2 - 3 with the weights 3 and 3 *)
Definition w4 : mat := [[0; 5; 0; 0]; [0; 0; 2; 0]; [0; 7; 0; 3]; [0; 0; 3; 0]].
Example w4_square : square 4 w4. Proof. split; auto. repeat constructor. Qed.
Example w4_nonneg : nonneg w4.
Proof. intros i j. do 4 (destruct i as [|i]; [do 4 (destruct j as [|j]; [vm_compute; discriminate|]); destruct j; vm_compute; discriminate|]). destruct i; destruct j; vm_compute; discriminate. Qed.
Example w4_loopless : loopless w4.
Proof. intros i. do 4 (destruct i as [|i]; [intros H; now apply H|]). intros H; apply H. destruct i; reflexivity. Qed.

(** The extension keeps 5; the oriented edges get weight 1. *)
Example w4_dag : pdag_to_dag ho_id w4 = Ok [[0; 5; 0; 0]; [0; 0; 1; 0]; [0; 0; 0; 1]; [0; 0; 0; 0]].
Proof. vm_compute. reflexivity. Qed.
Example w4_dag_ext : consistent_ext [[0; 5; 0; 0]; [0; 0; 1; 0]; [0; 0; 0; 1]; [0; 0; 0; 0]] w4.
Proof. exact (proj1 (proj2 (C14_weights ho_id 4 w4 _ w4_square w4_loopless w4_dag))). Qed.
(** maximally_orient keeps the weights of the edges. *)
Example w4_max : maximally_orient ho_id w4 = Ok [[0; 5; 0; 0]; [0; 0; 2; 0]; [0; 0; 0; 3]; [0; 0; 0; 0]].
Proof. vm_compute. reflexivity. Qed.
Example w4_max2 : maximally_orient ho_rev [[0; 5; 0; 0]; [0; 0; 2; 0]; [0; 0; 0; 3]; [0; 0; 0; 0]] = Ok [[0; 5; 0; 0]; [0; 0; 2; 0]; [0; 0; 0; 3]; [0; 0; 0; 0]].
Proof. exact (C88_weights_idempotent ho_id ho_rev 4 w4 _ w4_square w4_loopless w4_max). Qed.
(** Also with a negative weight *)
Example w4_signed : maximally_orient ho_id [[0; -5; 0]; [0; 0; 2]; [0; 7; 0]] = Ok [[0; -5; 0]; [0; 0; 2]; [0; 0; 0]].
Proof. vm_compute. reflexivity. Qed.

(** The names 0, 1, 2, 3 become 3, 2, 1, 0. *)
Definition flip (i : nat) : nat := if (i <? 4)%nat then (3 - i)%nat else i.
Example flip_renaming : renaming 4 flip flip.
Proof. repeat split; intros; unfold flip in *; repeat match goal with |- context [(?a <? ?b)%nat] => destruct (Nat.ltb_spec a b) | H : context [(?a <? ?b)%nat] |- _ => destruct (Nat.ltb_spec a b) end; lia. Qed.
(** 2 - 1 - 3 with the isolated target 0: the extensions of the graph and of the renamed one differ, the results do not. *)
Definition w4b : mat := [[0; 0; 0; 0]; [0; 0; 4; 2]; [0; 6; 0; 0]; [0; 1; 0; 0]].
Example w4b_icpdag : pdag_to_icpdag ho_id w4b [0%nat] = Ok [[0; 0; 0; 0]; [0; 0; 1; 1]; [0; 1; 0; 0]; [0; 1; 0; 0]] /\
  pdag_to_icpdag ho_id (rename 4 flip w4b) [3%nat] = Ok (rename 4 flip [[0; 0; 0; 0]; [0; 0; 1; 1]; [0; 1; 0; 0]; [0; 1; 0; 0]]) /\
  pdag_to_dag ho_id (rename 4 flip w4b) <> match pdag_to_dag ho_id w4b with Ok G => Ok (rename 4 flip G) | Err e => Err e end.
Proof. vm_compute. split; [reflexivity|]. split; [reflexivity|discriminate]. Qed.
Example w4b_renamed : forall h h' : hord, renamed 4 flip (pdag_to_icpdag h w4 [0%nat]) (pdag_to_icpdag h' (rename 4 flip w4) (map flip [0%nat])).
Proof. intros. exact (C101_pdag_to_icpdag 4 flip flip flip_renaming h h' w4 [0%nat] w4_square w4_nonneg w4_loopless). Qed.
