(** Examples for C123. *)
From Coq Require Import List Arith ZArith Lia.
Import ListNotations.
From Verif Require Import Base GraphModel GraphSpec WeightSpec PropWeight.

(** 0 -> 1 <- 2, 1 -> 3, 2 - 4 with weights *)
Definition wt_P : mat := [[0;3;0;0;0]; [0;0;0;7;0]; [0;2;0;0;5]; [0;0;0;0;0]; [0;0;4;0;0]]%Z.
Definition wt_Q : mat := [[0;1;0;0;0]; [0;0;0;1;0]; [0;1;0;0;1]; [0;0;0;0;0]; [0;0;1;0;0]]%Z.

Ltac cells := intros i j; do 5 (destruct i as [|i]; [do 5 (destruct j as [|j]; [cbn; lia|]); destruct j; cbn; lia|]); destruct i, j; cbn; lia.

Example wt_same : same_edges 5 wt_P wt_Q.
Proof.
  split; [split; [reflexivity|repeat constructor]|]. split; [split; [reflexivity|repeat constructor]|].
  split; [cells|]. split; [cells|]. unfold edge. cells.
Qed.

Example wt_cpdag : pdag_to_cpdag ho_id wt_P = pdag_to_cpdag ho_id wt_Q /\ exists C, pdag_to_cpdag ho_id wt_P = Ok C.
Proof. split; [apply (C123_classes 5 _ _ wt_same ho_id [])|]. eexists. vm_compute. reflexivity. Qed.

Example wt_all_dags : all_dags ho_id wt_P = Err AssertionError /\ exists l, all_dags ho_id wt_Q = Ok l /\ length l = 2.
Proof.
  split; [apply (C123_all_dags_refuted ho_id 5 wt_P 2 4)|eexists; split; vm_compute; reflexivity].
  - apply wt_same.
  - apply wt_same.
  - intros i. do 5 (destruct i as [|i]; [cbn; unfold edge; cbn; lia|]). destruct i; unfold edge; cbn; lia.
  - unfold und, edge. cbn. lia.
  - cbn. lia.
Qed.

Example wt_super : is_supergraph wt_P wt_P = false.
Proof. apply (C123_is_supergraph_refuted 5 wt_P wt_P 0 1); [apply wt_same|unfold edge; cbn; lia|cbn; lia]. Qed.
