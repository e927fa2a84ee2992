(** Concrete non-trivial instances of the hypotheses of PropGraph3.v, with the values the model computes. *)
From Coq Require Import List Arith ZArith Lia Bool Permutation.
Import ListNotations.
From Verif Require Import Base GraphModel GraphSpec TopoProofs BasicProofs Basic2Proofs EdgeProofs ExGraph1.

Example C09_ex : square 4 pd4 /\ loopless pd4 /\
  semi_directed_paths ho_id 100 0 3 pd4 = Ok [[0; 1; 3]; [0; 2; 3]] /\
  semi_directed_paths ho_rev 100 1 2 pd4 = Ok [[1; 0; 2]] /\
  semi_directed_paths ho_id 100 3 0 pd4 = Ok [].
Proof.
  split; [apply pd4_sq|]. split; [apply pd4_loopless|]. split; [|split]; vm_compute; reflexivity.
Qed.
Example C10_ex : square 4 pd4 /\ loopless pd4 /\
  separates ho_id 200 [1; 2] [0] [3] pd4 = Ok true /\
  separates ho_id 200 [1] [0] [3] pd4 = Ok false /\
  separates ho_id 200 [] [3] [0; 1] pd4 = Ok true /\
  separates ho_id 200 [1] [0] [1; 3] pd4 = Err ValueError.
Proof.
  split; [apply pd4_sq|]. split; [apply pd4_loopless|]. split; [|split; [|split]]; vm_compute; reflexivity.
Qed.
Example C11_ex : square 4 pd4 /\ chain_component ho_rev 1 pd4 = Ok [1; 0; 2] /\ chain_component ho_id 3 pd4 = Ok [3].
Proof. split; [apply pd4_sq|]. split; vm_compute; reflexivity. Qed.
Lemma firstn_chooses : chooses (fun l k => firstn k l).
Proof.
  intros l k Hk ND. split; [|split].
  - rewrite <- (firstn_skipn k l) in ND. clear Hk. revert ND. generalize (firstn k l), (skipn k l). intros a b.
    induction a as [|x a IH]; simpl; intros ND; [constructor|]. inversion ND; subst. constructor; auto.
    intros Hx. apply H1, in_app_iff. auto.
  - intros x Hx. rewrite <- (firstn_skipn k l). apply in_app_iff. auto.
  - apply firstn_length_le, Hk.
Qed.
Example C32_ex : chooses (fun l k => firstn k l) /\ square 4 pd4 /\ dir_count pd4 2 /\
  remove_edges (fun l k => firstn k l) pd4 1 = Ok [[0; 1; 1; 0]; [1; 0; 0; 0]; [1; 0; 0; 1]; [0; 0; 0; 0]]%Z /\
  remove_edges (fun l k => firstn k l) pd4 3 = Err ValueError.
Proof.
  split; [apply firstn_chooses|]. split; [apply pd4_sq|]. split; [|split; vm_compute; reflexivity].
  exists (directed_edges pd4). split; [apply directed_edges_NoDup|]. split; [|reflexivity].
  intros i j. apply (directed_edges_In 4), pd4_sq.
Qed.
Example C33_ex : (forall l : list (nat * nat), Permutation (rev l) l) /\ square 4 diamond /\ acyclic diamond /\
  edge_count diamond 4 /\
  add_edges ho_id (@rev _) diamond 2 = Ok [[0; 1; 1; 1]; [0; 0; 0; 1]; [0; 1; 0; 1]; [0; 0; 0; 0]]%Z /\
  add_edges ho_id (@rev _) diamond 3 = Err ValueError.
Proof.
  split; [intros l; apply Permutation_sym, Permutation_rev|]. split; [apply diamond_sq|]. split; [apply diamond_dag|].
  split; [exact (edge_count_exists 4 diamond diamond_sq)|]. split; vm_compute; reflexivity.
Qed.
Example C70_ex : is_stable_set [1] 3 [0] diamond = Err NameError.
Proof. reflexivity. Qed.
