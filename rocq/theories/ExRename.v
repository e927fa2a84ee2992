(** Instances of C101. *)
From Coq Require Import List Arith ZArith Lia Permutation.
Import ListNotations.
From Verif Require Import Base GraphModel GraphSpec RenameSpec BasicProofs Basic2Proofs EnumProofs ExGraph1 ExGraph2 PropRename.

(** 0 -> 3, 3 -> 1, 1 -> 4, 4 -> 0; 2 stays. *)
Definition f5 (i : nat) : nat := match i with 0 => 3 | 3 => 1 | 1 => 4 | 4 => 0 | _ => i end.
Definition g5 (i : nat) : nat := match i with 3 => 0 | 1 => 3 | 4 => 1 | 0 => 4 | _ => i end.
Lemma f5_renaming : renaming 5 f5 g5.
Proof. repeat split; do 5 (destruct i as [|i]; [simpl; auto; lia|]); simpl; auto; lia. Qed.

Lemma renamed_Ok p g r r' M : renamed p g r r' -> r = Ok M -> r' = Ok (rename p g M).
Proof. intros H ->. exact H. Qed.
Lemma renamed_all_Ok p g r r' l : renamed_all p g r r' -> r = Ok l ->
  exists l', r' = Ok l' /\ Permutation l' (map (rename p g) l).
Proof. intros H ->. exact H. Qed.

Example C101_ex : rename 5 g5 dia5 <> dia5 /\
  (exists C, dag_to_icpdag ho_id dia5 [1] = Ok C /\ dag_to_icpdag ho_rev (rename 5 g5 dia5) [4] = Ok (rename 5 g5 C)) /\
  exists l l', mec ho_id dia5 true = Ok l /\ mec ho_rev (rename 5 g5 dia5) true = Ok l' /\ length l = 3 /\
    Permutation l' (map (rename 5 g5) l).
Proof.
  split; [vm_compute; discriminate|]. split.
  - pose proof (C101_dag_to_icpdag 5 f5 g5 f5_renaming ho_id ho_rev dia5 [1] (proj1 dia5_dag) dia5_nonneg) as H.
    assert (E : exists C, dag_to_icpdag ho_id dia5 [1] = Ok C) by (eexists; vm_compute; reflexivity).
    destruct E as [C E]. exists C. split; [exact E | exact (renamed_Ok _ _ _ _ _ H E)].
  - pose proof (C101_mec 5 f5 g5 f5_renaming ho_id ho_rev dia5 true true (proj1 dia5_dag) dia5_nonneg ltac:(lia)) as H.
    assert (E : exists l, mec ho_id dia5 true = Ok l /\ length l = 3) by (eexists; split; [vm_compute; reflexivity | reflexivity]).
    destruct E as (l & E & L). destruct (renamed_all_Ok _ _ _ _ _ H E) as (l' & E' & HP).
    exists l, l'. split; [exact E|]. split; [exact E'|]. split; [exact L | exact HP].
Qed.

(** The renamed chain is not recognised as a chain: the shortcut is not taken. *)
Example C101_chain_ex : is_chain_graph (chain_graph 5) = true /\ is_chain_graph (rename 5 g5 (chain_graph 5)) = false /\
  renamed_all 5 g5 (mec ho_id (chain_graph 5) true) (mec ho_id (rename 5 g5 (chain_graph 5)) true).
Proof.
  split; [reflexivity|]. split; [reflexivity|].
  apply (C101_mec 5 f5 g5 f5_renaming); [| |lia].
  - apply squareb_ok; reflexivity.
  - apply binary_nonneg, binaryb_ok; reflexivity.
Qed.
