(** Concrete non-trivial instances of the hypotheses of PropGraph1.v, with the values the model computes. *)
From Coq Require Import List Arith ZArith Lia Bool Permutation.
Import ListNotations.
From Verif Require Import Base GraphModel GraphSpec TopoProofs BasicProofs Basic2Proofs.

(** 0 -> 1 -> 3 <- 2 <- 0 *)
Definition diamond : mat := [[0; 1; 1; 0]; [0; 0; 0; 1]; [0; 0; 0; 1]; [0; 0; 0; 0]]%Z.
(** 0 -> 1 -> 2 -> 0, and 3 *)
Definition cyc4 : mat := [[0; 1; 0; 0]; [0; 0; 1; 0]; [1; 0; 0; 0]; [0; 0; 0; 0]]%Z.
(** 0 - 1, 0 - 2, 1 -> 3 <- 2 *)
Definition pd4 : mat := [[0; 1; 1; 0]; [1; 0; 0; 1]; [1; 0; 0; 1]; [0; 0; 0; 0]]%Z.
(** 0 - 1 - 2 - 3 - 0: no consistent extension *)
Definition square4 : mat := [[0; 1; 0; 1]; [1; 0; 1; 0]; [0; 1; 0; 1]; [1; 0; 1; 0]]%Z.
(** Weighted *)
Definition wgt : mat := [[0; 5; 0]; [2; 0; -3]; [0; 0; 0]]%Z.

Lemma diamond_dag : dag01 4 diamond.
Proof. apply dag01b_ok; reflexivity. Qed.
Lemma diamond_sq : square 4 diamond. Proof. apply diamond_dag. Qed.
Lemma diamond_bin : binary diamond. Proof. apply diamond_dag. Qed.
Lemma diamond_nonneg : nonneg diamond. Proof. apply binary_nonneg, diamond_dag. Qed.
Lemma diamond_loopless : loopless diamond.
Proof. apply acyclic_loopless, diamond_dag. Qed.
Lemma cyc4_sq : square 4 cyc4. Proof. apply squareb_ok; reflexivity. Qed.
Lemma cyc4_bin : binary cyc4. Proof. apply binaryb_ok; reflexivity. Qed.
Lemma cyc4_cyclic : ~ acyclic cyc4. Proof. apply (not_dag_cyclic 4); reflexivity. Qed.
Lemma pd4_sq : square 4 pd4. Proof. apply squareb_ok; reflexivity. Qed.
Lemma pd4_bin : binary pd4. Proof. apply binaryb_ok; reflexivity. Qed.
Lemma pd4_loopless : loopless pd4. Proof. apply (looplessb_ok 4); [apply pd4_sq | reflexivity]. Qed.
Lemma square4_sq : square 4 square4. Proof. apply squareb_ok; reflexivity. Qed.
Lemma square4_bin : binary square4. Proof. apply binaryb_ok; reflexivity. Qed.
Lemma square4_loopless : loopless square4.
Proof. apply (looplessb_ok 4); [apply square4_sq | reflexivity]. Qed.

Example C01_ex : square 4 diamond /\ nonneg diamond /\ is_dag ho_rev diamond = Ok true /\
  square 4 cyc4 /\ nonneg cyc4 /\ is_dag ho_rev cyc4 = Ok false.
Proof.
  split; [apply diamond_sq|]. split; [apply diamond_nonneg|]. split; [reflexivity|].
  split; [apply cyc4_sq|]. split; [apply binary_nonneg, cyc4_bin | reflexivity].
Qed.
Example C02_ex : acyclic diamond /\ topological_ordering ho_id diamond = Ok [0; 2; 1; 3] /\
  topological_ordering ho_rev diamond = Ok [0; 1; 2; 3] /\
  ~ acyclic cyc4 /\ topological_ordering ho_id cyc4 = Err ValueError.
Proof. split; [apply diamond_dag|]. split; [|split; [|split; [apply cyc4_cyclic|]]]; reflexivity. Qed.
Example C04_ex : square 4 pd4 /\ neighbors 0 pd4 = [1; 2] /\ pa 3 pd4 = [1; 2] /\
  ch 1 pd4 = [3] /\ adj 1 pd4 = [0; 3] /\ na 0 3 pd4 = [1; 2].
Proof. split; [apply pd4_sq | repeat split]. Qed.
Example C05_ex : square 3 wgt /\ nocancel wgt /\
  only_directed wgt = [[0; 0; 0]; [0; 0; -3]; [0; 0; 0]]%Z /\
  only_undirected wgt = [[0; 5; 0]; [2; 0; 0]; [0; 0; 0]]%Z /\
  undirected_edges wgt = [(1, 0)] /\ directed_edges wgt = [(1, 2)] /\
  edge_weights wgt = [((0, 1), 5%Z); ((1, 0), 2%Z); ((1, 2), (-3)%Z)] /\
  skeleton wgt = [[0; 1; 0]; [1; 0; 1]; [0; 1; 0]]%Z.
Proof.
  assert (S3 : square 3 wgt) by (apply squareb_ok; reflexivity).
  split; auto. split.
  - intros i j. destruct (le_lt_dec 3 i); [rewrite (get_out (i:=i) (j:=j) S3), (get_out (i:=j) (j:=i) S3) by lia; auto|].
    destruct (le_lt_dec 3 j); [rewrite (get_out (i:=i) (j:=j) S3), (get_out (i:=j) (j:=i) S3) by lia; auto|].
    destruct i as [|[|[|i]]]; [| | |lia]; destruct j as [|[|[|j]]]; try lia; vm_compute; congruence.
  - repeat split.
Qed.
Example C06_ex : square 4 diamond /\ vstructures ho_id diamond = [(1, 3, 2)] /\
  vstructures ho_rev diamond = [(1, 3, 2)].
Proof. split; [apply diamond_sq | repeat split]. Qed.
Example C07_ex : square 4 diamond /\ nocancel diamond /\ degrees diamond = [2; 2; 2; 2]%Z /\
  moral_graph ho_id diamond = [[0; 1; 1; 0]; [1; 0; 1; 1]; [1; 1; 0; 1]; [0; 1; 1; 0]]%Z.
Proof.
  split; [apply diamond_sq|]. split; [apply nonneg_nocancel, diamond_nonneg|]. split; reflexivity.
Qed.
Example C08_ex : square 4 diamond /\ nocancel diamond /\ loopless diamond /\
  NoDup [3; 1] /\ is_clique ho_id [3; 1] diamond = true /\ is_clique ho_rev [3; 1; 2] diamond = false /\
  is_complete diamond = false.
Proof.
  split; [apply diamond_sq|]. split; [apply nonneg_nocancel, diamond_nonneg|].
  split; [apply diamond_loopless|].
  split; [repeat constructor; simpl; lia | repeat split].
Qed.
Example C12_ex : square 4 diamond /\ acyclic diamond /\
  induced_subgraph [0; 1; 3] diamond = [[0; 1; 0; 0]; [0; 0; 0; 1]; [0; 0; 0; 0]; [0; 0; 0; 0]]%Z.
Proof. split; [apply diamond_sq|]. split; [apply diamond_dag | reflexivity]. Qed.
Example C13_ex : square 4 diamond /\ nonneg diamond /\ square 4 pd4 /\ nocancel pd4 /\
  is_consistent_extension ho_id diamond pd4 = Ok true /\
  is_consistent_extension ho_id diamond square4 = Ok false /\
  is_consistent_extension ho_id cyc4 pd4 = Err ValueError.
Proof.
  split; [apply diamond_sq|]. split; [apply diamond_nonneg|]. split; [apply pd4_sq|].
  split; [apply nonneg_nocancel, binary_nonneg, pd4_bin | repeat split].
Qed.
Example C14_ex : square 4 pd4 /\ binary pd4 /\ loopless pd4 /\
  exists G, pdag_to_dag ho_id pd4 = Ok G /\ directed_edges G = [(0, 1); (1, 3); (2, 0); (2, 3)].
Proof.
  split; [apply pd4_sq|]. split; [apply pd4_bin|]. split; [apply pd4_loopless|].
  eexists. split; vm_compute; reflexivity.
Qed.
Example C15_ex : square 4 square4 /\ loopless square4 /\ pdag_to_dag ho_id square4 = Err ValueError.
Proof. split; [apply square4_sq|]. split; [apply square4_loopless | reflexivity]. Qed.
Example C16_ex : acyclic diamond /\
  order_edges ho_id diamond = Ok [[0; 3; 4; 0]; [0; 0; 0; 2]; [0; 0; 0; 1]; [0; 0; 0; 0]]%Z.
Proof. split; [apply diamond_dag | vm_compute; reflexivity]. Qed.
Example C31_ex : is_supergraph pd4 diamond = true /\ is_supergraph diamond pd4 = false /\
  has_subgraph [pd4; diamond] [diamond] = true /\ has_supergraph [pd4; diamond] [diamond] = false /\
  forall A, In A ([pd4; diamond] ++ [diamond]) -> square 4 A /\ binary A.
Proof.
  repeat split; try reflexivity;
    destruct H as [<-|[<-|[<-|[]]]];
    first [apply pd4_sq | apply pd4_bin | apply diamond_sq | apply diamond_bin].
Qed.
Example C39_ex : square 4 diamond /\ nonneg diamond /\
  to_factorization ho_id diamond = Ok [[]; [0]; [0]; [1; 2]] /\
  to_factorization ho_id cyc4 = Err ValueError.
Proof. split; [apply diamond_sq|]. split; [apply diamond_nonneg|]. split; reflexivity. Qed.
