(** Concrete non-trivial instances of the hypotheses of PropGraph2.v, with the values the model computes. *)
From Coq Require Import List Arith ZArith Lia Bool Permutation.
Import ListNotations.
From Verif Require Import Base GraphModel GraphSpec TopoProofs BasicProofs Basic2Proofs DTProofs
  CompelledProofs CpdagProofs EnumProofs MeekProofs ExGraph1.

(** 0 -> 1 -> 3 <- 2 <- 0, 3 -> 4: 1 -> 3, 2 -> 3 and 3 -> 4 are compelled, the rest is not. *)
Definition dia5 : mat :=
  [[0; 1; 1; 0; 0]; [0; 0; 0; 1; 0]; [0; 0; 0; 1; 0]; [0; 0; 0; 0; 1]; [0; 0; 0; 0; 0]]%Z.
(** The same with 1 -> 0 *)
Definition dia5' : mat :=
  [[0; 0; 1; 0; 0]; [1; 0; 0; 1; 0]; [0; 0; 0; 1; 0]; [0; 0; 0; 0; 1]; [0; 0; 0; 0; 0]]%Z.
Lemma dia5_dag : dag01 5 dia5. Proof. apply dag01b_ok; reflexivity. Qed.
Lemma dia5_nonneg : nonneg dia5. Proof. apply binary_nonneg, dia5_dag. Qed.
Lemma dia5'_dag : dag01 5 dia5'. Proof. apply dag01b_ok; reflexivity. Qed.
Lemma dia5'_nonneg : nonneg dia5'. Proof. apply binary_nonneg, dia5'_dag. Qed.
Definition cp5 : mat :=
  [[0; 1; 1; 0; 0]; [1; 0; 0; 1; 0]; [1; 0; 0; 1; 0]; [0; 0; 0; 0; 1]; [0; 0; 0; 0; 0]]%Z.

Example C17_ex : square 5 dia5 /\ nonneg dia5 /\ acyclic dia5 /\
  (let* W := order_edges ho_id dia5 in label_edges ho_id W) =
  Ok [[0; -1; -1; 0; 0]; [0; 0; 0; 1; 0]; [0; 0; 0; 1; 0]; [0; 0; 0; 0; 1]; [0; 0; 0; 0; 0]]%Z.
Proof.
  split; [apply dia5_dag|]. split; [apply dia5_nonneg|]. split; [apply dia5_dag|]. vm_compute. reflexivity.
Qed.
Example C18_ex : acyclic dia5 /\ dag_to_cpdag ho_id dia5 = Ok cp5 /\
  ~ acyclic cyc4 /\ dag_to_cpdag ho_rev cyc4 = Err ValueError.
Proof. split; [apply dia5_dag|]. split; [vm_compute; reflexivity|]. split; [apply cyc4_cyclic | vm_compute; reflexivity]. Qed.
(** Two different equivalent DAGs; and two DAGs which are not equivalent. *)
Example C19_ex : dia5 <> dia5' /\ markov_equiv dia5 dia5' /\
  dag_to_cpdag ho_id dia5 = dag_to_cpdag ho_rev dia5' /\
  ~ markov_equiv (chain_graph 3) [[0; 0; 1]; [0; 0; 1]; [0; 0; 0]]%Z.
Proof.
  split; [discriminate|]. split.
  - apply (dag_to_cpdag_canonical ho_id ho_rev 5 dia5 dia5' (proj1 dia5_dag) dia5_nonneg
      (proj2 (proj2 dia5_dag)) (proj1 dia5'_dag) dia5'_nonneg (proj2 (proj2 dia5'_dag))).
    vm_compute. reflexivity.
  - split; [vm_compute; reflexivity|]. intros (HS & _). destruct (proj1 (HS 0 1)) as [Q|Q].
    + left. vm_compute. discriminate.
    + exact (Q eq_refl).
    + exact (Q eq_refl).
Qed.
Example C20_ex : square 4 pd4 /\ binary pd4 /\ loopless pd4 /\ pdag_to_cpdag ho_id pd4 = Ok pd4 /\
  square 4 square4 /\ loopless square4 /\ pdag_to_cpdag ho_id square4 = Err ValueError.
Proof.
  split; [apply pd4_sq|]. split; [apply pd4_bin|]. split; [apply pd4_loopless|]. split; [vm_compute; reflexivity|].
  split; [apply square4_sq|]. split; [apply square4_loopless | vm_compute; reflexivity].
Qed.
Example C21_ex : (exists i j, und pd4 i j) /\ exists a b c, all_dags ho_id pd4 = Ok [a; b; c].
Proof.
  split.
  - exists 0, 1. split; vm_compute; discriminate.
  - eexists _, _, _. vm_compute. reflexivity.
Qed.
Example C23_ex : acyclic dia5 /\ (exists a b c, mec ho_id dia5 true = Ok [a; b; c]) /\
  acyclic (chain_graph 4) /\ is_chain_graph (chain_graph 4) = true /\
  exists a b c d, mec ho_id (chain_graph 4) true = Ok [a; b; c; d] /\
    mec ho_id (chain_graph 4) false = Ok [a; b; c; d].
Proof.
  split; [apply dia5_dag|]. split; [eexists _, _, _; vm_compute; reflexivity|].
  assert (dag01 4 (chain_graph 4)) as H by (apply dag01b_ok; reflexivity).
  split; [apply H|]. split; [vm_compute; reflexivity|]. eexists _, _, _, _. split; vm_compute; reflexivity.
Qed.
Example C24_ex : length (chain_graph_MEC 4) = 4 /\
  nth 2 (chain_graph_MEC 3) [] = [[0; 0; 0]; [1; 0; 0]; [0; 1; 0]]%Z.
Proof. split; vm_compute; reflexivity. Qed.

(** rule_1: 0 -> 1 - 2. rule_2: 0 -> 1 -> 2, 0 - 2. *)
Definition m1 : mat := [[0; 1; 0]; [0; 0; 1]; [0; 1; 0]]%Z.
Definition m2 : mat := [[0; 1; 1]; [0; 0; 1]; [1; 0; 0]]%Z.
(** rule_3: 0 - 1, 0 - 2, 0 - 3, 2 -> 1 <- 3. *)
Definition m3 : mat := [[0; 1; 1; 1]; [1; 0; 0; 0]; [1; 1; 0; 0]; [1; 1; 0; 0]]%Z.
(** rule_4: 0 - 1, 0 - 2, 0 - 3, 3 -> 2 -> 1. *)
Definition m4 : mat := [[0; 1; 1; 1]; [1; 0; 0; 0]; [1; 1; 0; 0]; [1; 0; 1; 0]]%Z.
Example C25_ex :
  (rule_1 1 2 m1 = true /\ und m1 1 2 /\ pdag_to_dag ho_id m1 = Ok [[0; 1; 0]; [0; 0; 1]; [0; 0; 0]]%Z) /\
  (rule_2 0 2 m2 = true /\ und m2 0 2 /\ pdag_to_dag ho_id m2 = Ok [[0; 1; 1]; [0; 0; 1]; [0; 0; 0]]%Z) /\
  (rule_3 0 1 m3 = true /\ und m3 0 1 /\ rule_4 0 1 m3 = false /\
     pdag_to_dag ho_id m3 = Ok [[0; 1; 1; 0]; [0; 0; 0; 0]; [0; 1; 0; 0]; [1; 1; 0; 0]]%Z) /\
  (rule_4 0 1 m4 = true /\ und m4 0 1 /\ rule_3 0 1 m4 = false /\ rule_1 0 1 m4 = false /\
     rule_2 0 1 m4 = false /\
     pdag_to_dag ho_id m4 = Ok [[0; 1; 0; 0]; [0; 0; 0; 0]; [1; 1; 0; 0]; [1; 0; 1; 0]]%Z).
Proof.
  assert (N : forall A i j, andb (negb (get A i j =? 0)%Z) (negb (get A j i =? 0)%Z) = true -> und A i j).
  { intros A i j H. apply andb_true_iff in H. rewrite !negb_true_iff, !Z.eqb_neq in H. exact H. }
  repeat match goal with
  | |- _ /\ _ => split
  | |- und _ _ _ => apply N
  | |- _ => vm_compute; reflexivity
  end.
Qed.
(** maximally_orient leaves pd4 alone and, for 0 -> 1 in the chain, orients everything. *)
Definition pchain : mat := [[0; 1; 0; 0]; [0; 0; 1; 0]; [0; 1; 0; 1]; [0; 0; 1; 0]]%Z.
Example C26_ex : square 4 pchain /\ binary pchain /\ loopless pchain /\
  maximally_orient ho_id pchain = Ok (chain_graph 4) /\ maximally_orient ho_rev pd4 = Ok pd4 /\
  maximally_orient ho_id square4 = Err ValueError.
Proof.
  split; [apply squareb_ok; reflexivity|]. split; [apply binaryb_ok; reflexivity|].
  split; [apply (looplessb_ok 4); [apply squareb_ok|]; reflexivity|]. repeat split; vm_compute; reflexivity.
Qed.
Example C28_ex : acyclic dia5 /\ dag_to_icpdag ho_rev dia5 [1] =
  Ok [[0; 1; 1; 0; 0]; [0; 0; 0; 1; 0]; [1; 0; 0; 1; 0]; [0; 0; 0; 0; 1]; [0; 0; 0; 0; 0]]%Z.
Proof. split; [apply dia5_dag | vm_compute; reflexivity]. Qed.
Example C29_ex : dag01 5 dia5 /\ incl [1] (seq 0 5) /\
  (exists a b, imec ho_id dia5 [1] true = Ok [a; b]) /\
  imec ho_id dia5 [5] true = Err ValueError /\
  exists a b c, imec ho_id (chain_graph 4) [3] true = Ok [a; b; c] /\
                imec ho_id (chain_graph 4) [3] false = Ok [a; b; c].
Proof.
  split; [apply dia5_dag|]. split; [intros x [<-|[]]; simpl; auto|].
  split; [eexists _, _; vm_compute; reflexivity|]. split; [vm_compute; reflexivity|].
  eexists _, _, _. split; vm_compute; reflexivity.
Qed.
Example C30_ex : pdag_to_icpdag ho_id pd4 [0] = Err ValueError /\
  pdag_to_icpdag ho_id pd4 [3] = Ok pd4 /\ pdag_to_icpdag ho_id square4 [] = Err ValueError.
Proof. repeat split; vm_compute; reflexivity. Qed.
