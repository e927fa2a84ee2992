(** Concrete non-trivial instances of the hypotheses of PropRefine.v. *)
From Coq Require Import List Arith ZArith Lia Bool.
Import ListNotations.
From Verif Require Import Base GraphModel GraphSpec TopoProofs Basic2Proofs RefineSpec RefineProofs ExGraph1 ExGraph2.

(** 0 -> 1 -> 3 <- 2 <- 0, 3 -> 4: no targets leave 0 - 1 and 0 - 2 undirected; the target 1 orients the first only; the
    target 0 orients both. *)
Definition ic5 : mat :=
  [[0; 1; 1; 0; 0]; [0; 0; 0; 1; 0]; [1; 0; 0; 1; 0]; [0; 0; 0; 0; 1]; [0; 0; 0; 0; 0]]%Z.
Example C117_refines_ex : incl [1] [1; 0] /\ dag_to_icpdag ho_id dia5 [1] = Ok ic5 /\
  dag_to_icpdag ho_rev dia5 [1; 0] = Ok dia5 /\ ic5 <> dia5 /\ refines dia5 ic5.
Proof.
  assert (E1 : dag_to_icpdag ho_id dia5 [1] = Ok ic5) by (vm_compute; reflexivity).
  assert (E2 : dag_to_icpdag ho_rev dia5 [1; 0] = Ok dia5) by (vm_compute; reflexivity).
  split; [intros v [->|[]]; now left|]. split; [exact E1|]. split; [exact E2|]. split; [discriminate|].
  destruct dia5_dag as (S & _ & A).
  destruct (icpdag_refines ho_id ho_rev 5 dia5 [1] [1; 0] S dia5_nonneg A) as (M & N & EM & EN & H).
  - intros v [->|[]]; now left.
  - assert (M = ic5) as -> by congruence. assert (N = dia5) as -> by congruence. exact H.
Qed.

Example C117_no_targets_ex : dag_to_icpdag ho_rev dia5 [] = Ok cp5 /\ dag_to_cpdag ho_id dia5 = Ok cp5.
Proof. split; vm_compute; reflexivity. Qed.

(** The covered edges are 0 -> 1 and 0 -> 2. *)
Lemma dia5_covered x y : covered_edge dia5 x y -> x = 0 /\ (y = 1 \/ y = 2).
Proof.
  intros [E C]. destruct dia5_dag as (S & _). destruct (edge_lt 5 dia5 x y S E) as [Hx Hy].
  do 5 (destruct x as [|x]; [do 5 (destruct y as [|y];
    [first [exfalso; now apply E | lia |
            exfalso; generalize (C 1), (C 2); vm_compute; intuition discriminate]|]); lia|]). lia.
Qed.
Lemma dia5_covered1 : covered_edge dia5 0 1.
Proof.
  split; [discriminate|]. intros z. do 5 (destruct z as [|z]; [now vm_compute; intuition discriminate|]).
  now destruct z; vm_compute; intuition discriminate.
Qed.
Example C117_identified_ex : dag01 5 dia5 /\ (forall x y, covered_edge dia5 x y -> In x [0] \/ In y [0]) /\
  dag_to_icpdag ho_id dia5 [0] = Ok dia5 /\
  covered_edge dia5 0 1 /\ ~ In 0 [2; 3; 4] /\ ~ In 1 [2; 3; 4] /\ dag_to_icpdag ho_id dia5 [2; 3; 4] <> Ok dia5.
Proof.
  split; [apply dia5_dag|]. split; [intros x y H; destruct (dia5_covered x y H) as [-> _]; left; now left|].
  split; [vm_compute; reflexivity|]. split; [apply dia5_covered1|].
  split; [simpl; lia|]. split; [simpl; lia | vm_compute; discriminate].
Qed.
Example C117_covered_ex : dag_to_icpdag ho_id dia5 [1] = Ok ic5 /\ covered_edge dia5 0 1 /\ dir ic5 0 1 /\ und ic5 0 2 /\
  dag_to_icpdag ho_id dia5 [] = Ok cp5 /\ und cp5 0 1.
Proof.
  split; [vm_compute; reflexivity|]. split; [apply dia5_covered1|]. split; [split; [discriminate | intros Q; now apply Q]|].
  split; [split; discriminate|]. split; [vm_compute; reflexivity | split; discriminate].
Qed.
