(** Concrete counterexamples, and order_edges in the terms of C16. *)
From Coq Require Import List Arith ZArith Lia Bool Permutation Sorted Relations.
Import ListNotations.
From Verif Require Import Base GraphModel GraphSpec TopoProofs BasicProofs Basic2Proofs DTProofs SortProofs OrderProofs.

(** Cycle 0 -> 1 -> 2 -> 0 with weights -1. *)
Definition neg_cycle : mat := [[0; -1; 0]; [0; 0; -1]; [-1; 0; 0]]%Z.

Lemma is_dag_signed_refuted : exists p A, square p A /\ ~ acyclic A /\
  forall h : hord, is_dag h A = Ok true.
Proof.
  exists 3, neg_cycle. split; [apply squareb_ok; reflexivity|]. split.
  - intros H. apply (H 0). apply t_trans with 1; [apply t_step; discriminate|].
    apply t_trans with 2; apply t_step; discriminate.
  - intros h. reflexivity.
Qed.

(** 0 -> 2 <- 1 with weights 1 and -1, and 2 -> ... nothing: column 2 sums to 0. *)
Definition cancel_dag : mat := [[0; 0; 1]; [0; 0; -1]; [0; 0; 0]]%Z.

Lemma topological_ordering_signed_refuted : exists p A, square p A /\ acyclic A /\
  exists l, topological_ordering ho_id A = Ok l /\ ~ NoDup l.
Proof.
  exists 3, cancel_dag. split; [apply squareb_ok; reflexivity|]. split.
  - apply (topo_order_acyclic 3 _ [0; 1; 2]). split; [reflexivity|].
    intros i j E. assert (S3 : square 3 cancel_dag) by (apply squareb_ok; reflexivity).
    pose proof (edge_lt _ _ _ _ S3 E) as (Hi & Hj).
    destruct i as [|[|[|i]]]; [| | |lia]; destruct j as [|[|[|j]]]; try lia;
      try (exfalso; apply E; reflexivity).
    + now exists [], [1], [].
    + now exists [0], [], [].
  - eexists. split; [reflexivity|]. intros N. vm_compute in N.
    repeat match goal with H : NoDup (_ :: _) |- _ => inversion H; clear H; subst end.
    simpl in *. tauto.
Qed.

(** [list(set(range(n)) - {i})] in descending order. *)
Definition all_but_desc (n i : nat) : list nat := rev (all_but_asc n i).

(** Nodes 0..3 with the single undirected edge 1 - 2. *)
Definition one_edge : mat := [[0; 0; 0; 0]; [0; 0; 1; 0]; [0; 1; 0; 0]; [0; 0; 0; 0]]%Z.

Lemma pdag_to_dag_order : exists p P (ab : nat -> nat -> list nat) G,
  square p P /\ binary P /\ loopless P /\
  (forall n i, Permutation (ab n i) (all_but_asc n i)) /\
  pdag_to_dag_gen ho_id ab P = Ok G /\ ~ consistent_ext G P.
Proof.
  exists 4, one_edge, all_but_desc. eexists.
  assert (S4 : square 4 one_edge) by (apply squareb_ok; reflexivity).
  split; auto. split; [apply binaryb_ok; reflexivity|].
  split; [apply (looplessb_ok 4); auto|].
  split; [intros n i; apply Permutation_sym, Permutation_rev|].
  split; [vm_compute; reflexivity|].
  intros (_ & HS & _). specialize (HS 1 2). destruct HS as (HS & _).
  assert (adjacent one_edge 1 2) as HA by (left; discriminate).
  apply HS in HA. destruct HA as [E|E]; apply E; reflexivity.
Qed.

Lemma order_edges_full (h : hord) p G : square p G -> nonneg G -> acyclic G ->
  exists order O edges, topo_order p G order /\ order_edges h G = Ok O /\ square p O /\
    NoDup edges /\ (forall a b, In (a, b) edges <-> edge G a b) /\
    (forall a b, ~ edge G a b -> get O a b = 0%Z) /\
    Permutation (map (fun e => get O (fst e) (snd e)) edges) (map Z.of_nat (seq 1 (length edges))) /\
    (forall a b c d, edge G a b -> edge G c d ->
       ((get O a b < get O c d)%Z <-> precedes order d b \/ (b = d /\ precedes order a c))).
Proof.
  intros HG Hn HA. destruct (order_edges_spec h p G HG Hn HA)
    as (order & O & _ & HT & EO & HO & OE & OR & OL).
  exists order, O, (edges_of p O).
  assert (ND : NoDup order) by (eapply Permutation_NoDup; [apply Permutation_sym, HT | apply seq_NoDup]).
  assert (Inn : forall v, v < p -> In v order).
  { intros v Hv. eapply Permutation_in; [apply Permutation_sym, HT | now apply in_seq0]. }
  split; auto. split; auto. split; auto.
  split; [apply NoDup_where2|].
  split; [intros a b; rewrite (edges_of_In p O) by auto; apply OE|].
  split; [intros a b N; destruct (Z.eq_dec (get O a b) 0) as [|NZ]; auto; exfalso; now apply N, OE|].
  split; [now apply (labels_perm p G order O)|].
  intros a b c d E1 E2. rewrite OL by auto. unfold klt.
  pose proof (edge_lt _ _ _ _ HG E1) as (Ha & Hb). pose proof (edge_lt _ _ _ _ HG E2) as (Hc & Hd).
  pose proof (Inn a Ha). pose proof (Inn b Hb). pose proof (Inn c Hc). pose proof (Inn d Hd).
  rewrite !precedes_pos by auto. tauto.
Qed.
