(** Bundled statements for the node-set, mask and supergraph queries. *)
From Coq Require Import List Arith ZArith Lia Bool Permutation Sorted Relations.
Import ListNotations.
From Verif Require Import Base GraphModel GraphSpec TopoProofs BasicProofs DTProofs SortProofs OrderProofs.

Lemma node_sets p A i j : square p A ->
  (In j (neighbors i A) <-> und A i j) /\ (In j (pa i A) <-> dir A j i) /\
  (In j (ch i A) <-> dir A i j) /\ (In j (adj i A) <-> adjacent A i j) /\
  (In j (adj i A) <-> In j (neighbors i A) \/ In j (pa i A) \/ In j (ch i A)) /\
  ~ (In j (neighbors i A) /\ In j (pa i A)) /\ ~ (In j (neighbors i A) /\ In j (ch i A)) /\
  ~ (In j (pa i A) /\ In j (ch i A)) /\
  (In j (pa i A) <-> In i (ch j A)) /\ (In j (neighbors i A) <-> In i (neighbors j A)) /\
  (In j (adj i A) <-> In i (adj j A)) /\
  (forall x, In x (na j i A) <-> In x (neighbors j A) /\ In x (adj i A)) /\
  NoDup (neighbors i A) /\ NoDup (pa i A) /\ NoDup (ch i A) /\ NoDup (adj i A) /\ NoDup (na j i A).
Proof.
  intros H.
  assert (Hna : forall x, In x (na j i A) <-> In x (neighbors j A) /\ In x (adj i A)).
  { intros x. unfold na. apply inter_In. }
  assert (Hnd : NoDup (na j i A)) by (apply NoDup_inter, neighbors_NoDup).
  pose proof (edge_dec A i j). pose proof (edge_dec A j i).
  rewrite (neighbors_In _ _ i j H), (neighbors_In _ _ j i H), (pa_In _ _ i j H),
    (ch_In _ _ i j H), (ch_In _ _ j i H), (adj_In _ _ i j H), (adj_In _ _ j i H).
  unfold und, dir, adjacent.
  repeat (split; [try tauto|]); try exact Hna;
    auto using neighbors_NoDup, pa_NoDup, ch_NoDup, adj_NoDup.
Qed.

Lemma decomposition p P : square p P ->
  square p (only_directed P) /\ square p (only_undirected P) /\
  (forall i j, (get (only_directed P) i j + get (only_undirected P) i j)%Z = get P i j) /\
  (forall i j, get (only_directed P) i j = 0%Z \/ get (only_undirected P) i j = 0%Z) /\
  (forall i j, edge (only_directed P) i j <-> dir P i j) /\
  (forall i j, edge (only_undirected P) i j <-> und P i j) /\
  (NoDup (undirected_edges P) /\
   forall i j, In (i, j) (undirected_edges P) <-> und P i j /\ j < i) /\
  (NoDup (directed_edges P) /\ forall i j, In (i, j) (directed_edges P) <-> dir P i j) /\
  (NoDup (map fst (edge_weights P)) /\
   forall i j w, In ((i, j), w) (edge_weights P) <-> w = get P i j /\ w <> 0%Z).
Proof.
  intros H.
  split; [now apply only_directed_square|]. split; [now apply only_undirected_square|].
  split; [intros; eapply only_sum; eauto|]. split; [intros; eapply only_disjoint; eauto|].
  split; [intros; eapply only_directed_edge; eauto|]. split; [intros; eapply only_undirected_edge; eauto|].
  split; [split; [apply undirected_edges_NoDup | intros; eapply undirected_edges_In; eauto]|].
  split; [split; [apply directed_edges_NoDup | intros; eapply directed_edges_In; eauto]|].
  split; [apply edge_weights_NoDup | intros; eapply edge_weights_In; eauto].
Qed.

Lemma skeleton_spec p P : square p P -> nocancel P ->
  square p (skeleton P) /\ binary (skeleton P) /\
  (forall i j, get (skeleton P) i j = get (skeleton P) j i) /\
  (forall i j, get (skeleton P) i j = 1%Z <-> adjacent P i j).
Proof.
  intros H Hn. split; [now apply skeleton_square|]. split; [eapply skeleton_binary; eauto|].
  split; [intros; eapply skeleton_sym; eauto|]. intros. eapply skeleton_edge; eauto.
Qed.

Lemma vstructures_indep (h h' : hord) p A : square p A ->
  forall t, In t (vstructures h A) <-> In t (vstructures h' A).
Proof.
  intros H ((i & c) & j). rewrite !(vstructures_In _ p) by auto. reflexivity.
Qed.

Lemma induced_subgraph_spec p S G : square p G ->
  square p (induced_subgraph S G) /\
  (forall i j, In i S -> In j S -> get (induced_subgraph S G) i j = get G i j) /\
  (forall i j, ~ In i S \/ ~ In j S -> get (induced_subgraph S G) i j = 0%Z) /\
  (acyclic G -> acyclic (induced_subgraph S G)).
Proof.
  intros H. split; [now apply induced_subgraph_square|]. split; [|split].
  - intros i j Hi Hj. rewrite (induced_subgraph_get p) by auto.
    apply memb_In in Hi, Hj. now rewrite Hi, Hj.
  - intros i j Hij. rewrite (induced_subgraph_get p) by auto.
    destruct (memb i S && memb j S) eqn:E; auto. apply andb_true_iff in E.
    rewrite !memb_In in E. tauto.
  - apply acyclic_sub. intros a b E. now apply (induced_subgraph_edge p) in E.
Qed.

Lemma supergraph_order p A B C : square p A -> square p B -> square p C ->
  binary A -> binary B -> binary C ->
  is_supergraph A A = true /\
  (is_supergraph A B = true -> is_supergraph B A = true -> A = B) /\
  (is_supergraph A B = true -> is_supergraph B C = true -> is_supergraph A C = true).
Proof.
  intros HA HB HC bA bB bC. split; [|split].
  - apply (is_supergraph_spec p); auto.
  - intros H1 H2. rewrite (is_supergraph_spec p) in H1, H2 by auto. apply (binary_edge_eq p); auto.
    intros i j. split; auto.
  - intros H1 H2. rewrite (is_supergraph_spec p) in H1, H2 |- * by auto. auto.
Qed.

Definition subgraph (A B : mat) : Prop := forall i j, edge A i j -> edge B i j.

Lemma has_sub_super p L1 L2 :
  (forall A, In A (L1 ++ L2) -> square p A /\ binary A) ->
  (has_subgraph L1 L2 = true <-> forall A, In A L1 -> exists B, In B L2 /\ subgraph B A) /\
  (has_supergraph L1 L2 = true <-> forall A, In A L1 -> exists B, In B L2 /\ subgraph A B).
Proof.
  intros H.
  assert (S1 : forall A, In A L1 -> square p A /\ binary A) by (intros; apply H, in_app_iff; auto).
  assert (S2 : forall A, In A L2 -> square p A /\ binary A) by (intros; apply H, in_app_iff; auto).
  unfold has_subgraph, has_supergraph. rewrite !forallb_forall. split; split; intros HH A HA.
  - pose proof (HH A HA) as HX. apply existsb_exists in HX. destruct HX as (B & HB & E). exists B. split; auto.
    destruct (S1 A HA), (S2 B HB). rewrite (is_supergraph_spec p) in E by auto. exact E.
  - destruct (HH A HA) as (B & HB & E). apply existsb_exists. exists B. split; auto.
    destruct (S1 A HA), (S2 B HB). rewrite (is_supergraph_spec p) by auto. exact E.
  - pose proof (HH A HA) as HX. apply existsb_exists in HX. destruct HX as (B & HB & E). exists B. split; auto.
    destruct (S1 A HA), (S2 B HB). rewrite (is_supergraph_spec p) in E by auto. exact E.
  - destruct (HH A HA) as (B & HB & E). apply existsb_exists. exists B. split; auto.
    destruct (S1 A HA), (S2 B HB). rewrite (is_supergraph_spec p) by auto. exact E.
Qed.

(** ** Decidable side conditions, to discharge the hypotheses of concrete instances *)
Definition squareb (p : nat) (A : mat) : bool :=
  (length A =? p) && forallb (fun r => length r =? p) A.
Definition binaryb (A : mat) : bool := forallb (forallb (fun z => (z =? 0)%Z || (z =? 1)%Z)) A.
Definition looplessb (p : nat) (A : mat) : bool := forallb (fun i => (get A i i =? 0)%Z) (seq 0 p).

Lemma squareb_ok p A : squareb p A = true -> square p A.
Proof.
  unfold squareb. rewrite andb_true_iff, Nat.eqb_eq, forallb_forall. intros (H1 & H2).
  split; auto. apply Forall_forall. intros r Hr. now apply Nat.eqb_eq, H2.
Qed.
Lemma binaryb_ok A : binaryb A = true -> binary A.
Proof.
  unfold binaryb. rewrite forallb_forall. intros H i j. unfold get.
  destruct (nth_in_or_default i A []) as [Hi|E]; [|rewrite E; destruct j; auto].
  specialize (H _ Hi). rewrite forallb_forall in H.
  destruct (nth_in_or_default j (nth i A []) 0%Z) as [Hj|E]; [|auto].
  specialize (H _ Hj). apply orb_true_iff in H. rewrite !Z.eqb_eq in H. tauto.
Qed.
Lemma looplessb_ok p A : square p A -> looplessb p A = true -> loopless A.
Proof.
  intros HA H i E. unfold looplessb in H. rewrite forallb_forall in H.
  assert (i < p) by (apply (edge_lt _ _ _ _ HA E)).
  specialize (H i (proj2 (in_seq0 _ _) H0)). apply Z.eqb_eq in H. now apply E.
Qed.
Lemma dag01b_ok p A : squareb p A && binaryb A = true -> is_dag ho_id A = Ok true -> dag01 p A.
Proof.
  rewrite andb_true_iff. intros (H1 & H2) H3. apply squareb_ok in H1. apply binaryb_ok in H2.
  split; auto. split; auto.
  destruct (is_dag_spec ho_id p A H1 (binary_nonneg H2)) as (b & E & Hb). rewrite H3 in E.
  inversion E; subst. now apply Hb.
Qed.
Lemma not_dag_cyclic p A : squareb p A && binaryb A = true -> is_dag ho_id A = Ok false -> ~ acyclic A.
Proof.
  rewrite andb_true_iff. intros (H1 & H2) H3. apply squareb_ok in H1. apply binaryb_ok in H2.
  destruct (is_dag_spec ho_id p A H1 (binary_nonneg H2)) as (b & E & Hb). rewrite H3 in E.
  inversion E; subst. intros HA. apply Hb in HA. discriminate.
Qed.
