(** Lemmas on masks, edge lists, v-structures, cliques and consistent extensions. *)
From Coq Require Import List Arith ZArith Lia Bool Permutation Relations Sorted.
Import ListNotations.
From Verif Require Import Base GraphModel GraphSpec TopoProofs.

(** ** Directed and undirected parts *)

Lemma only_directed_get p A i j : square p A ->
  get (only_directed A) i j = if nz (get A i j) && (get A j i =? 0)%Z then get A i j else 0%Z.
Proof.
  intros H. unfold only_directed. rewrite (square_length H).
  destruct (lt_dec i p), (lt_dec j p);
    try (rewrite get_mk_out by lia; rewrite (get_out (i:=i) (j:=j) H) by lia; reflexivity).
  rewrite get_mk; auto.
Qed.

Lemma only_directed_square p A : square p A -> square p (only_directed A).
Proof. intros (H & _). unfold only_directed. rewrite H. apply mk_square. Qed.

Lemma only_directed_edge p A i j : square p A -> (edge (only_directed A) i j <-> dir A i j).
Proof.
  intros H. unfold dir, edge. rewrite (only_directed_get _ _ _ _ H).
  destruct (nz (get A i j)) eqn:E1, (Z.eqb_spec (get A j i) 0) as [E2|E2]; simpl;
    rewrite ?nz_true, ?nz_false in E1; tauto.
Qed.

Lemma only_undirected_edge p A i j : square p A -> (edge (only_undirected A) i j <-> und A i j).
Proof.
  intros H. unfold und, edge. rewrite (only_undirected_get _ _ _ _ H).
  destruct (nz (get A i j)) eqn:E1, (nz (get A j i)) eqn:E2; simpl;
    rewrite ?nz_true, ?nz_false in E1; rewrite ?nz_true, ?nz_false in E2; tauto.
Qed.

Lemma only_sum p A i j : square p A ->
  (get (only_directed A) i j + get (only_undirected A) i j = get A i j)%Z.
Proof.
  intros H. rewrite (only_directed_get _ _ _ _ H), (only_undirected_get _ _ _ _ H).
  unfold nz. destruct (Z.eqb_spec (get A i j) 0), (Z.eqb_spec (get A j i) 0); simpl; lia.
Qed.

Lemma only_disjoint p A i j : square p A ->
  get (only_directed A) i j = 0%Z \/ get (only_undirected A) i j = 0%Z.
Proof.
  intros H. rewrite (only_directed_get _ _ _ _ H), (only_undirected_get _ _ _ _ H).
  unfold nz. destruct (Z.eqb_spec (get A i j) 0), (Z.eqb_spec (get A j i) 0); simpl; auto.
Qed.

Lemma undirected_edges_In p P i j : square p P ->
  (In (i, j) (undirected_edges P) <-> und P i j /\ j < i).
Proof.
  intros H. unfold undirected_edges. rewrite filter_In, where2_In. simpl.
  rewrite Nat.ltb_lt, nz_true. fold (edge (only_undirected P) i j).
  rewrite (only_undirected_edge _ _ _ _ H), (square_length H).
  split; [tauto|]. intros ((E1 & E2) & L). pose proof (edge_lt _ _ _ _ H E1). unfold und. tauto.
Qed.

Lemma undirected_edges_NoDup P : NoDup (undirected_edges P).
Proof. apply NoDup_filter, NoDup_where2. Qed.

Lemma directed_edges_In p P i j : square p P -> (In (i, j) (directed_edges P) <-> dir P i j).
Proof.
  intros H. unfold directed_edges. rewrite where2_In, nz_true.
  fold (edge (only_directed P) i j). rewrite (only_directed_edge _ _ _ _ H), (square_length H).
  split; [tauto|]. intros E. pose proof E as (E1 & _). pose proof (edge_lt _ _ _ _ H E1). tauto.
Qed.

Lemma directed_edges_NoDup P : NoDup (directed_edges P).
Proof. apply NoDup_where2. Qed.

Lemma combine_map (A B : Type) (f : A -> B) l : combine l (map f l) = map (fun x => (x, f x)) l.
Proof. induction l; simpl; congruence. Qed.

Lemma edge_weights_In p W i j w : square p W ->
  (In ((i, j), w) (edge_weights W) <-> w = get W i j /\ w <> 0%Z).
Proof.
  intros H. unfold edge_weights. rewrite combine_map, in_map_iff, (square_length H). split.
  - intros ([a b] & E & Hin). simpl in E. inversion E; subst. apply where2_In in Hin.
    rewrite nz_true in Hin. tauto.
  - intros (-> & Hw). exists (i, j). split; auto. apply where2_In. rewrite nz_true.
    pose proof (get_lt H Hw). tauto.
Qed.

Lemma edge_weights_keys W :
  map fst (edge_weights W) = where2 (length W) (fun i j => nz (get W i j)).
Proof. unfold edge_weights. rewrite combine_map, map_map. simpl. apply map_id. Qed.

Lemma edge_weights_NoDup W : NoDup (map fst (edge_weights W)).
Proof. rewrite edge_weights_keys. apply NoDup_where2. Qed.

(** ** Skeleton *)

(** The sum A[i,j] + A[j,i] does not cancel. *)
Definition nocancel (A : mat) : Prop :=
  forall i j, (get A i j + get A j i = 0 -> get A i j = 0)%Z.

Lemma nonneg_nocancel A : nonneg A -> nocancel A.
Proof. intros H i j E. pose proof (H i j). pose proof (H j i). lia. Qed.

Lemma nocancel_adj A i j : nocancel A -> (get A i j + get A j i <> 0)%Z <-> adjacent A i j.
Proof.
  intros H. unfold adjacent, edge. split.
  - intros E. destruct (Z.eq_dec (get A i j) 0), (Z.eq_dec (get A j i) 0); auto. lia.
  - intros E E0. assert (get A j i = 0%Z) by (apply H; lia). apply H in E0. tauto.
Qed.

Lemma skeleton_square p A : square p A -> square p (skeleton A).
Proof. intros (H & _). unfold skeleton. rewrite H. apply mk_square. Qed.

Lemma skeleton_get p A i j : square p A ->
  get (skeleton A) i j = if nz (get A i j + get A j i)%Z then 1%Z else 0%Z.
Proof.
  intros H. unfold skeleton. rewrite (square_length H).
  destruct (lt_dec i p), (lt_dec j p);
    try (rewrite get_mk_out by lia; rewrite (get_out (i:=i) (j:=j) H), (get_out (i:=j) (j:=i) H)
          by lia; reflexivity).
  rewrite get_mk; auto.
Qed.

Lemma skeleton_sym p A i j : square p A -> get (skeleton A) i j = get (skeleton A) j i.
Proof. intros H. rewrite !(skeleton_get _ _ _ _ H). rewrite Z.add_comm. reflexivity. Qed.

Lemma skeleton_binary p A : square p A -> binary (skeleton A).
Proof. intros H i j. rewrite (skeleton_get _ _ _ _ H). destruct (nz _); auto. Qed.

Lemma skeleton_edge p A i j : square p A -> nocancel A ->
  (get (skeleton A) i j = 1%Z <-> adjacent A i j).
Proof.
  intros H Hn. rewrite (skeleton_get _ _ _ _ H), <- nocancel_adj by auto.
  destruct (nz _) eqn:E; rewrite ?nz_true, ?nz_false in E; split; intros; try tauto; lia.
Qed.

Lemma same_skeleton_eqb p P G : square p P -> square p G -> nocancel P -> nocancel G ->
  (mateqb (skeleton P) (skeleton G) = true <-> same_skeleton P G).
Proof.
  intros HP HG NP NG.
  rewrite (mateqb_eq (skeleton_square _ _ HP) (skeleton_square _ _ HG)). split.
  - intros E i j. rewrite <- (skeleton_edge _ _ _ _ HP NP), <- (skeleton_edge _ _ _ _ HG NG), E.
    tauto.
  - intros S. apply mat_ext with p; auto using skeleton_square. intros i j Hi Hj.
    pose proof (S i j) as Sij.
    rewrite <- (skeleton_edge _ _ _ _ HP NP), <- (skeleton_edge _ _ _ _ HG NG) in Sij.
    destruct (skeleton_binary _ _ HP i j) as [E|E], (skeleton_binary _ _ HG i j) as [E'|E'];
      rewrite E, E' in *; auto; exfalso; intuition discriminate.
Qed.

(** ** v-structures *)

Lemma combinations2_In l a b : In (a, b) (combinations2 l) <-> precedes l a b.
Proof.
  induction l as [|x l IH]; simpl.
  - split; [easy|]. intros (u & v & w & E). destruct u; discriminate.
  - rewrite in_app_iff, IH, precedes_cons, in_map_iff. split.
    + intros [(y & E & Hy)|H]; auto. inversion E; subst. auto.
    + intros [(-> & Hb)|H]; auto. left. eauto.
Qed.

Lemma two_length (l : list nat) a b : NoDup l -> In a l -> In b l -> a <> b -> 1 < length l.
Proof.
  intros ND Ha Hb Hab. assert (length [a; b] <= length l); [|simpl in *; lia].
  apply NoDup_incl_length.
  - constructor; [simpl; intuition | constructor; [easy | constructor]].
  - intros x [<-|[<-|[]]]; auto.
Qed.

Lemma vstruct_sym A i c j : vstruct A i c j -> vstruct A j c i.
Proof. unfold vstruct, adjacent. intuition. Qed.

Lemma vstructures_In (h : hord) p A i c j : square p A ->
  (In (i, c, j) (vstructures h A) <-> i < j /\ vstruct A i c j).
Proof.
  intros H. unfold vstructures. rewrite in_flat_map. split.
  - intros (c' & _ & Hin). rewrite in_flat_map in Hin. destruct Hin as ([a b] & Hab & Hin).
    destruct ((get A a b =? 0)%Z && (get A b a =? 0)%Z) eqn:E; [|easy].
    apply andb_true_iff in E. rewrite !Z.eqb_eq in E. destruct E as (E1 & E2).
    apply combinations2_In in Hab.
    pose proof (precedes_In _ _ _ Hab) as (Ha & Hb).
    rewrite ho_In, (pa_In _ _ _ _ H) in Ha. rewrite ho_In, (pa_In _ _ _ _ H) in Hb.
    assert (a <> b).
    { intros ->. apply (precedes_irrefl _ _ (ho_NoDup h c' (pa_NoDup c' A)) Hab). }
    assert (vstruct A a c' b) as V.
    { split; [auto|]. split; [auto|]. split; [auto|]. unfold adjacent, edge. tauto. }
    destruct (Nat.ltb_spec a b); destruct Hin as [Q|[]]; inversion Q; subst.
    + auto.
    + split; [lia|]. now apply vstruct_sym.
  - intros (Hij & V). pose proof V as (D1 & D2 & N & NA).
    pose proof (proj1 D1) as E1. pose proof (edge_lt _ _ _ _ H E1) as (Hi & Hc).
    pose proof (edge_lt _ _ _ _ H (proj1 D2)) as (Hj & _).
    exists c. split.
    + rewrite where1_In, (square_length H), Nat.ltb_lt. split; auto.
      apply two_length with i j; auto using NoDup_where1; rewrite where1_In, nz_true.
      * split; auto. now apply (only_directed_edge _ _ _ _ H).
      * split; auto. now apply (only_directed_edge _ _ _ _ H).
    + assert (Hi' : In i (h c (pa c A))) by (rewrite ho_In, (pa_In _ _ _ _ H); auto).
      assert (Hj' : In j (h c (pa c A))) by (rewrite ho_In, (pa_In _ _ _ _ H); auto).
      assert (Z1 : get A i j = 0%Z) by (apply eqz_nedge; unfold adjacent in NA; tauto).
      assert (Z2 : get A j i = 0%Z) by (apply eqz_nedge; unfold adjacent in NA; tauto).
      rewrite in_flat_map. destruct (precedes_total _ _ _ Hi' Hj') as [?|[P|P]]; [contradiction| |].
      * exists (i, j). rewrite combinations2_In. split; auto. rewrite Z1, Z2. simpl.
        assert (i <? j = true) as -> by (apply Nat.ltb_lt; auto). simpl. auto.
      * exists (j, i). rewrite combinations2_In. split; auto. rewrite Z1, Z2. simpl.
        assert (j <? i = false) as -> by (apply Nat.ltb_ge; lia). simpl. auto.
Qed.

Lemma triple_eqb_eq t u : triple_eqb t u = true <-> t = u.
Proof.
  destruct t as ((a & b) & c), u as ((x & y) & z). unfold triple_eqb.
  rewrite !andb_true_iff, !Nat.eqb_eq. split; [intros ((-> & ->) & ->); auto|].
  intros E. inversion E; auto.
Qed.

Lemma subset3_incl a b : subset3 a b = true <-> incl a b.
Proof.
  unfold subset3. rewrite forallb_forall. split.
  - intros H t Ht. specialize (H t Ht). apply existsb_exists in H. destruct H as (u & Hu & E).
    apply triple_eqb_eq in E. now subst.
  - intros H t Ht. apply existsb_exists. exists t. split; [now apply H|]. now apply triple_eqb_eq.
Qed.

Lemma same_vstructures_eqb (h : hord) p P G : square p P -> square p G ->
  (same_set3 (vstructures h P) (vstructures h G) = true <-> same_vstructs P G).
Proof.
  intros HP HG. unfold same_set3. rewrite andb_true_iff, !subset3_incl. split.
  - intros (I1 & I2).
    assert (forall i c j, i < j -> (vstruct P i c j <-> vstruct G i c j)) as H.
    { intros i c j Hij. split; intros V.
      - apply (vstructures_In h p G i c j HG), I1. apply (vstructures_In h p P i c j HP). auto.
      - apply (vstructures_In h p P i c j HP), I2. apply (vstructures_In h p G i c j HG). auto. }
    intros i c j. destruct (lt_eq_lt_dec i j) as [[L| ->]|L].
    + auto.
    + unfold vstruct. tauto.
    + split; intros V; apply vstruct_sym, H; auto; now apply vstruct_sym.
  - intros S. split; intros ((i & c) & j) Hin.
    + apply (vstructures_In h p P i c j HP) in Hin. apply (vstructures_In h p G i c j HG).
      pose proof (S i c j). tauto.
    + apply (vstructures_In h p G i c j HG) in Hin. apply (vstructures_In h p P i c j HP).
      pose proof (S i c j). tauto.
Qed.

(** ** Consistent extensions *)

Lemma same_orientation_eqb p P G : square p P ->
  (forallb (fun e => nz (get G (fst e) (snd e)))
    (where2 (length P) (fun i j => nz (get (only_directed P) i j))) = true
   <-> forall i j, dir P i j -> edge G i j).
Proof.
  intros HP. rewrite forallb_forall. split.
  - intros H i j D. specialize (H (i, j)). simpl in H. rewrite nz_true in H. apply H.
    now apply (directed_edges_In p P i j HP).
  - intros H (i & j) Hin. simpl. apply nz_true. apply H.
    now apply (directed_edges_In p P i j HP) in Hin.
Qed.

Lemma is_consistent_extension_spec (h : hord) p G P :
  square p G -> nonneg G -> square p P -> nocancel P ->
  (~ acyclic G /\ is_consistent_extension h G P = Err ValueError) \/
  (acyclic G /\ exists b, is_consistent_extension h G P = Ok b /\ (b = true <-> consistent_ext G P)).
Proof.
  intros HG NG HP NP. unfold is_consistent_extension.
  destruct (acyclic_dec p G HG NG) as [A|A].
  - right. split; auto. rewrite (is_dag_true h p G HG NG A). simpl. eexists. split; [reflexivity|].
    rewrite !andb_true_iff, (same_vstructures_eqb h p P G HP HG), (same_orientation_eqb p P G HP).
    rewrite (same_skeleton_eqb p P G HP HG NP (nonneg_nocancel _ NG)).
    unfold consistent_ext. tauto.
  - left. split; auto. rewrite (is_dag_false h p G HG NG A). reflexivity.
Qed.

(** ** Counting pairs: cliques *)

Lemma filter_split_length (A : Type) (f : A -> bool) l :
  length (filter f l) + length (filter (fun x => negb (f x)) l) = length l.
Proof. induction l as [|a l IH]; simpl; auto. destruct (f a); simpl; lia. Qed.

Lemma length_offdiag n :
  length (filter (fun e => negb (fst e =? snd e)) (pairs n)) = n * (n - 1).
Proof.
  assert (Hd : length (filter (fun e => fst e =? snd e) (pairs n)) = n).
  { transitivity (length (map (fun i => (i, i)) (seq 0 n))); [|now rewrite map_length, seq_length].
    apply Permutation_length, NoDup_Permutation.
    - apply NoDup_filter, NoDup_pairs.
    - apply FinFun.Injective_map_NoDup; [|apply seq_NoDup]. intros x y E. congruence.
    - intros (i & j). rewrite filter_In, pairs_In, in_map_iff. simpl. rewrite Nat.eqb_eq. split.
      + intros ((H1 & H2) & ->). exists j. rewrite in_seq0. auto.
      + intros (x & E & Hx). inversion E; subst. rewrite in_seq0 in Hx. auto. }
  assert (Ht : length (pairs n) = n * n) by (unfold pairs; rewrite prod_length, seq_length; lia).
  pose proof (filter_split_length _ (fun e : nat * nat => fst e =? snd e) (pairs n)) as HF.
  rewrite Hd, Ht in HF. nia.
Qed.

Lemma count_complete n (f : nat -> nat -> bool) : (forall i, f i i = false) ->
  (length (where2 n f) = n * (n - 1) <->
   forall i j, i < n -> j < n -> i <> j -> f i j = true).
Proof.
  intros Hd. set (off := filter (fun e => negb (fst e =? snd e)) (pairs n)).
  assert (Hincl : incl (where2 n f) off).
  { intros (i & j) H. apply where2_In in H. unfold off. rewrite filter_In, pairs_In. simpl.
    rewrite negb_true_iff, Nat.eqb_neq. split; [tauto|]. intros ->. rewrite Hd in H. intuition discriminate. }
  assert (Ho : length off = n * (n - 1)) by apply length_offdiag.
  split.
  - intros HL i j Hi Hj Hij.
    assert (incl off (where2 n f)) as HI.
    { apply NoDup_length_incl; auto; [apply NoDup_where2 | lia]. }
    assert (In (i, j) off) as Hin.
    { unfold off. rewrite filter_In, pairs_In. simpl. now rewrite negb_true_iff, Nat.eqb_neq. }
    apply HI, where2_In in Hin. tauto.
  - intros H. rewrite <- Ho. apply Permutation_length, NoDup_Permutation.
    + apply NoDup_where2.
    + apply NoDup_filter, NoDup_pairs.
    + intros (i & j). split; [apply Hincl|]. unfold off. rewrite filter_In, pairs_In. simpl.
      rewrite negb_true_iff, Nat.eqb_neq. intros ((Hi & Hj) & Hij). apply where2_In. auto.
Qed.

Lemma sub_square A S : square (length S) (sub A S).
Proof.
  split; [unfold sub; now rewrite map_length|]. apply Forall_forall. intros r Hr.
  apply in_map_iff in Hr. destruct Hr as (i & <- & _). now rewrite map_length.
Qed.

Lemma sub_get A S i j : i < length S -> j < length S ->
  get (sub A S) i j = get A (nth i S 0) (nth j S 0).
Proof.
  intros Hi Hj. unfold get at 1, sub.
  rewrite nth_indep with (d' := map (get A 0) S) by (now rewrite map_length).
  rewrite (map_nth (fun i => map (get A i) S)).
  rewrite nth_indep with (d' := get A (nth i S 0) 0) by (now rewrite map_length).
  now rewrite (map_nth (get A (nth i S 0))).
Qed.

Lemma sub_length A S : length (sub A S) = length S.
Proof. unfold sub. now rewrite map_length. Qed.

Lemma is_clique_spec (h : hord) p S A : square p A -> nocancel A -> loopless A -> NoDup S ->
  (forall x, In x S -> x < p) ->
  (is_clique h S A = true <-> forall i j, In i S -> In j S -> i <> j -> adjacent A i j).
Proof.
  intros HA NC LL ND HS. unfold is_clique. set (T := h 0 S).
  assert (NDT : NoDup T) by (apply ho_NoDup; auto).
  assert (HT : forall x, In x T <-> In x S) by (intros; apply ho_In).
  set (n := length T). set (B := sub A T).
  assert (HB : square n B) by apply sub_square.
  rewrite (square_length (skeleton_square _ _ HB)).
  rewrite Nat.eqb_eq.
  assert (Hget : forall i j, i < n -> j < n ->
    (nz (get (skeleton B) i j) = true <-> adjacent A (nth i T 0) (nth j T 0))).
  { intros i j Hi Hj. rewrite nz_true, (skeleton_get _ _ _ _ HB). unfold B.
    rewrite !sub_get by auto. rewrite <- (nocancel_adj A) by auto.
    destruct (nz (get A _ _ + _)%Z) eqn:E; rewrite ?nz_true, ?nz_false in E; split; intros; auto; lia. }
  rewrite count_complete.
  - split.
    + intros H i j Hi Hj Hij. apply HT in Hi, Hj.
      apply (In_nth _ _ 0) in Hi, Hj. destruct Hi as (a & La & <-), Hj as (b & Lb & <-).
      apply Hget; auto. apply H; auto. intros ->. auto.
    + intros H i j Hi Hj Hij. apply Hget; auto. apply H.
      * apply HT, nth_In. auto.
      * apply HT, nth_In. auto.
      * intros E. apply Hij. eapply NoDup_nth; eauto.
  - intros i. destruct (lt_dec i n) as [Hi|Hi].
    + destruct (nz (get (skeleton B) i i)) eqn:E; auto. apply Hget in E; auto.
      exfalso. destruct E; now apply LL in H.
    + apply nz_false. apply (get_out (skeleton_square _ _ HB)). lia.
Qed.

Lemma is_complete_spec p P : square p P -> nocancel P -> loopless P ->
  (is_complete P = true <-> forall i j, i < p -> j < p -> i <> j -> adjacent P i j).
Proof.
  intros HP NC LL. unfold is_complete. rewrite Nat.eqb_eq, (square_length HP), count_complete.
  - split; intros H i j Hi Hj Hij; specialize (H i j Hi Hj Hij);
      rewrite nz_true, nocancel_adj in *; auto.
  - intros i. apply nz_false. pose proof (LL i) as L. unfold edge in L.
    destruct (Z.eq_dec (get P i i) 0); lia || tauto.
Qed.

(** ** induced_subgraph *)

Lemma induced_subgraph_get p S G i j : square p G ->
  get (induced_subgraph S G) i j = if memb i S && memb j S then get G i j else 0%Z.
Proof.
  intros H. unfold induced_subgraph. rewrite (square_length H), get_mk'.
  destruct (Nat.ltb_spec i p), (Nat.ltb_spec j p); simpl; auto;
    rewrite (get_out (i:=i) (j:=j) H) by lia; now destruct (memb i S && memb j S).
Qed.

Lemma induced_subgraph_square p S G : square p G -> square p (induced_subgraph S G).
Proof. intros (H & _). unfold induced_subgraph. rewrite H. apply mk_square. Qed.

Lemma induced_subgraph_edge p S G i j : square p G ->
  (edge (induced_subgraph S G) i j <-> edge G i j /\ In i S /\ In j S).
Proof.
  intros H. unfold edge. rewrite (induced_subgraph_get _ _ _ _ _ H).
  destruct (memb i S) eqn:E1, (memb j S) eqn:E2; simpl;
    rewrite ?memb_In, ?memb_notIn in E1; rewrite ?memb_In, ?memb_notIn in E2; tauto.
Qed.

(** ** degrees and moral_graph *)

Lemma sumZ_01 (l : list nat) (f : nat -> Z) (g : nat -> bool) :
  (forall x, In x l -> f x = if g x then 1%Z else 0%Z) ->
  sumZ (map f l) = Z.of_nat (length (filter g l)).
Proof.
  induction l as [|x l IH]; cbn [map sumZ fold_right filter]; intros H; auto.
  fold (sumZ (map f l)). rewrite IH by (intros; apply H; simpl; auto).
  rewrite (H x) by (simpl; auto). destruct (g x); cbn [length]; lia.
Qed.

Lemma degrees_spec p A : square p A -> nocancel A ->
  length (degrees A) = p /\
  forall j, j < p -> exists l, NoDup l /\ (forall i, In i l <-> adjacent A i j) /\
    nth j (degrees A) 0%Z = Z.of_nat (length l).
Proof.
  intros H NC. pose proof (skeleton_square _ _ H) as HS. split.
  - unfold degrees. now rewrite map_length, seq_length, (square_length HS).
  - intros j Hj. exists (where1 p (fun i => nz (get A i j + get A j i)%Z)). split; [apply NoDup_where1|].
    split.
    + intros i. rewrite where1_In, nz_true, nocancel_adj by auto. split; [tauto|].
      intros E. pose proof (adjacent_lt _ _ _ _ H E). tauto.
    + unfold degrees. rewrite (square_length HS), nth_map_seq by auto. unfold colsum.
      rewrite (square_length HS). apply sumZ_01. intros i Hi. apply (skeleton_get _ _ _ _ H).
Qed.

Lemma moral_fold p : forall (l : list (nat * nat * nat)) m, square p m ->
  (forall t, In t l -> let '(i, _, j) := t in i < p /\ j < p) ->
  square p (fold_left (fun m t => let '(i, _, j) := t in upd (upd m i j 1) j i 1) l m) /\
  forall a b, get (fold_left (fun m t => let '(i, _, j) := t in upd (upd m i j 1) j i 1) l m) a b
    = if existsb (fun t => let '(i, _, j) := t in ((a =? i) && (b =? j)) || ((a =? j) && (b =? i))) l
      then 1%Z else get m a b.
Proof.
  induction l as [|((i & c) & j) l IH]; intros m Hm Hl; [split; auto|].
  assert (i < p /\ j < p) as (Hi & Hj) by (apply (Hl (i, c, j)); simpl; auto).
  assert (H1 : square p (upd m i j 1)) by (now apply upd_square).
  assert (H2 : square p (upd (upd m i j 1) j i 1)) by (now apply upd_square).
  cbn [fold_left]. destruct (IH (upd (upd m i j 1) j i 1) H2) as (IH1 & IH2).
  - intros t Ht. apply Hl. simpl. auto.
  - split; auto. intros a b. rewrite IH2. cbn [existsb].
    destruct (existsb _ l); [now rewrite orb_true_r|]. rewrite orb_false_r.
    rewrite (get_upd _ _ _ H1), (get_upd _ _ _ Hm) by auto.
    destruct ((a =? i) && (b =? j)), ((a =? j) && (b =? i)); auto.
Qed.

Lemma moral_graph_spec (h : hord) p A : square p A -> nocancel A ->
  square p (moral_graph h A) /\ binary (moral_graph h A) /\
  (forall i j, get (moral_graph h A) i j = get (moral_graph h A) j i) /\
  forall i j, edge (moral_graph h A) i j <-> adjacent A i j \/ exists c, vstruct A i c j.
Proof.
  intros H NC. unfold moral_graph.
  destruct (moral_fold p (vstructures h A) (skeleton A) (skeleton_square _ _ H)) as (H1 & H2).
  { intros ((i & c) & j) Hin. apply (vstructures_In h p A i c j H) in Hin.
    destruct Hin as (_ & D1 & D2 & _).
    pose proof (edge_lt _ _ _ _ H (proj1 D1)). pose proof (edge_lt _ _ _ _ H (proj1 D2)). tauto. }
  assert (HX : forall a b, existsb (fun t => let '(i, _, j) := t in
      ((a =? i) && (b =? j)) || ((a =? j) && (b =? i))) (vstructures h A) = true
      <-> exists c, vstruct A a c b).
  { intros a b. rewrite existsb_exists. split.
    - intros (((i & c) & j) & Hin & E). apply (vstructures_In h p A i c j H) in Hin.
      exists c. rewrite orb_true_iff, !andb_true_iff, !Nat.eqb_eq in E.
      destruct E as [(-> & ->)|(-> & ->)]; [tauto | apply vstruct_sym; tauto].
    - intros (c & V). destruct (lt_eq_lt_dec a b) as [[L|E]|L].
      + exists (a, c, b). rewrite (vstructures_In h p A a c b H). split; auto.
        now rewrite !Nat.eqb_refl.
      + exfalso. unfold vstruct in V. tauto.
      + exists (b, c, a). rewrite (vstructures_In h p A b c a H). split.
        * split; auto. now apply vstruct_sym.
        * rewrite !Nat.eqb_refl. now rewrite orb_true_r. }
  split; [auto|]. split; [|split].
  - intros i j. rewrite H2. destruct (existsb _ _); auto. apply (skeleton_binary _ _ H).
  - intros i j. rewrite !H2, (skeleton_sym _ _ i j H).
    assert (forall a b, (exists c, vstruct A a c b) -> (exists c, vstruct A b c a)) as HV.
    { intros a b (c & V). exists c. now apply vstruct_sym. }
    destruct (existsb _ _) eqn:E1 at 1; destruct (existsb _ _) eqn:E2 at 1; auto.
    + apply HX, HV, HX in E1. congruence.
    + apply HX, HV, HX in E2. congruence.
  - intros i j. unfold edge. rewrite H2. rewrite <- HX, <- (skeleton_edge _ _ _ _ H NC).
    destruct (existsb _ _).
    + split; auto. intros _. lia.
    + destruct (skeleton_binary _ _ H i j) as [->| ->]; split; intros; auto; intuition; lia.
Qed.

(** ** Supergraphs *)

Lemma is_supergraph_spec p sup A : square p sup -> square p A -> binary A ->
  (is_supergraph sup A = true <-> forall i j, edge A i j -> edge sup i j).
Proof.
  intros HS HA B. unfold is_supergraph. rewrite forallb_forall, (square_length HA). split.
  - intros H i j E. pose proof (edge_lt _ _ _ _ HA E) as (Hi & Hj).
    specialize (H (i, j) (proj2 (pairs_In p i j) (conj Hi Hj))). simpl in H.
    apply Z.eqb_eq in H. unfold edge. destruct (nz (get sup i j)) eqn:E1; [now apply nz_true|].
    simpl in H. unfold edge in E. congruence.
  - intros H (i & j) Hin. apply Z.eqb_eq. destruct (B i j) as [E|E]; rewrite E.
    + now rewrite andb_false_r.
    + assert (nz (get sup i j) = true) as ->; [|auto]. apply nz_true, H. unfold edge. lia.
Qed.

Lemma binary_edge_eq p A B : square p A -> square p B -> binary A -> binary B ->
  (forall i j, edge A i j <-> edge B i j) -> A = B.
Proof.
  intros HA HB BA BB H. apply mat_ext with p; auto. intros i j _ _. specialize (H i j).
  unfold edge in H. destruct (BA i j) as [E|E], (BB i j) as [E'|E']; rewrite E, E' in *; auto;
    exfalso; intuition discriminate.
Qed.

Lemma to_factorization_spec (h : hord) p G : square p G -> nonneg G ->
  (~ acyclic G /\ to_factorization h G = Err ValueError) \/
  (acyclic G /\ exists f, to_factorization h G = Ok f /\ length f = p /\
     forall j, j < p -> NoDup (nth j f []) /\
       StronglySorted lt (nth j f []) /\ forall i, In i (nth j f []) <-> edge G i j).
Proof.
  intros HG NG. unfold to_factorization. destruct (acyclic_dec p G HG NG) as [A|A].
  - right. split; auto. rewrite (is_dag_true h p G HG NG A). simpl. eexists. split; [reflexivity|].
    rewrite map_length, seq_length, (square_length HG). split; auto. intros j Hj.
    rewrite nth_map_seq by auto. split; [apply pa_NoDup|]. split.
    + unfold pa, where1. generalize (fun j0 => nz (get G j0 j) && (get G j j0 =? 0)%Z).
      intros f. generalize 0. induction (length G) as [|n IH]; intros s; simpl; [constructor|].
      destruct (f s); auto. constructor; auto. apply Forall_forall. intros x Hx.
      apply filter_In in Hx. destruct Hx as (Hx & _). apply in_seq in Hx. lia.
    + intros i. rewrite (pa_In _ _ _ _ HG). now apply acyclic_dir.
  - left. split; auto. rewrite (is_dag_false h p G HG NG A). reflexivity.
Qed.

Lemma to_factorization_inj (h : hord) p G G' : dag01 p G -> dag01 p G' ->
  to_factorization h G = to_factorization h G' -> G = G'.
Proof.
  intros (S1 & B1 & A1) (S2 & B2 & A2) E.
  destruct (to_factorization_spec h p G S1 (binary_nonneg B1)) as [(N & _)|(_ & f & E1 & L1 & F1)];
    [contradiction|].
  destruct (to_factorization_spec h p G' S2 (binary_nonneg B2)) as [(N & _)|(_ & f' & E2 & L2 & F2)];
    [contradiction|].
  assert (f = f') by congruence. subst f'.
  apply binary_edge_eq with p; auto. intros i j. destruct (lt_dec j p) as [Hj|Hj].
  - rewrite <- (proj2 (proj2 (F1 j Hj))), <- (proj2 (proj2 (F2 j Hj))). tauto.
  - split; intros H; exfalso; [apply (edge_lt _ _ _ _ S1) in H | apply (edge_lt _ _ _ _ S2) in H]; lia.
Qed.
