(** order_edges. *)
From Coq Require Import List Arith ZArith Lia Bool Permutation Sorted Relations.
Import ListNotations.
From Verif Require Import Base GraphModel GraphSpec TopoProofs BasicProofs SortProofs.

(** The order of the labels: decreasing position of the head, then increasing position of the tail. *)
Definition klt (order : list nat) (a b c d : nat) : Prop :=
  pos order d < pos order b \/ (b = d /\ pos order a < pos order c).

Definition edges_of (p : nat) (G : mat) : list (nat * nat) := where2 p (fun i j => nz (get G i j)).

Lemma edges_of_In p G i j : square p G -> (In (i, j) (edges_of p G) <-> edge G i j).
Proof.
  intros H. unfold edges_of. rewrite where2_In, nz_true. unfold edge. split; [tauto|].
  intros E. pose proof (get_lt H E). tauto.
Qed.

Section Order.
  Variables (p : nat) (G : mat) (order : list nat).
  Hypothesis HG : square p G.
  Hypothesis HT : topo_order p G order.

  Let ND : NoDup order.
  Proof. eapply Permutation_NoDup; [apply Permutation_sym, HT | apply seq_NoDup]. Qed.
  Let Len : length order = p.
  Proof. rewrite (Permutation_length (proj1 HT)). apply seq_length. Qed.
  Let Inn : forall v, v < p -> In v order.
  Proof. intros v Hv. eapply Permutation_in; [apply Permutation_sym, HT | now apply in_seq0]. Qed.

  Lemma edge_pos a b : edge G a b -> pos order a < pos order b.
  Proof. intros E. apply (proj2 HT) in E. now apply precedes_pos in E. Qed.

  Lemma klt_total a b c d : edge G a b -> edge G c d -> (a = c /\ b = d) \/ klt order a b c d \/ klt order c d a b.
  Proof.
    intros E1 E2. pose proof (edge_lt _ _ _ _ HG E1) as (Ha & Hb).
    pose proof (edge_lt _ _ _ _ HG E2) as (Hc & Hd). unfold klt.
    destruct (lt_eq_lt_dec (pos order b) (pos order d)) as [[L|E]|L]; auto.
    assert (b = d) by (eapply pos_inj; eauto). subst d.
    destruct (lt_eq_lt_dec (pos order a) (pos order c)) as [[L'|E']|L']; auto.
    assert (a = c) by (eapply pos_inj; eauto). auto.
  Qed.

  Lemma klt_asym a b c d : klt order a b c d -> ~ klt order c d a b.
  Proof. unfold klt. intros [?|(-> & ?)] [?|(? & ?)]; subst; lia. Qed.

  Definition unl (O : mat) : list (nat * nat) := where2 p (fun a b => (get O a b =? -1)%Z).

  Record oinv (O : mat) (i : Z) : Prop := {
    o_sq : square p O;
    o_edge : forall a b, edge O a b <-> edge G a b;
    o_rng : forall a b, edge G a b -> get O a b = (-1)%Z \/ (1 <= get O a b < i)%Z;
    o_lab : forall a b c d, edge G a b -> edge G c d -> get O a b <> (-1)%Z -> get O c d <> (-1)%Z ->
              ((get O a b < get O c d)%Z <-> klt order a b c d);
    o_unl : forall a b c d, edge G a b -> edge G c d -> get O a b <> (-1)%Z -> get O c d = (-1)%Z ->
              klt order a b c d;
    o_cnt : (i + Z.of_nat (length (unl O)) = 1 + Z.of_nat (length (edges_of p G)))%Z
  }.

  Lemma unl_In O a b : square p O -> (In (a, b) (unl O) <-> get O a b = (-1)%Z).
  Proof.
    intros H. unfold unl. rewrite where2_In, Z.eqb_eq. split; [tauto|].
    intros E. assert (get O a b <> 0%Z) as N by lia. pose proof (get_lt H N). tauto.
  Qed.

  Lemma unl_upd O x y i : square p O -> get O x y = (-1)%Z -> (0 < i)%Z ->
    length (unl O) = S (length (unl (upd O x y i))).
  Proof.
    intros H E Hi. assert (get O x y <> 0%Z) as N by lia. pose proof (get_lt H N) as (Hx & Hy).
    pose proof (upd_square x y i H) as H'.
    assert (Permutation (unl O) ((x, y) :: unl (upd O x y i))) as HP.
    { apply NoDup_Permutation.
      - apply NoDup_where2.
      - constructor; [|apply NoDup_where2]. rewrite (unl_In _ _ _ H'), (get_upd_same _ H) by auto. lia.
      - intros (a & b). simpl. rewrite (unl_In _ _ _ H), (unl_In _ _ _ H'), (get_upd _ _ _ H) by auto.
        destruct (Nat.eqb_spec a x) as [->|Na], (Nat.eqb_spec b y) as [->|Nb]; simpl; split; auto;
          intros [Q|Q]; auto; try (inversion Q; subst; congruence). }
    now rewrite (Permutation_length HP).
  Qed.

  Lemma oe_loop_spec : forall fuel O i, oinv O i -> (1 <= i)%Z -> length (unl O) <= fuel ->
    exists O' i', oe_loop fuel order O i = Ok O' /\ oinv O' i' /\ unl O' = [].
  Proof.
    induction fuel as [|f IH]; intros O i HI Hi HF.
    - assert (unl O = []) as E by (destruct (unl O); [auto | simpl in HF; lia]).
      exists O, i. split; [|split]; auto. simpl. rewrite (square_length (o_sq _ _ HI)).
      fold (unl O). now rewrite E.
    - cbn [oe_loop]. rewrite (square_length (o_sq _ _ HI)). fold (unl O).
      destruct (unl O) as [|e l] eqn:EU.
      + exists O, i. auto.
      + rewrite <- EU. pose proof HI as [Hsq Hedge Hrng Hlab Hunl Hcnt].
        set (wu := filter (fun v => existsb (fun e => (v =? fst e) || (v =? snd e)) (unl O)) (seq 0 p)).
        assert (Hwu : forall v, In v wu <-> exists a b, get O a b = (-1)%Z /\ (v = a \/ v = b)).
        { intros v. unfold wu. rewrite filter_In, in_seq0, existsb_exists. split.
          - intros (Hv & (a & b) & Hin & E). simpl in E. rewrite (unl_In _ _ _ Hsq) in Hin.
            rewrite orb_true_iff, !Nat.eqb_eq in E. eauto.
          - intros (a & b & E & Hv). assert (get O a b <> 0%Z) as N by lia.
            pose proof (get_lt Hsq N). split; [destruct Hv; subst; tauto|].
            exists (a, b). rewrite (unl_In _ _ _ Hsq). simpl. rewrite orb_true_iff, !Nat.eqb_eq. auto. }
        assert (Hedge1 : forall a b, get O a b = (-1)%Z -> edge G a b).
        { intros a b E. apply Hedge. unfold edge. lia. }
        destruct (sort_by_head (rev order) wu) as (y & R & EY & Hy & Hymin).
        { intros v Hv. rewrite rev_length, Len. apply Hwu in Hv. destruct Hv as (a & b & E & Hv).
          apply Hedge1 in E. pose proof (edge_lt _ _ _ _ HG E). destruct Hv; subst; tauto. }
        { assert (In e (unl O)) as Hin by (rewrite EU; simpl; auto).
          destruct e as (a & b). apply (unl_In _ _ _ Hsq) in Hin. intros EW.
          assert (In a wu) as Ha by (apply Hwu; eauto). now rewrite EW in Ha. }
        rewrite EY. cbn [bind head].
        assert (Hwup : forall v, In v wu -> v < p).
        { intros v Hv. unfold wu in Hv. apply filter_In in Hv. now apply in_seq0. }
        assert (Hymax : forall v, In v wu -> pos order v <= pos order y).
        { intros v Hv. pose proof (Hymin v Hv) as L. rewrite !pos_rev in L by auto.
          pose proof (pos_lt order v ND (Inn v (Hwup v Hv))).
          pose proof (pos_lt order y ND (Inn y (Hwup y Hy))). lia. }
        set (up := where1 p (fun a => (get O a y =? -1)%Z)).
        assert (Hup : forall a, In a up <-> get O a y = (-1)%Z).
        { intros a. unfold up. rewrite where1_In, Z.eqb_eq. split; [tauto|].
          intros E. apply Hedge1 in E as E'. pose proof (edge_lt _ _ _ _ HG E'). tauto. }
        destruct (sort_by_head order up) as (x & R' & EX & Hx & Hxmin).
        { intros v Hv. rewrite Len. unfold up in Hv. rewrite where1_In in Hv. tauto. }
        { intros EUP. apply Hwu in Hy as Hy'. destruct Hy' as (a & b & E & [->| ->]).
          - pose proof (edge_pos _ _ (Hedge1 _ _ E)).
            assert (In b wu) as Hb by (apply Hwu; eauto). specialize (Hymax b Hb). lia.
          - assert (In a up) as Ha by (apply Hup; auto). now rewrite EUP in Ha. }
        rewrite EX. cbn [bind head].
        apply Hup in Hx. assert (Exy := Hedge1 _ _ Hx).
        pose proof (edge_lt _ _ _ _ HG Exy) as (Lx & Ly).
        assert (Hmin : forall c d, get O c d = (-1)%Z -> (c = x /\ d = y) \/ klt order x y c d).
        { intros c d E. assert (Ecd := Hedge1 _ _ E). pose proof (edge_lt _ _ _ _ HG Ecd) as (Lc & Ld).
          assert (In d wu) as Hd by (apply Hwu; eauto). pose proof (Hymax d Hd) as L.
          unfold klt. destruct (Nat.eq_dec (pos order d) (pos order y)) as [E'|N]; [|right; left; lia].
          assert (d = y) by (eapply pos_inj; eauto). subst d.
          pose proof (Hxmin c (proj2 (Hup c) E)).
          destruct (Nat.eq_dec (pos order c) (pos order x)) as [E''|N']; [|right; right; split; auto; lia].
          left. split; auto. eapply pos_inj; eauto. }
        assert (HI' : oinv (upd O x y i) (i + 1)).
        { assert (Hget : forall a b, get (upd O x y i) a b = if (a =? x) && (b =? y) then i else get O a b)
            by (intros; apply (get_upd _ _ _ Hsq); auto).
          constructor.
          - now apply upd_square.
          - intros a b. rewrite <- Hedge. unfold edge. rewrite Hget.
            destruct (Nat.eqb_spec a x) as [->|Na], (Nat.eqb_spec b y) as [->|Nb]; simpl; try tauto.
            rewrite Hx. lia.
          - intros a b E. rewrite Hget. destruct ((a =? x) && (b =? y)); [lia|].
            destruct (Hrng a b E); lia.
          - intros a b c d E1 E2. rewrite !Hget.
            destruct ((a =? x) && (b =? y)) eqn:Q1, ((c =? x) && (d =? y)) eqn:Q2; intros N1 N2.
            + rewrite andb_true_iff, !Nat.eqb_eq in Q1, Q2. destruct Q1, Q2; subst.
              split; [lia|]. intros K. exfalso. now apply (klt_asym _ _ _ _ K).
            + rewrite andb_true_iff, !Nat.eqb_eq in Q1. destruct Q1; subst.
              destruct (Hrng c d E2) as [?|HR]; [contradiction|].
              split; [lia|]. intros K. exfalso. apply (klt_asym _ _ _ _ K). now apply Hunl.
            + rewrite andb_true_iff, !Nat.eqb_eq in Q2. destruct Q2; subst.
              destruct (Hrng a b E1) as [?|HR]; [contradiction|].
              split; [|lia]. intros _. now apply Hunl.
            + now apply Hlab.
          - intros a b c d E1 E2. rewrite !Hget.
            destruct ((c =? x) && (d =? y)) eqn:Q2; intros N1 N2; [lia|].
            destruct ((a =? x) && (b =? y)) eqn:Q1.
            + rewrite andb_true_iff, !Nat.eqb_eq in Q1. destruct Q1; subst.
              destruct (Hmin c d N2) as [(-> & ->)|?]; auto. now rewrite !Nat.eqb_refl in Q2.
            + now apply Hunl.
          - pose proof (unl_upd O x y i Hsq Hx) as HU. rewrite HU in Hcnt by lia. lia. }
        apply IH; auto; [lia|]. rewrite <- EU, (unl_upd O x y i Hsq Hx) in HF by lia. lia.
  Qed.
End Order.

Lemma order_edges_spec (h : hord) p G : square p G -> nonneg G -> acyclic G ->
  exists order O, topological_ordering h G = Ok order /\ topo_order p G order /\
    order_edges h G = Ok O /\ square p O /\
    (forall a b, edge O a b <-> edge G a b) /\
    (forall a b, edge G a b -> (1 <= get O a b <= Z.of_nat (length (edges_of p G)))%Z) /\
    (forall a b c d, edge G a b -> edge G c d -> ((get O a b < get O c d)%Z <-> klt order a b c d)).
Proof.
  intros HG Hn HA. destruct (topological_ordering_ok h p G HG Hn HA) as (order & E & HT).
  exists order. unfold order_edges. rewrite (is_dag_true h p G HG Hn HA). cbn [bind negb].
  rewrite E. cbn [bind]. rewrite (square_length HG).
  set (O0 := mk p (fun i j => if nz (get G i j) then (-1)%Z else 0%Z)).
  assert (Hget : forall a b, get O0 a b = if nz (get G a b) then (-1)%Z else 0%Z).
  { intros a b. unfold O0. rewrite get_mk'.
    destruct (Nat.ltb_spec a p), (Nat.ltb_spec b p); simpl; auto;
      rewrite (get_out (i:=a) (j:=b) HG) by lia; reflexivity. }
  assert (HS0 : square p O0) by apply mk_square.
  assert (HU0 : unl p O0 = edges_of p G).
  { unfold unl, edges_of, where2. apply filter_ext. intros (a & b). simpl. rewrite Hget.
    destruct (nz (get G a b)); auto. }
  assert (H0 : oinv p G order O0 1).
  { constructor; auto.
    - intros a b. unfold edge. rewrite Hget. destruct (nz (get G a b)) eqn:Q;
        rewrite ?nz_true, ?nz_false in Q; split; intros; auto; lia.
    - intros a b Q. left. rewrite Hget. assert (nz (get G a b) = true) as -> by (now apply nz_true). auto.
    - intros a b c d Q1 _ N. exfalso. apply N. rewrite Hget.
      assert (nz (get G a b) = true) as -> by (now apply nz_true). auto.
    - intros a b c d Q1 _ N. exfalso. apply N. rewrite Hget.
      assert (nz (get G a b) = true) as -> by (now apply nz_true). auto.
    - rewrite HU0. lia. }
  destruct (oe_loop_spec p G order HG HT (p * p) O0 1 H0) as (O & i & EO & HI & HU); [lia| |].
  { rewrite HU0. unfold edges_of. transitivity (nnz G).
    - unfold nnz. rewrite (square_length HG). auto.
    - now apply nnz_le. }
  exists O. split; auto. split; auto. split; auto. destruct HI as [S1 S2 S3 S4 S5 S6].
  assert (HN : forall a b, get O a b <> (-1)%Z).
  { intros a b Q. assert (In (a, b) (unl p O)) as Hin by (eapply unl_In; eauto). now rewrite HU in Hin. }
  split; auto. split; auto. split.
  - intros a b Q. rewrite HU in S6. cbn [length] in S6. destruct (S3 a b Q) as [F|F]; [now apply HN in F|]. lia.
  - intros. apply S4; auto.
Qed.

Lemma order_edges_err (h : hord) p G : square p G -> nonneg G -> ~ acyclic G ->
  order_edges h G = Err ValueError.
Proof. intros HG Hn HA. unfold order_edges. now rewrite (is_dag_false h p G HG Hn HA). Qed.

Lemma NoDup_map_inj_in (A B : Type) (f : A -> B) l :
  (forall x y, In x l -> In y l -> f x = f y -> x = y) -> NoDup l -> NoDup (map f l).
Proof.
  induction l as [|a l IH]; simpl; intros H ND; constructor; inversion ND; subst.
  - intros Hin. apply in_map_iff in Hin. destruct Hin as (y & E & Hy).
    assert (y = a) by (apply H; auto). now subst.
  - apply IH; auto.
Qed.

(** The labels are 1..m, each once. *)
Lemma labels_perm p G order O : square p G -> topo_order p G order -> square p O ->
  (forall a b, edge O a b <-> edge G a b) ->
  (forall a b, edge G a b -> (1 <= get O a b <= Z.of_nat (length (edges_of p G)))%Z) ->
  (forall a b c d, edge G a b -> edge G c d -> ((get O a b < get O c d)%Z <-> klt order a b c d)) ->
  Permutation (map (fun e => get O (fst e) (snd e)) (edges_of p O))
              (map Z.of_nat (seq 1 (length (edges_of p O)))).
Proof.
  intros HG HT HO HE HR HL.
  assert (EQ : edges_of p O = edges_of p G).
  { unfold edges_of, where2. apply filter_ext. intros (a & b). simpl.
    destruct (nz (get O a b)) eqn:Q1, (nz (get G a b)) eqn:Q2; auto;
      rewrite ?nz_true, ?nz_false in Q1; rewrite ?nz_true, ?nz_false in Q2; exfalso;
      specialize (HE a b); unfold edge in HE; tauto. }
  rewrite EQ. apply NoDup_Permutation_bis.
  - apply NoDup_map_inj_in; [|apply NoDup_where2]. intros (a & b) (c & d) H1 H2 E. simpl in E.
    apply edges_of_In in H1, H2; auto.
    destruct (klt_total p G order HG HT a b c d H1 H2) as [(-> & ->)|[K|K]]; auto;
      apply HL in K; auto; lia.
  - rewrite !map_length, seq_length. auto.
  - intros z Hz. apply in_map_iff in Hz. destruct Hz as ((a & b) & <- & Hin).
    apply edges_of_In in Hin; auto. specialize (HR a b Hin). simpl.
    apply in_map_iff. exists (Z.to_nat (get O a b)). rewrite in_seq. lia.
Qed.

Lemma seq_sorted m : StronglySorted (fun a b => (a <=? b)%Z = true) (map Z.of_nat (seq 1 m)).
Proof.
  generalize 1. induction m as [|m IH]; intros s; simpl; constructor; auto.
  rewrite Forall_forall. intros x Hx. apply in_map_iff in Hx. destruct Hx as (n & <- & Hn).
  apply in_seq in Hn. apply Z.leb_le. lia.
Qed.

Lemma isort_labels l m : Permutation l (map Z.of_nat (seq 1 m)) ->
  isort Z.leb l = map Z.of_nat (seq 1 m).
Proof.
  intros H. assert (T : forall a b, (a <=? b)%Z = true \/ (b <=? a)%Z = true)
    by (intros; rewrite !Z.leb_le; lia).
  assert (Tr : forall a b c, (a <=? b)%Z = true -> (b <=? c)%Z = true -> (a <=? c)%Z = true)
    by (intros a b c; rewrite !Z.leb_le; lia).
  apply (sorted_perm_eq Z.leb).
  - intros a b. rewrite !Z.leb_le. lia.
  - apply isort_sorted; auto.
  - apply seq_sorted.
  - rewrite isort_perm. auto.
Qed.

Lemma listZ_eqb_eq a b : listZ_eqb a b = true <-> a = b.
Proof.
  revert b. induction a as [|x a IH]; intros [|y b]; simpl; split; intros H; auto; try discriminate.
  - apply andb_true_iff in H. destruct H as (H1 & H2). apply Z.eqb_eq in H1. apply IH in H2. congruence.
  - inversion H; subst. rewrite Z.eqb_refl. simpl. now apply IH.
Qed.
