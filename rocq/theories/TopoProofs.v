(** Lemmas on node sets, topological_ordering and is_dag. *)
From Coq Require Import List Arith ZArith Lia Bool Permutation Relations.
Import ListNotations.
From Verif Require Import Base GraphModel GraphSpec.

(** ** Decidability of the specification *)

Lemma edge_dec A i j : {edge A i j} + {~ edge A i j}.
Proof. unfold edge. destruct (Z.eq_dec (get A i j) 0); [right | left]; auto. Qed.

Lemma adjacent_dec A i j : {adjacent A i j} + {~ adjacent A i j}.
Proof.
  unfold adjacent. destruct (edge_dec A i j), (edge_dec A j i); [left|left|left|right]; tauto.
Qed.

Lemma edge_lt p A i j : square p A -> edge A i j -> i < p /\ j < p.
Proof. intros H. apply (get_lt H). Qed.

Lemma adjacent_sym A i j : adjacent A i j -> adjacent A j i.
Proof. unfold adjacent. tauto. Qed.

Lemma adjacent_lt p A i j : square p A -> adjacent A i j -> i < p /\ j < p.
Proof. intros H [E|E]; apply (edge_lt _ _ _ _ H) in E; tauto. Qed.

Lemma acyclic_loopless A : acyclic A -> loopless A.
Proof. intros H i E. apply (H i). now apply t_step. Qed.

Lemma acyclic_asym A i j : acyclic A -> edge A i j -> ~ edge A j i.
Proof. intros H E1 E2. apply (H i). eapply t_trans; apply t_step; eauto. Qed.

Lemma acyclic_dir A i j : acyclic A -> (dir A i j <-> edge A i j).
Proof.
  intros H. unfold dir. split; [tauto|]. intros E. split; auto. now apply acyclic_asym.
Qed.

(** ** Node sets *)

Ltac bsolve := repeat rewrite ?andb_true_iff, ?orb_true_iff, ?nz_true, ?Z.eqb_eq, ?negb_true_iff.

Lemma eqz_nedge A i j : (get A i j = 0%Z) <-> ~ edge A i j.
Proof. unfold edge. destruct (Z.eq_dec (get A i j) 0); tauto. Qed.

Lemma neighbors_In p A i j : square p A -> (In j (neighbors i A) <-> und A i j).
Proof.
  intros H. unfold neighbors. rewrite where1_In, (square_length H). bsolve. unfold und, edge.
  split; [tauto|]. intros (E1 & E2). pose proof (edge_lt _ _ _ _ H E1). tauto.
Qed.

Lemma adj_In p A i j : square p A -> (In j (adj i A) <-> adjacent A i j).
Proof.
  intros H. unfold adj. rewrite where1_In, (square_length H). bsolve. unfold adjacent, edge.
  split; [tauto|]. intros E. pose proof (adjacent_lt _ _ _ _ H E). tauto.
Qed.

Lemma pa_In p A i j : square p A -> (In j (pa i A) <-> dir A j i).
Proof.
  intros H. unfold pa. rewrite where1_In, (square_length H). bsolve.
  unfold dir, edge. split.
  - intros (H1 & H2 & H3). split; auto.
  - intros (E1 & E2). pose proof (get_lt H E1).
    destruct (Z.eq_dec (get A i j) 0), (Z.eq_dec (get A j i) 0); tauto.
Qed.

Lemma ch_In p A i j : square p A -> (In j (ch i A) <-> dir A i j).
Proof.
  intros H. unfold ch. rewrite where1_In, (square_length H). bsolve.
  unfold dir, edge. split.
  - intros (H1 & H2 & H3). split; auto.
  - intros (E1 & E2). pose proof (get_lt H E1).
    destruct (Z.eq_dec (get A i j) 0), (Z.eq_dec (get A j i) 0); tauto.
Qed.

Lemma neighbors_NoDup i A : NoDup (neighbors i A). Proof. apply NoDup_where1. Qed.
Lemma adj_NoDup i A : NoDup (adj i A). Proof. apply NoDup_where1. Qed.
Lemma pa_NoDup i A : NoDup (pa i A). Proof. apply NoDup_where1. Qed.
Lemma ch_NoDup i A : NoDup (ch i A). Proof. apply NoDup_where1. Qed.

(** ** Cycles by pigeonhole *)

Lemma clos_trans_edge_mono A B i j :
  (forall a b, edge A a b -> edge B a b) -> clos_trans nat (edge A) i j -> clos_trans nat (edge B) i j.
Proof.
  intros H T. induction T; [apply t_step; auto | eapply t_trans; eauto].
Qed.

Lemma acyclic_sub A B : (forall a b, edge A a b -> edge B a b) -> acyclic B -> acyclic A.
Proof. intros H HB i T. apply (HB i). eapply clos_trans_edge_mono; eauto. Qed.

(** A backward walk v_n -> ... -> v_0 that never ends, inside a finite set, has a repetition. *)
Lemma walk_cycle (R : nat -> nat -> Prop) (S : nat -> Prop) p :
  (forall v, S v -> v < p) ->
  (forall v, S v -> exists u, S u /\ R u v) ->
  forall v, S v -> exists u, clos_trans nat R u u.
Proof.
  intros Hp Hpar.
  assert (W : forall n l v, S v -> NoDup (v :: l) -> (forall u, In u (v :: l) -> S u) ->
             (forall u, In u l -> clos_trans nat R v u) ->
             p <= n + length (v :: l) -> exists u, clos_trans nat R u u).
  { induction n; intros l v Hv ND HS HT HL.
    - destruct (Hpar v Hv) as (u & Hu & Ruv).
      destruct (in_dec Nat.eq_dec u (v :: l)) as [[->|Hi]|Hi].
      + exists u. now apply t_step.
      + exists u. eapply t_trans; [apply t_step; eauto | auto].
      + exfalso. assert (length (u :: v :: l) <= length (seq 0 p)).
        { apply NoDup_incl_length; [constructor; auto|]. intros w [<-|Hw]; apply in_seq0; auto. }
        rewrite seq_length in H. simpl in *. lia.
    - destruct (Hpar v Hv) as (u & Hu & Ruv).
      destruct (in_dec Nat.eq_dec u (v :: l)) as [[->|Hi]|Hi].
      + exists u. now apply t_step.
      + exists u. eapply t_trans; [apply t_step; eauto | auto].
      + apply (IHn (v :: l) u); auto.
        * constructor; auto.
        * intros w [<-|Hw]; auto.
        * intros w [<-|Hw]; [now apply t_step | eapply t_trans; [apply t_step; eauto | auto]].
        * simpl in *. lia. }
  intros v Hv. apply (W p [] v); auto.
  - constructor; auto using NoDup_nil.
  - intros u [<-|[]]; auto.
  - intros u [].
  - lia.
Qed.

(** ** precedes *)

Lemma precedes_In l i j : precedes l i j -> In i l /\ In j l.
Proof.
  intros (a & b & c & ->). split; apply in_or_app; right; simpl; auto. right. apply in_or_app. simpl. auto.
Qed.

Lemma precedes_snoc l j i : In i l -> precedes (l ++ [j]) i j.
Proof.
  intros H. apply in_split in H. destruct H as (a & b & ->). exists a, b, [].
  rewrite <- app_assoc. reflexivity.
Qed.

Lemma precedes_app l m i j : precedes l i j -> precedes (l ++ m) i j.
Proof.
  intros (a & b & c & ->). exists a, b, (c ++ m). rewrite <- !app_assoc. simpl.
  rewrite <- app_assoc. reflexivity.
Qed.

Lemma precedes_irrefl l i : NoDup l -> ~ precedes l i i.
Proof.
  intros H (a & b & c & ->). apply NoDup_remove_2 in H. apply H.
  rewrite !in_app_iff. simpl. tauto.
Qed.

Lemma precedes_cons x l i j : precedes (x :: l) i j <-> (i = x /\ In j l) \/ precedes l i j.
Proof.
  split.
  - intros (a & b & c & E). destruct a as [|y a]; simpl in E; inversion E; subst.
    + left. split; auto. rewrite in_app_iff. simpl. auto.
    + right. exists a, b, c. reflexivity.
  - intros [(-> & H)|(a & b & c & ->)].
    + apply in_split in H. destruct H as (b & c & ->). exists [], b, c. reflexivity.
    + exists (x :: a), b, c. reflexivity.
Qed.

Lemma precedes_trans l i j k : NoDup l -> precedes l i j -> precedes l j k -> precedes l i k.
Proof.
  induction l as [|x l IH]; intros ND H1 H2.
  - destruct H1 as (a & b & c & E). destruct a; discriminate.
  - inversion ND; subst. rewrite precedes_cons in *.
    destruct H1 as [(-> & H1)|H1], H2 as [(-> & H2)|H2].
    + tauto.
    + left. split; auto. now apply (precedes_In _ _ _ H2).
    + exfalso. apply H3. now apply (precedes_In _ _ _ H1).
    + right. eauto.
Qed.

Lemma precedes_total l i j : In i l -> In j l -> i = j \/ precedes l i j \/ precedes l j i.
Proof.
  induction l as [|x l IH]; intros H1 H2; [easy|]. rewrite !precedes_cons.
  destruct H1 as [->|H1], H2 as [->|H2]; auto. destruct (IH H1 H2) as [?|[?|?]]; auto.
Qed.

Lemma precedes_asym l i j : NoDup l -> precedes l i j -> ~ precedes l j i.
Proof. intros ND H1 H2. apply (precedes_irrefl l i ND). eapply precedes_trans; eauto. Qed.

Lemma topo_order_acyclic p A l : topo_order p A l -> acyclic A.
Proof.
  intros (HP & HE) i T.
  assert (ND : NoDup l) by (eapply Permutation_NoDup; [apply Permutation_sym, HP | apply seq_NoDup]).
  assert (forall a b, clos_trans nat (edge A) a b -> precedes l a b) as H.
  { intros a b T'. induction T'; auto. eapply precedes_trans; eauto. }
  apply (precedes_irrefl l i ND). auto.
Qed.

(** ** Kahn's algorithm *)

(** Number of non-zero entries: used in the termination measure. *)
Definition nnz (A : mat) : nat := length (where2 (length A) (fun i j => nz (get A i j))).

Lemma nnz_le p A : square p A -> nnz A <= p * p.
Proof.
  intros H. unfold nnz. rewrite (square_length H). unfold where2.
  transitivity (length (pairs p)).
  - apply NoDup_incl_length; [apply NoDup_filter, NoDup_pairs|]. intros e He. apply filter_In in He. tauto.
  - unfold pairs. rewrite prod_length, seq_length. lia.
Qed.

Lemma nnz_upd0 p A i j : square p A -> edge A i j -> nnz A = S (nnz (upd A i j 0)).
Proof.
  intros H E. pose proof (edge_lt _ _ _ _ H E) as (Hi & Hj). unfold nnz.
  rewrite upd_length, (square_length H).
  set (l1 := where2 p (fun i0 j0 => nz (get A i0 j0))).
  set (l2 := where2 p (fun i0 j0 => nz (get (upd A i j 0) i0 j0))).
  assert (Permutation l1 ((i, j) :: l2)) as HP.
  { apply NoDup_Permutation.
    - apply NoDup_where2.
    - constructor; [|apply NoDup_where2]. unfold l2. rewrite where2_In.
      rewrite (get_upd_same _ H) by auto. simpl. intros (_ & _ & F). discriminate.
    - intros [a b]. unfold l1, l2. simpl. rewrite !where2_In, !nz_true.
      rewrite (get_upd _ _ _ H) by auto.
      destruct (Nat.eqb_spec a i) as [->|Na], (Nat.eqb_spec b j) as [->|Nb]; simpl;
        (split; [intros (H1 & H2 & H3); auto
                | intros [Q|Q]; [inversion Q; subst; tauto || (split; [|split]; auto)
                                | try tauto]]); exfalso; tauto. }
  now rewrite (Permutation_length HP).
Qed.

(** Termination, for every matrix. *)
Lemma topo_children_measure p i js : forall A s, square p A -> NoDup js ->
  (forall j, In j js -> edge A i j) ->
  let '(A', s') := topo_children i js A s in
  square p A' /\ length s' + nnz A' <= length s + nnz A.
Proof.
  induction js as [|j js IH]; intros A s HA ND HE; simpl; [split; auto|].
  inversion ND; subst.
  assert (E : edge A i j) by (apply HE; simpl; auto).
  pose proof (edge_lt _ _ _ _ HA E) as (Hi & Hj).
  specialize (IH (upd A i j 0) (match pa j (upd A i j 0) with [] => j :: s | _ => s end)).
  destruct (topo_children i js (upd A i j 0) _) as (A', s') eqn:EQ.
  destruct IH as (H3 & H4).
  - now apply upd_square.
  - auto.
  - intros k Hk. unfold edge. rewrite (get_upd_other _ HA) by (auto; intros (_ & ->); auto).
    apply HE. simpl. auto.
  - split; auto. rewrite (nnz_upd0 _ _ _ _ HA E).
    destruct (pa j (upd A i j 0)); simpl in *; lia.
Qed.

Lemma topo_loop_terminates (h : hord) p : forall fuel A s ord, square p A ->
  length s + nnz A < fuel -> topo_loop h fuel A s ord <> Err OutOfFuel.
Proof.
  induction fuel as [|f IH]; intros A s ord HA HF; [lia|].
  cbn [topo_loop]. destruct s as [|i s].
  - destruct (0 <? msum A)%Z; discriminate.
  - pose proof (topo_children_measure p i (h (S f) (ch i A)) A s HA) as H.
    destruct (topo_children i (h (S f) (ch i A)) A s) as (A', s') eqn:EQ.
    destruct H as (H1 & H2).
    + apply ho_NoDup, ch_NoDup.
    + intros j Hj. rewrite ho_In, (ch_In _ _ _ _ HA) in Hj. apply Hj.
    + apply IH; auto. simpl in HF. lia.
Qed.

Lemma where1_length p f : length (where1 p f) <= p.
Proof.
  transitivity (length (seq 0 p)); [|now rewrite seq_length].
  apply NoDup_incl_length; [apply NoDup_where1|]. intros x Hx. apply filter_In in Hx. tauto.
Qed.

Lemma topological_ordering_terminates (h : hord) p A : square p A ->
  topological_ordering h A <> Err OutOfFuel.
Proof.
  intros HA. unfold topological_ordering.
  destruct (0 <? msum (only_undirected A))%Z; [discriminate|].
  apply topo_loop_terminates with p; auto. rewrite rev_length, (square_length HA).
  pose proof (where1_length p (fun j => (colsum A j =? 0)%Z)). pose proof (nnz_le _ _ HA). lia.
Qed.

(** Only ValueError is ever raised. *)
Lemma topo_loop_err (h : hord) : forall fuel A s ord e,
  topo_loop h fuel A s ord = Err e -> e = ValueError \/ e = OutOfFuel.
Proof.
  induction fuel as [|f IH]; intros A s ord e; cbn [topo_loop].
  - intros E; inversion E; auto.
  - destruct s.
    + destruct (0 <? msum A)%Z; intros E; inversion E; auto.
    + destruct (topo_children _ _ _ _). apply IH.
Qed.

Lemma topological_ordering_res (h : hord) p A : square p A ->
  (exists l, topological_ordering h A = Ok l) \/ topological_ordering h A = Err ValueError.
Proof.
  intros HA. pose proof (topological_ordering_terminates h p A HA) as H.
  destruct (topological_ordering h A) as [l|e] eqn:E; [eauto|]. right.
  unfold topological_ordering in E. destruct (0 <? msum (only_undirected A))%Z; [auto|].
  apply topo_loop_err in E. destruct E; subst; congruence.
Qed.

(** The invariant.  A0 is the input, [done] the processed nodes. *)
Record kinv (p : nat) (A0 A : mat) (s done : list nat) : Prop := {
  k_sq : square p A;
  k_nn : nonneg A;
  k_edge : forall i j, edge A i j <-> edge A0 i j /\ ~ In i done;
  k_nd : NoDup (s ++ done);
  k_lt : forall v, In v (s ++ done) -> v < p;
  k_ready : forall j, j < p -> (In j (s ++ done) <-> forall i, edge A0 i j -> In i done)
}.

Lemma get_upd0_edge p A i j a b : square p A -> i < p -> j < p ->
  (edge (upd A i j 0) a b <-> edge A a b /\ ~ (a = i /\ b = j)).
Proof.
  intros H Hi Hj. unfold edge. rewrite (get_upd _ _ _ H) by auto.
  destruct (Nat.eqb_spec a i), (Nat.eqb_spec b j); simpl; subst; split; intros; try tauto;
    try (destruct H0; auto); split; auto; lia.
Qed.

Lemma upd0_nonneg p A i j : square p A -> i < p -> j < p -> nonneg A -> nonneg (upd A i j 0).
Proof.
  intros H Hi Hj Hn a b. rewrite (get_upd _ _ _ H) by auto.
  destruct ((a =? i) && (b =? j)); [lia | auto].
Qed.

(** Inner loop: i has been popped; js are its children not yet handled. *)
Lemma topo_children_spec p A0 i done : square p A0 -> i < p -> ~ edge A0 i i ->
  (forall a b, edge A0 a b -> ~ edge A0 b a) ->
  forall js A s,
  NoDup js -> square p A -> nonneg A ->
  (forall j, In j js -> edge A0 i j) ->
  (forall a b, edge A a b <-> edge A0 a b /\ ~ In a done /\ (a = i -> In b js)) ->
  ~ In i done ->
  NoDup (s ++ i :: done) ->
  (forall v, In v (s ++ i :: done) -> v < p) ->
  (forall j, j < p -> (In j (s ++ i :: done) <-> forall a, edge A0 a j -> In a done \/ (a = i /\ ~ In j js))) ->
  let '(A', s') := topo_children i js A s in kinv p A0 A' s' (i :: done).
Proof.
  intros HA0 Hi Hloop Hasym. induction js as [|j js IH]; intros A s ND HA Hn Hjs HE Hid NDs Hlt Hr.
  - simpl. constructor; auto.
    + intros a b. rewrite HE. simpl. split; intros (H1 & H2).
      * split; auto. intros [->|H]; tauto.
      * split; [auto|]. split; [tauto|]. intros Ei. apply H2. auto.
    + intros j Hj. rewrite Hr by auto. split; intros H a Ha; specialize (H a Ha); simpl in *; intuition.
  - cbn [topo_children]. inversion ND as [|? ? Hnj ND']; subst.
    assert (Eij0 : edge A0 i j) by (apply Hjs; simpl; auto).
    assert (Eij : edge A i j) by (apply HE; simpl; auto).
    pose proof (edge_lt _ _ _ _ HA Eij) as (_ & Hj).
    assert (Hji : j <> i) by (intros ->; auto).
    set (A' := upd A i j 0).
    assert (HA' : square p A') by (now apply upd_square).
    assert (HE' : forall a b, edge A' a b <-> edge A0 a b /\ ~ In a done /\ (a = i -> In b js)).
    { intros a b. unfold A'. rewrite (get_upd0_edge _ _ _ _ _ _ HA) by auto. rewrite HE. simpl.
      split.
      - intros ((H1 & H2 & H3) & H4). split; [auto|]. split; [auto|]. intros Ei.
        destruct (H3 Ei); auto. subst. tauto.
      - intros (H1 & H2 & H3). split; [auto|]. intros (Ea & Eb). subst. auto. }
    assert (Hpa : forall a, In a (pa j A') <-> (edge A0 a j /\ ~ In a done /\ a <> i)).
    { intros a. rewrite (pa_In _ _ _ _ HA'). unfold dir. rewrite !HE'. split.
      - intros ((H1 & H2 & H3) & _). split; [auto|]. split; [auto|]. intros Ei. auto.
      - intros (H1 & H2 & H3). split; [tauto|].
        intros (H4 & _). now apply (Hasym a j). }
    apply IH; auto.
    + apply (upd0_nonneg p); auto.
    + intros k Hk. apply Hjs. simpl. auto.
    + destruct (pa j A') eqn:EP; auto. simpl. constructor; auto.
      rewrite Hr by auto. intros Habs. destruct (Habs i Eij0) as [?|(_ & H)]; auto.
      apply H. simpl. auto.
    + destruct (pa j A') eqn:EP; auto. simpl. intros v [<-|Hv]; auto.
    + intros k Hk.
      assert (Hk' : (forall a, edge A0 a k -> In a done \/ a = i /\ ~ In k js) <->
                    (k = j /\ pa j A' = []) \/ In k (s ++ i :: done)).
      { split.
        - intros H. destruct (Nat.eq_dec k j) as [->|Hkj].
          + left. split; auto. destruct (pa j A') as [|a l] eqn:EP; auto. exfalso.
            assert (In a (a :: l)) as Hin' by (simpl; auto). apply Hpa in Hin'.
            destruct Hin' as (H1 & H2 & H3). destruct (H a H1); tauto.
          + right. rewrite Hr by auto. intros a Ha. destruct (H a Ha) as [?|(-> & ?)]; auto.
            right. split; auto. simpl. intros [->|?]; auto.
        - intros [(-> & EP)|Hin] a Ha.
          + destruct (in_dec Nat.eq_dec a done); auto. destruct (Nat.eq_dec a i); auto.
            exfalso. assert (In a (pa j A')) as Hin by (apply Hpa; auto). rewrite EP in Hin. destruct Hin.
          + rewrite Hr in Hin by auto. destruct (Hin a Ha) as [?|(-> & ?)]; auto.
            right. split; auto. simpl in *. tauto. }
      rewrite Hk'. destruct (pa j A') eqn:EP; simpl.
      * split; [intros [->|?]; auto | intros [(-> & _)|?]; auto].
      * split; [auto | intros [(_ & ?)|?]; [discriminate|auto]].
Qed.

Lemma topo_loop_spec (h : hord) p A0 : square p A0 ->
  (forall a b, edge A0 a b -> ~ edge A0 b a) ->
  forall fuel A s done, kinv p A0 A s done ->
  (forall i j, In j done -> edge A0 i j -> precedes (rev done) i j) ->
  match topo_loop h fuel A s done with
  | Ok l => topo_order p A0 l
  | Err ValueError => ~ acyclic A0
  | Err _ => True
  end.
Proof.
  intros HA0 Hasym. assert (Hll : forall a, ~ edge A0 a a) by (intros a E; eapply Hasym; eauto).
  induction fuel as [|f IH]; intros A s done HI HP; [exact I|].
  cbn [topo_loop]. destruct s as [|i s].
  - destruct (Z.ltb_spec 0 (msum A)) as [Hs|Hs].
    + intros Hac. assert (exists a b, edge A a b) as (a & b & E).
      { destruct (existsb (fun e => nz (get A (fst e) (snd e))) (pairs p)) eqn:EX.
        - apply existsb_exists in EX. destruct EX as ([a b] & _ & E). apply nz_true in E. eauto.
        - exfalso. assert (msum A = 0%Z); [|lia].
          apply (msum_zero (k_sq _ _ _ _ _ HI) (k_nn _ _ _ _ _ HI)). intros i j.
          destruct (Z.eq_dec (get A i j) 0); auto. exfalso.
          pose proof (edge_lt _ _ _ _ (k_sq _ _ _ _ _ HI) n) as (H1 & H2).
          rewrite existsb_false in EX. specialize (EX (i, j)).
          rewrite pairs_In in EX. specialize (EX (conj H1 H2)). apply nz_false in EX. auto. }
      assert (exists u, clos_trans nat (edge A0) u u) as (u & Hu); [|now apply (Hac u)].
      apply walk_cycle with (S := fun v => v < p /\ ~ In v done) (p := p) (v := a).
      * tauto.
      * intros v (Hv & Hnd).
        assert (~ forall i, edge A0 i v -> In i done) as Hn.
        { intros H. apply Hnd. apply (k_ready _ _ _ _ _ HI v Hv) in H. now simpl in H. }
        destruct (existsb (fun i => nz (get A0 i v) && negb (memb i done)) (seq 0 p)) eqn:EX.
        -- apply existsb_exists in EX. destruct EX as (i & Hi & E').
           apply andb_true_iff in E'. destruct E' as (E1 & E2). apply nz_true in E1.
           apply negb_true_iff, memb_notIn in E2. apply in_seq0 in Hi. exists i. auto.
        -- exfalso. apply Hn. intros i Ei.
           pose proof (edge_lt _ _ _ _ HA0 Ei) as (Hi & _).
           rewrite existsb_false in EX. specialize (EX i (proj2 (in_seq0 p i) Hi)).
           apply andb_false_iff in EX. destruct EX as [EX|EX].
           ++ apply nz_false in EX. contradiction.
           ++ apply negb_false_iff, memb_In in EX. auto.
      * apply (k_edge _ _ _ _ _ HI) in E. destruct E as (E & Hn). split; auto.
        now apply (edge_lt _ _ _ _ HA0 E).
    + assert (msum A = 0%Z) as Hz by (pose proof (msum_nonneg (k_nn _ _ _ _ _ HI)); lia).
      pose proof (proj1 (msum_zero (k_sq _ _ _ _ _ HI) (k_nn _ _ _ _ _ HI)) Hz) as Hz'.
      pose proof (k_nd _ _ _ _ _ HI) as Hnd. simpl in Hnd.
      assert (Hall : forall v, v < p -> In v done).
      { intros v Hv. destruct (in_dec Nat.eq_dec v done) as [?|Hn]; auto. exfalso.
        apply Hn. apply (k_ready _ _ _ _ _ HI v Hv). intros i Ei.
        destruct (in_dec Nat.eq_dec i done) as [?|Hni]; auto. exfalso.
        apply (proj2 (k_edge _ _ _ _ _ HI i v) (conj Ei Hni)). apply Hz'. }
      split.
      * apply NoDup_Permutation; [now apply NoDup_rev | apply seq_NoDup |].
        intros x. rewrite <- in_rev, in_seq0. split; auto.
        intros Hx. apply (k_lt _ _ _ _ _ HI). now simpl.
      * intros i j E. apply HP; auto. apply Hall. now apply (edge_lt _ _ _ _ HA0 E).
  - pose proof HI as [Ksq Knn Kedge Knd Klt Kready].
    assert (Hi : i < p) by (apply Klt; simpl; auto).
    assert (NDi : ~ In i (s ++ done)) by (simpl in Knd; inversion Knd; auto).
    assert (Hid : ~ In i done) by (rewrite in_app_iff in NDi; tauto).
    assert (HPM : forall v, In v (s ++ i :: done) <-> In v ((i :: s) ++ done)).
    { intros v. simpl. rewrite !in_app_iff. simpl. tauto. }
    pose proof (topo_children_spec p A0 i done HA0 Hi (Hll i) Hasym (h (S f) (ch i A)) A s) as H.
    destruct (topo_children i (h (S f) (ch i A)) A s) as (A', s') eqn:EQ.
    assert (kinv p A0 A' s' (i :: done)) as HI'.
    { apply H; auto.
      - apply ho_NoDup, ch_NoDup.
      - intros j Hj. rewrite ho_In, (ch_In _ _ _ _ Ksq) in Hj. destruct Hj as (Hj & _).
        now apply Kedge in Hj.
      - intros a b. rewrite Kedge. split; [|tauto]. intros (H1 & H2). repeat split; auto.
        intros ->. rewrite ho_In, (ch_In _ _ _ _ Ksq). unfold dir. rewrite !Kedge. repeat split; auto.
        intros (H3 & _). apply (Hasym _ _ H1 H3).
      - apply Permutation_NoDup with ((i :: s) ++ done); auto.
        simpl. apply Permutation_cons_app. reflexivity.
      - intros v Hv. apply Klt. now apply HPM.
      - intros j Hj. rewrite HPM, Kready by auto.
        split; intros H1 a Ha; specialize (H1 a Ha); auto.
        destruct H1 as [?|(-> & Hnj)]; auto. exfalso. apply Hnj.
        rewrite ho_In, (ch_In _ _ _ _ Ksq). unfold dir. rewrite !Kedge. repeat split; auto.
        intros (H3 & _). apply (Hasym _ _ Ha H3). }
    apply IH; auto.
    intros a b Hb Hab. simpl. destruct Hb as [<-|Hb].
    + apply precedes_snoc. rewrite <- in_rev.
      apply (proj1 (Kready i Hi)); auto. simpl. auto.
    + apply precedes_app. auto.
Qed.

Lemma only_undirected_get p A i j : square p A ->
  get (only_undirected A) i j = if nz (get A i j) && nz (get A j i) then get A i j else 0%Z.
Proof.
  intros H. unfold only_undirected. rewrite (square_length H).
  destruct (lt_dec i p), (lt_dec j p);
    try (rewrite get_mk_out by lia; rewrite (get_out (i:=i) (j:=j) H) by lia; reflexivity).
  rewrite get_mk; auto.
Qed.

Lemma only_undirected_square p A : square p A -> square p (only_undirected A).
Proof. intros (H & _). unfold only_undirected. rewrite H. apply mk_square. Qed.

Lemma only_undirected_nonneg p A : square p A -> nonneg A -> nonneg (only_undirected A).
Proof.
  intros H Hn i j. rewrite (only_undirected_get _ _ _ _ H).
  destruct (nz (get A i j) && nz (get A j i)); [auto | lia].
Qed.

Lemma only_undirected_sum p A : square p A -> nonneg A ->
  ((0 <? msum (only_undirected A))%Z = true <-> exists i j, und A i j).
Proof.
  intros H Hn. pose proof (only_undirected_square _ _ H) as H'.
  pose proof (only_undirected_nonneg _ _ H Hn) as Hn'.
  rewrite Z.ltb_lt. split.
  - intros Hs. destruct (existsb (fun e => nz (get (only_undirected A) (fst e) (snd e))) (pairs p)) eqn:EX.
    + apply existsb_exists in EX. destruct EX as ([a b] & _ & E). apply nz_true in E.
      simpl in E. rewrite (only_undirected_get _ _ _ _ H) in E.
      destruct (nz (get A a b) && nz (get A b a)) eqn:E2; [|congruence].
      apply andb_true_iff in E2. rewrite !nz_true in E2. exists a, b. exact E2.
    + exfalso. assert (msum (only_undirected A) = 0%Z); [|lia].
      apply (msum_zero H' Hn'). intros i j.
      destruct (Z.eq_dec (get (only_undirected A) i j) 0); auto. exfalso.
      pose proof (get_lt H' n) as (H1 & H2).
      rewrite existsb_false in EX. specialize (EX (i, j)).
      rewrite pairs_In in EX. specialize (EX (conj H1 H2)). apply nz_false in EX. auto.
  - intros (i & j & E1 & E2). pose proof (msum_nonneg Hn') as H0.
    destruct (Z.eq_dec (msum (only_undirected A)) 0); [|lia]. exfalso.
    apply (msum_zero H' Hn') with (i := i) (j := j) in e.
    rewrite (only_undirected_get _ _ _ _ H) in e.
    assert (nz (get A i j) && nz (get A j i) = true) as E by (rewrite andb_true_iff, !nz_true; auto).
    rewrite E in e. auto.
Qed.

Lemma topological_ordering_spec (h : hord) p A : square p A -> nonneg A ->
  match topological_ordering h A with
  | Ok l => topo_order p A l
  | Err e => e = ValueError /\ ~ acyclic A
  end.
Proof.
  intros HA Hn. destruct (topological_ordering_res h p A HA) as [(l & E)|E].
  - rewrite E. unfold topological_ordering in E.
    destruct (0 <? msum (only_undirected A))%Z eqn:EU; [discriminate|].
    assert (Hasym : forall a b, edge A a b -> ~ edge A b a).
    { intros a b E1 E2. assert ((0 <? msum (only_undirected A))%Z = true); [|congruence].
      apply (only_undirected_sum p); auto. exists a, b. split; auto. }
    rewrite (square_length HA) in E.
    pose proof (topo_loop_spec h p A HA Hasym (p + p * p + 1) A
                  (rev (where1 p (fun j => (colsum A j =? 0)%Z))) []) as HS.
    rewrite E in HS. apply HS.
    + constructor; auto.
      * intros; simpl; tauto.
      * rewrite app_nil_r. apply NoDup_rev, NoDup_where1.
      * intros v Hv. rewrite app_nil_r, <- in_rev, where1_In in Hv. tauto.
      * intros j Hj. rewrite app_nil_r, <- in_rev, where1_In, Z.eqb_eq, (colsum_zero _ HA Hn).
        split; [intros (_ & H) i Ei; now apply Ei in H|].
        intros H. split; auto. intros i. apply eqz_nedge. intros Ei. apply (H i Ei).
    + intros i j [].
  - rewrite E. split; auto. unfold topological_ordering in E.
    destruct (0 <? msum (only_undirected A))%Z eqn:EU.
    + apply (only_undirected_sum p) in EU; auto. destruct EU as (i & j & E1 & E2).
      intros Hac. apply (acyclic_asym _ _ _ Hac E1 E2).
    + assert (Hasym : forall a b, edge A a b -> ~ edge A b a).
      { intros a b E1 E2. assert ((0 <? msum (only_undirected A))%Z = true); [|congruence].
        apply (only_undirected_sum p); auto. exists a, b. split; auto. }
      rewrite (square_length HA) in E.
      pose proof (topo_loop_spec h p A HA Hasym (p + p * p + 1) A
                    (rev (where1 p (fun j => (colsum A j =? 0)%Z))) []) as HS.
      rewrite E in HS. apply HS.
      * constructor; auto.
        -- intros; simpl; tauto.
        -- rewrite app_nil_r. apply NoDup_rev, NoDup_where1.
        -- intros v Hv. rewrite app_nil_r, <- in_rev, where1_In in Hv. tauto.
        -- intros j Hj. rewrite app_nil_r, <- in_rev, where1_In, Z.eqb_eq, (colsum_zero _ HA Hn).
           split; [intros (_ & H) i Ei; now apply Ei in H|].
           intros H. split; auto. intros i. apply eqz_nedge. intros Ei. apply (H i Ei).
      * intros i j [].
Qed.

Lemma topological_ordering_ok (h : hord) p A : square p A -> nonneg A -> acyclic A ->
  exists l, topological_ordering h A = Ok l /\ topo_order p A l.
Proof.
  intros HA Hn Hac. pose proof (topological_ordering_spec h p A HA Hn) as H.
  destruct (topological_ordering h A); [eauto | tauto].
Qed.

Lemma topological_ordering_err (h : hord) p A : square p A -> nonneg A -> ~ acyclic A ->
  topological_ordering h A = Err ValueError.
Proof.
  intros HA Hn Hac. pose proof (topological_ordering_spec h p A HA Hn) as H.
  destruct (topological_ordering h A) as [l|e].
  - exfalso. apply Hac. eapply topo_order_acyclic; eauto.
  - destruct H. congruence.
Qed.

Lemma is_dag_spec (h : hord) p A : square p A -> nonneg A ->
  exists b, is_dag h A = Ok b /\ (b = true <-> acyclic A).
Proof.
  intros HA Hn. unfold is_dag. pose proof (topological_ordering_spec h p A HA Hn) as H.
  destruct (topological_ordering h A) as [l|e].
  - exists true. split; auto. split; auto. intros _. eapply topo_order_acyclic; eauto.
  - destruct H as (-> & H). exists false. split; auto. split; [discriminate | tauto].
Qed.

Lemma is_dag_true (h : hord) p A : square p A -> nonneg A -> acyclic A -> is_dag h A = Ok true.
Proof.
  intros HA Hn H. destruct (is_dag_spec h p A HA Hn) as (b & E & Hb). rewrite E. f_equal. tauto.
Qed.

Lemma is_dag_false (h : hord) p A : square p A -> nonneg A -> ~ acyclic A -> is_dag h A = Ok false.
Proof.
  intros HA Hn H. destruct (is_dag_spec h p A HA Hn) as (b & E & Hb). rewrite E. f_equal.
  destruct b; tauto.
Qed.

Lemma acyclic_dec p A : square p A -> nonneg A -> {acyclic A} + {~ acyclic A}.
Proof.
  intros HA Hn. destruct (is_dag ho_id A) as [[|]|] eqn:E.
  - left. destruct (is_dag_spec ho_id p A HA Hn) as (b & E' & Hb).
    apply Hb. congruence.
  - right. destruct (is_dag_spec ho_id p A HA Hn) as (b & E' & Hb). intros H. apply Hb in H. congruence.
  - exfalso. destruct (is_dag_spec ho_id p A HA Hn) as (b & E' & Hb). congruence.
Qed.

(** Acyclicity depends on the support only. *)
Lemma acyclic_ext A B : (forall i j, edge A i j <-> edge B i j) -> (acyclic A <-> acyclic B).
Proof.
  intros H. split; intros HA; (eapply acyclic_sub; [|exact HA]); intros; now apply H.
Qed.

(** A topological order exists for any DAG (spec level). *)
Lemma acyclic_topo p A : square p A -> acyclic A -> exists l, topo_order p A l.
Proof.
  intros HA Hac.
  set (B := to01 A).
  assert (HB : square p B) by (unfold B, to01; rewrite (square_length HA); apply mk_square).
  assert (HE : forall i j, edge B i j <-> edge A i j).
  { intros i j. unfold B, to01, edge. rewrite (square_length HA).
    destruct (lt_dec i p), (lt_dec j p);
      try (rewrite get_mk_out by lia; rewrite (get_out (i:=i) (j:=j) HA) by lia; tauto).
    rewrite get_mk by auto. destruct (nz (get A i j)) eqn:E.
    - apply nz_true in E. split; auto. lia.
    - apply nz_false in E. tauto. }
  assert (Hn : nonneg B).
  { intros i j. unfold B, to01. rewrite get_mk'. destruct (_ && _), (nz (get A i j)); lia. }
  destruct (topological_ordering_ok ho_id p B HB Hn) as (l & _ & HP & HT).
  - now apply (acyclic_ext _ _ HE).
  - exists l. split; auto. intros i j E. apply HT. now apply HE.
Qed.
