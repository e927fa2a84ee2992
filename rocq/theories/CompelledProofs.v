(** The labels computed by label_edges are the compelled and the reversible edges. *)
From Coq Require Import List Arith ZArith Lia Bool Permutation Sorted Relations.
Import ListNotations.
From Verif Require Import Base GraphModel GraphSpec TopoProofs BasicProofs SortProofs OrderProofs LabelProofs.

Lemma markov_equiv_refl G : markov_equiv G G.
Proof. split; intros ?; intros; tauto. Qed.
Lemma markov_equiv_sym G D : markov_equiv G D -> markov_equiv D G.
Proof. intros (H1 & H2). split; intros ?; intros; symmetry; [apply H1 | apply H2]. Qed.
Lemma markov_equiv_trans A B C : markov_equiv A B -> markov_equiv B C -> markov_equiv A C.
Proof.
  intros (H1 & H2) (H3 & H4). split.
  - intros i j. rewrite (H1 i j). apply H3.
  - intros i c j. rewrite (H2 i c j). apply H4.
Qed.

(** ** Facts on DAGs *)
Lemma vstruct_dag A i c j : acyclic A ->
  (vstruct A i c j <-> edge A i c /\ edge A j c /\ i <> j /\ ~ adjacent A i j).
Proof. intros H. unfold vstruct. rewrite !(acyclic_dir _ _ _ H). tauto. Qed.

Lemma path2 A a b c : acyclic A -> edge A a b -> edge A b c -> adjacent A a c -> edge A a c.
Proof.
  intros H E1 E2 [E|E]; auto. exfalso. apply (H a).
  apply t_trans with b; [now apply t_step|]. apply t_trans with c; now apply t_step.
Qed.

Section Compelled.
  Variables (p : nat) (G : mat) (order : list nat) (L : mat).
  Hypothesis HG : square p G.
  Hypothesis HA : acyclic G.
  Hypothesis HT : topo_order p G order.
  Hypothesis HL : labelling p order G L.

  Let ND : NoDup order.
  Proof. eapply Permutation_NoDup; [apply Permutation_sym, HT | apply seq_NoDup]. Qed.
  Let Inn : forall v, v < p -> In v order.
  Proof. intros v Hv. eapply Permutation_in; [apply Permutation_sym, HT | now apply in_seq0]. Qed.

  Lemma epos a b : edge G a b -> pos order a < pos order b.
  Proof. intros E. apply HT in E. apply precedes_pos in E; tauto. Qed.

  Lemma com_edge a b : get L a b = COM -> edge G a b.
  Proof. intros E. apply HL. unfold edge. rewrite E. discriminate. Qed.
  Lemma rev_edge a b : get L a b = REV -> edge G a b.
  Proof. intros E. apply HL. unfold edge. rewrite E. discriminate. Qed.
  Lemma ncom_rev a b : edge G a b -> get L a b <> COM -> get L a b = REV.
  Proof. intros E N. destruct HL as (_ & _ & H & _). destruct (H a b E); tauto. Qed.

  Lemma latest_max (l : list nat) : l <> [] ->
    exists x, In x l /\ forall z, In z l -> pos order z <= pos order x.
  Proof.
    induction l as [|a l IH]; [easy|]. intros _. destruct l as [|b l].
    - exists a. split; simpl; auto. intros z [->|[]]. auto.
    - destruct IH as (x & H1 & H2); [discriminate|].
      destruct (le_lt_dec (pos order a) (pos order x)).
      + exists x. split; [simpl in *; tauto|]. intros z [<-|Hz]; auto.
      + exists a. split; [simpl; auto|]. intros z [<-|Hz]; auto. specialize (H2 z Hz). lia.
  Qed.

  Lemma latest_ex z y : edge G z y -> exists x, latest order G x y.
  Proof.
    intros E. destruct (latest_max (where1 p (fun a => nz (get G a y)))) as (x & H1 & H2).
    - intros Q. pose proof (edge_lt _ _ _ _ HG E) as (Hz & _).
      assert (In z (where1 p (fun a => nz (get G a y)))) as Hin.
      { apply where1_In. split; auto. now apply nz_true. }
      rewrite Q in Hin. easy.
    - exists x. apply where1_In in H1. destruct H1 as (_ & H1). apply nz_true in H1. split; auto.
      intros z' E'. apply H2. apply where1_In. split; [apply (edge_lt _ _ _ _ HG E')|]. now apply nz_true.
  Qed.

  (** Some pair of edges into s forces all edges into s. *)
  Definition bad (s u : nat) : Prop :=
    latest order G u s /\
    ((exists v, get L v u = COM /\ ~ edge G v s) \/ (exists z, edge G z s /\ z <> u /\ ~ edge G z u)).

  Lemma bad_dec s u : latest order G u s ->
    bad s u \/ ((forall w, get L w u = COM -> edge G w s) /\
                (forall z, edge G z s -> z <> u -> edge G z u)).
  Proof.
    intros HLt.
    destruct (existsb (fun w => (get L w u =? COM)%Z && negb (nz (get G w s))) (seq 0 p)) eqn:E1.
    - left. split; auto. left. apply existsb_exists in E1. destruct E1 as (v & _ & E).
      apply andb_true_iff in E. destruct E as (Ea & Eb). apply Z.eqb_eq in Ea.
      apply negb_true_iff, nz_false in Eb. exists v. split; auto.
    - destruct (existsb (fun z => nz (get G z s) && negb (z =? u) && negb (nz (get G z u))) (seq 0 p)) eqn:E2.
      + left. split; auto. right. apply existsb_exists in E2. destruct E2 as (z & _ & E).
        rewrite !andb_true_iff, !negb_true_iff in E. destruct E as ((Ea & Eb) & Ec).
        apply nz_true in Ea. apply Nat.eqb_neq in Eb. apply nz_false in Ec. exists z. auto.
      + right. rewrite existsb_false in E1, E2. split.
        * intros w E. destruct (edge_dec G w s) as [|N]; auto. exfalso.
          pose proof (edge_lt _ _ _ _ HG (com_edge _ _ E)) as (Hw & _).
          specialize (E1 w (proj2 (in_seq0 _ _) Hw)). rewrite E, Z.eqb_refl in E1. simpl in E1.
          apply negb_false_iff, nz_true in E1. contradiction.
        * intros z E N. destruct (edge_dec G z u) as [|N']; auto. exfalso.
          pose proof (edge_lt _ _ _ _ HG E) as (Hz & _).
          specialize (E2 z (proj2 (in_seq0 _ _) Hz)).
          apply nz_true in E. apply Nat.eqb_neq in N. rewrite E, N in E2. simpl in E2.
          apply negb_false_iff, nz_true in E2. contradiction.
  Qed.

  Lemma bad_com s u : bad s u -> forall q, edge G q s -> get L q s = COM.
  Proof.
    intros (HLt & HB) q E. destruct HL as (_ & _ & _ & HC). destruct (HC s u HLt) as (H1 & H2 & _).
    destruct HB as [HB|HB]; [now apply H1|].
    destruct (existsb (fun w => (get L w u =? COM)%Z && negb (nz (get G w s))) (seq 0 p)) eqn:E1.
    - apply H1; auto. apply existsb_exists in E1. destruct E1 as (v & _ & E').
      apply andb_true_iff in E'. destruct E' as (Ea & Eb). apply Z.eqb_eq in Ea.
      apply negb_true_iff, nz_false in Eb. exists v. split; auto.
    - apply H2; auto. rewrite existsb_false in E1. intros w E'.
      destruct (edge_dec G w s) as [|N]; auto. exfalso.
      pose proof (edge_lt _ _ _ _ HG (com_edge _ _ E')) as (Hw & _).
      specialize (E1 w (proj2 (in_seq0 _ _) Hw)). rewrite E', Z.eqb_refl in E1. simpl in E1.
      apply negb_false_iff, nz_true in E1. contradiction.
  Qed.

  (** If s is not bad: its compelled parents are those of its latest parent. *)
  Lemma good_spec s u : latest order G u s ->
    (forall w, get L w u = COM -> edge G w s) -> (forall z, edge G z s -> z <> u -> edge G z u) ->
    (forall z, get L z s = COM <-> get L z u = COM) /\
    (forall z, get L z s = REV <-> z = u \/ (edge G z s /\ get L z u = REV)).
  Proof.
    intros HLt H1 H2. destruct HL as (_ & _ & _ & HC). destruct (HC s u HLt) as (_ & _ & H3).
    specialize (H3 H1 H2).
    assert (HC' : forall z, get L z s = COM <-> get L z u = COM).
    { intros z. split; intros E.
      - destruct (Z.eq_dec (get L z u) COM) as [|N]; auto.
        destruct (H3 z (com_edge _ _ E)) as (_ & H). rewrite (H N) in E. discriminate.
      - apply H3; auto. }
    split; auto. intros z. split; intros E.
    - destruct (Nat.eq_dec z u) as [|N]; auto. right. pose proof (rev_edge _ _ E) as Ez. split; auto.
      apply ncom_rev; auto. intros Q. apply HC' in Q. rewrite Q in E. discriminate.
    - assert (edge G z s) as Ez by (destruct E as [->|E]; [apply HLt | tauto]).
      apply ncom_rev; auto. intros Q. apply HC' in Q. destruct E as [->|(_ & E)].
      + apply com_edge in Q. now apply (acyclic_loopless _ HA u).
      + rewrite Q in E. discriminate.
  Qed.

  Lemma com_root : forall n t w, pos order t < n -> get L w t = COM ->
    exists s u, bad s u /\ edge G w s /\ pos order s <= pos order t /\
      (forall q, edge G q s -> edge G q t) /\
      (forall q, edge G q s -> get L q t = COM) /\
      (forall v, edge G v t -> pos order v < pos order s -> edge G v s).
  Proof.
    induction n as [|n IH]; intros t w Hn E; [lia|].
    destruct (latest_ex w t (com_edge _ _ E)) as (u & HLt).
    destruct (bad_dec t u HLt) as [B|(H1 & H2)].
    - exists t, u. split; auto. split; [now apply com_edge|]. split; [lia|].
      split; auto. split; auto. now apply (bad_com t u).
    - destruct (good_spec t u HLt H1 H2) as (HC & _). apply HC in E.
      pose proof (epos _ _ (proj1 HLt)) as Hut.
      destruct (IH u w) as (s & u' & B & Ew & Hs & Hq & Hc & Hv); [lia | auto|].
      exists s, u'. split; auto. split; auto. split; [lia|].
      split; [intros q Eq; now apply H1, Hc|]. split; [intros q Eq; now apply HC, Hc|].
      intros v Ev Hp. apply Hv; auto. apply H2; auto. intros ->. lia.
  Qed.

  (** Compelled edges have the same direction in every equivalent DAG. *)
  Lemma com_sound D : acyclic D -> markov_equiv G D ->
    forall n w y, pos order y < n -> get L w y = COM -> edge D w y.
  Proof.
    intros AD (HS & HV). induction n as [|n IH]; intros w y Hn E; [lia|].
    assert (VG : forall i c j, edge G i c -> edge G j c -> i <> j -> ~ adjacent G i j ->
                   edge D i c /\ edge D j c).
    { intros i c j E1 E2 N NA. assert (vstruct G i c j) as V by (apply vstruct_dag; auto).
      apply HV in V. apply vstruct_dag in V; tauto. }
    assert (VD : forall i c j, edge D i c -> edge D j c -> i <> j -> ~ adjacent G i j ->
                   edge G i c /\ edge G j c).
    { intros i c j E1 E2 N NA. assert (vstruct D i c j) as V.
      { apply vstruct_dag; auto. split; auto. split; auto. split; auto. now rewrite <- (HS i j). }
      apply HV in V. apply vstruct_dag in V; tauto. }
    assert (DG : forall i j, edge G i j -> edge D i j \/ edge D j i).
    { intros i j E'. apply (HS i j). now left. }
    destruct (com_root (S n) y w Hn E) as (s & u & B & Ew & Hs & Hq & Hc & Hv).
    pose proof B as ((Eus & Hu) & HB).
    pose proof (Hq _ Ew) as Ewy. pose proof (Hq _ Eus) as Euy.
    pose proof (epos _ _ Euy) as Huy. pose proof (epos _ _ Eus) as Hus.
    destruct (DG _ _ Ewy) as [|F]; auto. exfalso. (* y -> w in D *)
    destruct HB as [(v & Cv & Nv)|(z & Ez & Nz & NE)].
    - (* v -> u compelled, v not a parent of s *)
      assert (Dvu : edge D v u) by (apply IH; auto; lia).
      pose proof (com_edge _ _ Cv) as Evu. pose proof (epos _ _ Evu) as Hvu.
      assert (Nvy : ~ adjacent G v y).
      { intros [Q|Q]; [apply Nv, Hv; auto; lia | apply epos in Q; lia]. }
      assert (Hnvy : v <> y) by (intros ->; lia).
      assert (Duy : edge D u y).
      { destruct (DG _ _ Euy) as [|Q]; auto. exfalso.
        destruct (VD v u y Dvu Q Hnvy Nvy) as (_ & Q'). apply epos in Q'. lia. }
      assert (Hwu : w <> u).
      { intros ->. now apply (acyclic_asym _ _ _ AD Duy). }
      assert (Awu : adjacent G w u).
      { destruct (adjacent_dec G w u) as [|N]; auto. exfalso.
        destruct (VG w y u Ewy Euy Hwu N) as (Q & _). now apply (acyclic_asym _ _ _ AD Q). }
      assert (Ewu : edge G w u).
      { destruct Awu as [|Q]; auto. apply epos in Q. specialize (Hu _ Ew). lia. }
      assert (Duw : edge D u w).
      { apply (path2 D u y w); auto. apply (HS u w). now apply adjacent_sym. }
      assert (Hvw : v <> w) by (intros ->; contradiction).
      assert (Avw : adjacent G v w).
      { destruct (adjacent_dec G v w) as [|N]; auto. exfalso.
        destruct (VG v u w Evu Ewu Hvw N) as (_ & Q). now apply (acyclic_asym _ _ _ AD Q). }
      assert (Dvw : edge D v w).
      { apply (path2 D v u w); auto. now apply (HS v w). }
      destruct (VD v w y Dvw F Hnvy Nvy) as (_ & Q). now apply (acyclic_asym _ _ _ HA Q).
    - (* z, u nonadjacent parents of s *)
      assert (Nzu : ~ adjacent G z u).
      { intros [Q|Q]; [contradiction|]. apply epos in Q. specialize (Hu _ Ez). lia. }
      pose proof (Hq _ Ez) as Ezy.
      destruct (VG z y u Ezy Euy Nz Nzu) as (Dzy & Duy).
      assert (Hwu : w <> u) by (intros ->; now apply (acyclic_asym _ _ _ AD Duy)).
      assert (Hwz : w <> z) by (intros ->; now apply (acyclic_asym _ _ _ AD Dzy)).
      assert (Awu : adjacent G w u).
      { destruct (adjacent_dec G w u) as [|N]; auto. exfalso.
        destruct (VG w y u Ewy Euy Hwu N) as (Q & _). now apply (acyclic_asym _ _ _ AD Q). }
      assert (Awz : adjacent G w z).
      { destruct (adjacent_dec G w z) as [|N]; auto. exfalso.
        destruct (VG w y z Ewy Ezy Hwz N) as (Q & _). now apply (acyclic_asym _ _ _ AD Q). }
      assert (Duw : edge D u w) by (apply (path2 D u y w); auto; apply (HS u w); now apply adjacent_sym).
      assert (Dzw : edge D z w) by (apply (path2 D z y w); auto; apply (HS z w); now apply adjacent_sym).
      destruct (VD z w u Dzw Duw Nz Nzu) as (_ & Q). apply epos in Q. specialize (Hu _ Ew). lia.
  Qed.

  (** ** Reversible edges *)
  Definition radj (a b : nat) : Prop := get L a b = REV \/ get L b a = REV.

  Lemma rev_facts : forall n y, pos order y < n ->
    (forall z, get L z y = REV -> forall w, get L w y = COM <-> get L w z = COM) /\
    (forall z z', get L z y = REV -> get L z' y = REV -> z <> z' -> radj z z').
  Proof.
    induction n as [|n IH]; intros y Hn; [lia|].
    assert (C : forall z, get L z y = REV -> exists u, latest order G u y /\
      (forall w, get L w y = COM <-> get L w u = COM) /\
      (forall w, get L w y = REV <-> w = u \/ (edge G w y /\ get L w u = REV)) /\ pos order u < n).
    { intros z E. destruct (latest_ex z y (rev_edge _ _ E)) as (u & HLt). exists u. split; auto.
      destruct (bad_dec y u HLt) as [B|(H1 & H2)].
      - rewrite (bad_com y u B z (rev_edge _ _ E)) in E. discriminate.
      - destruct (good_spec y u HLt H1 H2). split; auto. split; auto.
        pose proof (epos _ _ (proj1 HLt)). lia. }
    split.
    - intros z E w. destruct (C z E) as (u & HLt & HC & HR & Hp).
      apply HR in E as [->|(Ez & Ezu)]; auto. rewrite HC.
      apply (proj1 (IH u Hp) z Ezu w).
    - intros z z' E E' N. destruct (C z E) as (u & HLt & HC & HR & Hp).
      apply HR in E as [->|(Ez & Ezu)]; apply HR in E' as [->|(Ez' & Ezu')].
      + contradiction.
      + now right.
      + now left.
      + now apply (proj2 (IH u Hp)).
  Qed.

  Lemma rev_com z y w : get L z y = REV -> (get L w y = COM <-> get L w z = COM).
  Proof. intros E. apply (rev_facts (S (pos order y)) y); auto. Qed.
  Lemma rev_clique y z z' : get L z y = REV -> get L z' y = REV -> z <> z' -> radj z z'.
  Proof. apply (rev_facts (S (pos order y)) y). auto. Qed.
End Compelled.

(** ** Perfect orderings: any clique can come first *)
Lemma precedes_app_iff a b x y : precedes (a ++ b) x y <->
  precedes a x y \/ (In x a /\ In y b) \/ precedes b x y.
Proof.
  induction a as [|c a IH]; simpl.
  - split; auto. intros [(? & ? & ? & Q)|[(H & _)|H]]; auto; [|easy].
    destruct x0; discriminate.
  - rewrite !precedes_cons, IH, in_app_iff. intuition congruence.
Qed.

Section Perfect.
  Variable R : nat -> nat -> Prop.
  Hypothesis Rsym : forall a b, R a b -> R b a.
  Hypothesis Rdec : forall a b, {R a b} + {~ R a b}.

  Definition vfree (l : list nat) : Prop := forall u v t,
    precedes l u t -> precedes l v t -> R u t -> R v t -> u <> v -> R u v.
  Definition clique (K : list nat) : Prop := forall a b, In a K -> In b K -> a <> b -> R a b.

  Lemma vfree_first : forall l K, NoDup l -> vfree l -> NoDup K -> incl K l -> clique K ->
    exists rest, Permutation (K ++ rest) l /\ vfree (K ++ rest).
  Proof.
    intros l. induction l as [|y l IH] using rev_ind; intros K NDl VF NDK HK CK.
    - exists []. destruct K as [|k K]; [|exfalso; apply (HK k); simpl; auto]. split; auto.
    - assert (NDl0 : NoDup l /\ ~ In y l).
      { apply NoDup_app_inv in NDl. destruct NDl as (H1 & _ & H3). split; auto.
        intros Hin. apply (H3 y Hin). simpl; auto. }
      destruct NDl0 as (NDl0 & Hy).
      assert (VF0 : vfree l).
      { intros u v t H1 H2. apply VF; rewrite precedes_app_iff; auto. }
      destruct (in_dec Nat.eq_dec y K) as [HyK|HyK].
      + destruct (in_split _ _ HyK) as (K1 & K2 & ->).
        assert (NDK' : NoDup (K1 ++ K2) /\ ~ In y (K1 ++ K2)).
        { apply NoDup_remove in NDK. tauto. }
        destruct NDK' as (NDK' & HyK').
        assert (HKl : forall k, In k (K1 ++ K2) -> In k l).
        { intros k Hk. assert (In k (l ++ [y])) as Hin.
          { apply HK. rewrite in_app_iff in Hk |- *. simpl. tauto. }
          rewrite in_app_iff in Hin. simpl in Hin. destruct Hin as [|[->|[]]]; auto. contradiction. }
        assert (HKR : forall k, In k (K1 ++ K2) -> R k y).
        { intros k Hk. apply CK.
          - rewrite in_app_iff in Hk |- *. simpl. tauto.
          - rewrite in_app_iff. simpl. tauto.
          - intros ->. contradiction. }
        set (N := filter (fun k => (if Rdec k y then true else false) && negb (memb k (K1 ++ K2))) l).
        assert (HN : forall k, In k N <-> In k l /\ R k y /\ ~ In k (K1 ++ K2)).
        { intros k. unfold N. rewrite filter_In, andb_true_iff, negb_true_iff, memb_notIn.
          destruct (Rdec k y); intuition congruence. }
        destruct (IH ((K1 ++ K2) ++ N)) as (rest & HP & HV); auto.
        * apply NoDup_app; auto; [now apply NoDup_filter|]. intros k Hk Hk'. now apply HN in Hk'.
        * intros k Hk. rewrite in_app_iff in Hk. destruct Hk as [Hk|Hk]; auto. now apply HN.
        * assert (Hall : forall k, In k ((K1 ++ K2) ++ N) -> In k l /\ R k y).
          { intros k Hk. rewrite in_app_iff in Hk. destruct Hk as [Hk|Hk]; [auto|].
            apply HN in Hk. tauto. }
          intros a b Ha Hb Nab. destruct (Hall a Ha), (Hall b Hb).
          apply (VF a b y); auto; rewrite precedes_app_iff; right; left; simpl; auto.
        * exists (N ++ rest).
          assert (HP' : Permutation ((K1 ++ y :: K2) ++ N ++ rest) (l ++ [y])).
          { transitivity (y :: ((K1 ++ K2) ++ N) ++ rest).
            - rewrite <- !app_assoc. simpl. apply Permutation_sym, Permutation_middle.
            - transitivity (y :: l); [now constructor | apply Permutation_cons_append]. }
          split; auto.
          assert (NDall : NoDup ((K1 ++ y :: K2) ++ N ++ rest)).
          { eapply Permutation_NoDup; [apply Permutation_sym, HP' | auto]. }
          (* neighbours of y in l are all in K1 ++ K2 ++ N *)
          assert (HNb : forall t, In t l -> R t y -> In t (K1 ++ K2 ++ N)).
          { intros t Ht HR. rewrite app_assoc, in_app_iff.
            destruct (in_dec Nat.eq_dec t (K1 ++ K2)); auto. right. apply HN. auto. }
          assert (HNR : forall t, In t (K1 ++ K2 ++ N) -> R t y).
          { intros t Ht. rewrite app_assoc, in_app_iff in Ht. destruct Ht as [Ht|Ht]; auto.
            now apply HN in Ht. }
          assert (Hpre : forall a b, a <> y -> b <> y ->
             precedes ((K1 ++ y :: K2) ++ N ++ rest) a b ->
             precedes (((K1 ++ K2) ++ N) ++ rest) a b).
          { intros a b Na Nb. rewrite <- !app_assoc. simpl.
            rewrite !(precedes_app_iff K1), precedes_cons. simpl. intuition congruence. }
          assert (Hyl : forall t, precedes ((K1 ++ y :: K2) ++ N ++ rest) y t -> In t (K2 ++ N ++ rest)).
          { intros t. rewrite <- app_assoc. simpl. rewrite precedes_app_iff, precedes_cons.
            rewrite <- app_assoc in NDall. simpl in NDall. apply NoDup_remove in NDall.
            destruct NDall as (_ & Q). rewrite in_app_iff in Q.
            intros [H|[(H & _)|[(_ & H)|H]]]; auto.
            - apply precedes_In in H. tauto.
            - tauto.
            - apply precedes_In in H. tauto. }
          assert (Hly : forall t, precedes ((K1 ++ y :: K2) ++ N ++ rest) t y -> In t K1).
          { intros t. rewrite <- app_assoc. simpl. rewrite precedes_app_iff, precedes_cons.
            rewrite <- app_assoc in NDall. simpl in NDall. apply NoDup_remove in NDall.
            destruct NDall as (_ & Q). rewrite in_app_iff in Q.
            intros [H|[(H & _)|[(_ & H)|H]]]; auto.
            - apply precedes_In in H. tauto.
            - tauto.
            - apply precedes_In in H. tauto. }
          assert (Hinl : forall t, In t (K2 ++ N ++ rest) -> In t l).
          { intros t Ht. apply (Permutation_in _ HP). rewrite !in_app_iff in *. tauto. }
          assert (NDr : NoDup (((K1 ++ K2) ++ N) ++ rest)).
          { eapply Permutation_NoDup; [apply Permutation_sym, HP | auto]. }
          (* the case where y comes first *)
          assert (HY : forall v t, v <> y ->
             precedes ((K1 ++ y :: K2) ++ N ++ rest) y t ->
             precedes ((K1 ++ y :: K2) ++ N ++ rest) v t -> R y t -> R v t -> R y v).
          { intros v t Nv H1 H2 R1 R2. apply Hyl in H1 as Ht.
            assert (Nt : t <> y) by (intros ->; apply (precedes_irrefl _ y NDall); auto).
            assert (Htc : In t ((K1 ++ K2) ++ N)).
            { rewrite <- app_assoc. apply HNb; auto. }
            apply Hpre in H2; auto. rewrite precedes_app_iff in H2.
            apply NoDup_app_inv in NDr. destruct NDr as (_ & _ & NDr).
            apply Rsym, HNR. rewrite app_assoc. destruct H2 as [H2|[(_ & H2)|H2]].
            - now apply precedes_In in H2.
            - exfalso. now apply (NDr t).
            - exfalso. apply precedes_In in H2. now apply (NDr t). }
          intros u v t H1 H2 R1 R2 Nuv.
          destruct (Nat.eq_dec u y) as [->|Nu]; [now apply (HY v t); auto|].
          destruct (Nat.eq_dec v y) as [->|Nv]; [now apply Rsym, (HY u t); auto|].
          destruct (Nat.eq_dec t y) as [->|Nt].
          -- apply Hly in H1, H2. apply CK; auto; rewrite in_app_iff; auto.
          -- apply (HV u v t); auto.
      + destruct (IH K) as (rest & HP & HV); auto.
        * intros k Hk. specialize (HK k Hk). rewrite in_app_iff in HK. simpl in HK.
          destruct HK as [|[->|[]]]; auto. contradiction.
        * exists (rest ++ [y]). rewrite app_assoc. split; [now apply Permutation_app_tail|].
          assert (HP' : Permutation ((K ++ rest) ++ [y]) (l ++ [y])) by (now apply Permutation_app_tail).
          assert (Hin : forall u t, precedes ((K ++ rest) ++ [y]) u t ->
                     precedes (K ++ rest) u t \/ (In u l /\ t = y)).
          { intros u t. rewrite precedes_app_iff. intros [H|[(H1 & H2)|H]]; auto.
            - right. split; [now apply (Permutation_in _ HP)|]. simpl in H2. intuition.
            - exfalso. destruct H as (a & b & c & Q). destruct a as [|? a]; [|destruct a; discriminate].
              simpl in Q. inversion Q. destruct b; discriminate. }
          intros u v t H1 H2 R1 R2 Nuv. apply Hin in H1, H2.
          destruct H1 as [H1|(H1 & ->)], H2 as [H2|(H2 & E)].
          -- now apply (HV u v t).
          -- subst t. exfalso. apply precedes_In in H1. destruct H1 as (_ & H1).
             apply (Permutation_in _ HP) in H1. contradiction.
          -- exfalso. apply precedes_In in H2. destruct H2 as (_ & H2).
             apply (Permutation_in _ HP) in H2. contradiction.
          -- apply (VF u v y); auto; rewrite precedes_app_iff; right; left; simpl; auto.
  Qed.
End Perfect.

Lemma acyclic_measure A (f : nat -> nat) : (forall i j, edge A i j -> f i < f j) -> acyclic A.
Proof.
  intros H i C. assert (forall a b, clos_trans nat (edge A) a b -> f a < f b) as HH.
  { intros a b HC. induction HC; [auto | lia]. }
  apply HH in C. lia.
Qed.

Section Reversible.
  Variables (p : nat) (G : mat) (order : list nat) (L : mat).
  Hypothesis HG : square p G.
  Hypothesis HA : acyclic G.
  Hypothesis HT : topo_order p G order.
  Hypothesis HL : labelling p order G L.

  Let ND : NoDup order.
  Proof. eapply Permutation_NoDup; [apply Permutation_sym, HT | apply seq_NoDup]. Qed.

  Lemma radj_sym a b : radj L a b -> radj L b a.
  Proof. unfold radj. tauto. Qed.
  Lemma radj_dec a b : {radj L a b} + {~ radj L a b}.
  Proof.
    unfold radj. destruct (Z.eq_dec (get L a b) REV); [left; auto|].
    destruct (Z.eq_dec (get L b a) REV); [left; auto|]. right. tauto.
  Qed.

  Lemma order_vfree : vfree (radj L) order.
  Proof.
    intros u v t Hu Hv Ru Rv N.
    assert (F : forall a, precedes order a t -> radj L a t -> get L a t = REV).
    { intros a Ha [E|E]; auto. exfalso. apply (rev_edge p G order L HL) in E.
      apply HT in E. now apply (precedes_asym _ _ _ ND Ha). }
    eapply rev_clique; eauto.
  Qed.

  (** Keep compelled edges, orient reversible ones along sigma. *)
  Definition reorient (sigma : list nat) : mat :=
    mk p (fun i j =>
      if (get L i j =? COM)%Z then 1%Z
      else if ((get L i j =? REV)%Z || (get L j i =? REV)%Z) && (pos sigma i <? pos sigma j)
      then 1%Z else 0%Z).

  Definition crank (y : nat) : nat :=
    list_max (map (fun w => S (pos order w)) (where1 p (fun w => (get L w y =? COM)%Z))).

  Lemma reorient_equiv sigma : Permutation sigma (seq 0 p) -> vfree (radj L) sigma ->
    dag01 p (reorient sigma) /\ markov_equiv G (reorient sigma) /\
    (forall i j, get L i j = COM -> edge (reorient sigma) i j) /\
    (forall i j, radj L i j -> precedes sigma i j -> edge (reorient sigma) i j).
  Proof.
    intros HP HV. set (D := reorient sigma).
    assert (NDs : NoDup sigma) by (eapply Permutation_NoDup; [apply Permutation_sym, HP | apply seq_NoDup]).
    assert (Ins : forall v, v < p -> In v sigma).
    { intros v Hv. eapply Permutation_in; [apply Permutation_sym, HP | now apply in_seq0]. }
    assert (Lout : forall i j, get L i j <> 0%Z -> i < p /\ j < p).
    { intros i j N. destruct HL as (S & _). apply (get_lt S N). }
    assert (HD : forall i j, edge D i j <-> get L i j = COM \/ (radj L i j /\ precedes sigma i j)).
    { intros i j. unfold edge, D, reorient. rewrite get_mk'.
      destruct (Nat.ltb_spec i p) as [Hi|Hi]; [destruct (Nat.ltb_spec j p) as [Hj|Hj]|]; simpl.
      - rewrite precedes_pos by auto. unfold radj.
        destruct (Z.eqb_spec (get L i j) COM); [split; auto; discriminate|].
        destruct (Z.eqb_spec (get L i j) REV), (Z.eqb_spec (get L j i) REV),
          (Nat.ltb_spec (pos sigma i) (pos sigma j)); simpl;
          split; try tauto; try (intros; exfalso; lia); try discriminate; auto.
        all: try (intros _; right; split; [auto | split; auto]).
        all: try (intros [Q|(_ & _ & _ & Q)]; [tauto | exfalso; lia]).
      - split; [tauto|]. intros [Q|(Q & _)].
        + assert (get L i j <> 0%Z) as N by (rewrite Q; discriminate). apply Lout in N. lia.
        + assert (get L i j <> 0%Z \/ get L j i <> 0%Z) as [N|N]
            by (destruct Q as [Q|Q]; [left | right]; rewrite Q; discriminate); apply Lout in N; lia.
      - split; [tauto|]. intros [Q|(Q & _)].
        + assert (get L i j <> 0%Z) as N by (rewrite Q; discriminate). apply Lout in N. lia.
        + assert (get L i j <> 0%Z \/ get L j i <> 0%Z) as [N|N]
            by (destruct Q as [Q|Q]; [left | right]; rewrite Q; discriminate); apply Lout in N; lia. }
    assert (GC : forall i j, edge G i j <-> get L i j = COM \/ get L i j = REV).
    { intros i j. split; [apply HL|]. intros [E|E]; [eapply com_edge | eapply rev_edge]; eauto. }
    assert (Radj : forall i j, radj L i j -> adjacent G i j).
    { intros i j [E|E]; [left | right]; apply GC; auto. }
    (* compelled parents are shared along reversible edges *)
    assert (RC : forall z y w, radj L z y -> (get L w y = COM <-> get L w z = COM)).
    { intros z y w [E|E]; [|symmetry]; eapply rev_com; eauto. }
    assert (AD : acyclic D).
    { apply (acyclic_measure D (fun v => crank v * S p + pos sigma v)). intros i j E.
      assert (Hpos : forall v, v < p -> pos sigma v < p).
      { intros v Hv. replace p with (length sigma)
          by (rewrite (Permutation_length HP); apply seq_length). now apply pos_lt, Ins. }
      assert (square p D) as SD by apply mk_square.
      pose proof (edge_lt _ _ _ _ SD E) as (Hi & Hj).
      pose proof (Hpos i Hi). pose proof (Hpos j Hj).
      apply HD in E. destruct E as [E|(E & Pr)].
      - assert (crank i < crank j); [|nia].
        assert (crank i <= pos order i).
        { apply list_max_le, Forall_forall. intros k Hk. apply in_map_iff in Hk.
          destruct Hk as (w & <- & Hw). apply where1_In in Hw. destruct Hw as (_ & Hw).
          apply Z.eqb_eq in Hw. apply (com_edge p G order L HL) in Hw.
          apply (epos p G order HT) in Hw. lia. }
        assert (S (pos order i) <= crank j); [|lia].
        assert (Forall (fun k => k <= crank j)
                  (map (fun w => S (pos order w)) (where1 p (fun w => (get L w j =? COM)%Z)))) as F.
        { apply list_max_le. auto. }
        rewrite Forall_forall in F. apply F. apply in_map_iff. exists i. split; auto.
        apply where1_In. split; auto. now apply Z.eqb_eq.
      - assert (crank i = crank j) as ->.
        { unfold crank. f_equal. f_equal. unfold where1. apply filter_ext. intros w.
          pose proof (RC i j w E) as Q.
          destruct (Z.eqb_spec (get L w i) COM), (Z.eqb_spec (get L w j) COM); auto; tauto. }
        apply precedes_pos in Pr; auto. lia. }
    assert (SK : same_skeleton G D).
    { intros i j. split.
      - intros HAd. assert (get L i j = COM \/ get L j i = COM \/ radj L i j) as [E|[E|E]].
        { unfold radj. destruct HAd as [E|E]; apply GC in E; tauto. }
        + left. apply HD. auto.
        + right. apply HD. auto.
        + assert (i <> j).
          { intros ->. apply (acyclic_loopless _ HA j). apply GC. destruct E; auto. }
          pose proof (adjacent_lt _ _ _ _ HG (Radj _ _ E)) as (Hi & Hj).
          destruct (precedes_total sigma i j) as [|[Q|Q]]; auto; [contradiction| |].
          * left. apply HD. auto.
          * right. apply HD. right. split; auto. now apply radj_sym.
      - intros [E|E]; apply HD in E; destruct E as [E|(E & _)].
        + left. apply GC. auto.
        + now apply Radj.
        + right. apply GC. auto.
        + now apply adjacent_sym, Radj. }
    split; [|split; [|split]].
    - split; [apply mk_square|]. split; auto. intros i j. unfold D, reorient. rewrite get_mk'.
      destruct (_ && _); auto. destruct (_ =? _)%Z; auto. destruct (_ && _); auto.
    - split; auto. intros i c j. rewrite !vstruct_dag by auto. rewrite (SK i j).
      split; intros (E1 & E2 & N & NA).
      + assert (NG : ~ adjacent G i j) by (now rewrite (SK i j)).
        assert (forall a b, ~ adjacent G a b -> a <> b -> edge G a c -> edge G b c -> edge D a c) as F.
        { intros a b Nab Hab Ea Eb. apply GC in Ea, Eb. destruct Ea as [Ea|Ea].
          - apply HD. auto.
          - exfalso. apply Nab. destruct Eb as [Eb|Eb].
            + right. apply GC. left. apply (RC a c b); [now left | auto].
            + apply Radj. eapply rev_clique; eauto. }
        split; [now apply (F i j)|]. split; [|tauto]. apply (F j i); auto.
        intros Q. now apply NG, adjacent_sym.
      + assert (NG : ~ adjacent G i j) by (now rewrite (SK i j)).
        assert (forall a b, ~ adjacent G a b -> a <> b -> edge D a c -> edge D b c -> edge G a c) as F.
        { intros a b Nab Hab Ea Eb. apply HD in Ea, Eb. destruct Ea as [Ea|(Ea & Pa)].
          - apply GC. auto.
          - exfalso. apply Nab. destruct Eb as [Eb|(Eb & Pb)].
            + right. apply GC. left. now apply (RC a c b).
            + apply Radj. now apply (HV a b c). }
        split; [now apply (F i j)|]. split; [|tauto]. apply (F j i); auto.
        intros Q. now apply NG, adjacent_sym.
    - intros i j E. apply HD. auto.
    - intros i j E Pr. apply HD. auto.
  Qed.

  (** Every reversible edge is reversed in some equivalent DAG. *)
  Lemma rev_complete a b : get L a b = REV ->
    exists D, dag01 p D /\ markov_equiv G D /\ edge D b a.
  Proof.
    intros E. assert (Eab : edge G a b) by (eapply rev_edge; eauto).
    assert (Nab : a <> b) by (intros ->; now apply (acyclic_loopless _ HA b)).
    pose proof (edge_lt _ _ _ _ HG Eab) as (Hap & Hbp).
    assert (Inn : forall v, v < p -> In v order).
    { intros v Hv. eapply Permutation_in; [apply Permutation_sym, HT | now apply in_seq0]. }
    destruct (vfree_first (radj L) radj_sym radj_dec order [b; a]) as (rest & HP & HV); auto.
    - apply order_vfree.
    - repeat constructor; simpl; tauto.
    - intros k [<-|[<-|[]]]; auto.
    - intros x y [<-|[<-|[]]] [<-|[<-|[]]] N; try contradiction; [now right | now left].
    - destruct (reorient_equiv ([b; a] ++ rest)) as (H1 & H2 & H3 & H4); auto.
      { transitivity order; auto. apply HT. }
      exists (reorient ([b; a] ++ rest)). split; auto. split; auto. apply H4; [now right|].
      exists [], [], rest. reflexivity.
  Qed.

  Lemma labels_compelled a b :
    (get L a b = COM <-> edge G a b /\ forall D, acyclic D -> markov_equiv G D -> edge D a b) /\
    (get L a b = REV <-> edge G a b /\ exists D, dag01 p D /\ markov_equiv G D /\ edge D b a) /\
    (get L a b = 0%Z <-> ~ edge G a b).
  Proof.
    assert (GC : forall i j, edge G i j <-> get L i j = COM \/ get L i j = REV).
    { intros i j. split; [apply HL|]. intros [E|E]; [eapply com_edge | eapply rev_edge]; eauto. }
    assert (S1 : get L a b = COM -> forall D, acyclic D -> markov_equiv G D -> edge D a b).
    { intros E D AD ME. eapply com_sound; eauto. }
    split; [|split].
    - split.
      + intros E. split; [apply GC; auto | now apply S1].
      + intros (E & H). apply GC in E. destruct E as [|E]; auto. exfalso.
        destruct (rev_complete a b E) as (D & (_ & _ & AD) & ME & ED).
        specialize (H D AD ME). now apply (acyclic_asym _ _ _ AD H).
    - split.
      + intros E. split; [apply GC; auto | now apply rev_complete].
      + intros (E & D & (_ & _ & AD) & ME & ED). apply GC in E. destruct E as [E|]; auto. exfalso.
        specialize (S1 E D AD ME). now apply (acyclic_asym _ _ _ AD S1).
    - rewrite GC. split.
      + intros ->. intros [Q|Q]; discriminate.
      + intros N. destruct (Z.eq_dec (get L a b) 0) as [|NZ]; auto. exfalso. apply N.
        assert (edge G a b) as E by (now apply HL). now apply GC.
  Qed.
End Reversible.
