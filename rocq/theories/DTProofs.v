(** pdag_to_dag (Dor & Tarsi): soundness and completeness. *)
From Coq Require Import List Arith ZArith Lia Bool Permutation Relations.
Import ListNotations.
From Verif Require Import Base GraphModel GraphSpec TopoProofs BasicProofs.

(** ** Specification-level algorithm *)

(** v may be removed from the node set S. *)
Definition dt_ok (P : mat) (S : list nat) (v : nat) : Prop :=
  (forall u, In u S -> ~ dir P v u) /\
  (forall y z, In y S -> In z S -> und P v y -> adjacent P v z -> z <> y -> adjacent P y z).

Lemma clos_trans_flip (R : nat -> nat -> Prop) x y :
  clos_trans nat (fun a b => R b a) x y -> clos_trans nat R y x.
Proof. intros H. induction H; [now apply t_step | eapply t_trans; eauto]. Qed.

(** A consistent extension provides a removable node in every non-empty node set. *)
Lemma ext_sink p D S : square p D -> acyclic D -> S <> [] -> incl S (seq 0 p) ->
  exists v, In v S /\ forall u, In u S -> ~ edge D v u.
Proof.
  intros HD HA HS Hincl.
  destruct (existsb (fun v => forallb (fun u => negb (nz (get D v u))) S) S) eqn:E.
  - apply existsb_exists in E. destruct E as (v & Hv & E). rewrite forallb_forall in E.
    exists v. split; auto. intros u Hu He. specialize (E u Hu). apply negb_true_iff, nz_false in E.
    now apply He.
  - exfalso. rewrite existsb_false in E.
    assert (exists u, clos_trans nat (fun a b => edge D b a) u u) as (u & Hu).
    { destruct S as [|s S]; [congruence|].
      apply walk_cycle with (S := fun v => In v (s :: S)) (p := p) (v := s); [| |simpl; auto].
      - intros v Hv. apply in_seq0, Hincl. exact Hv.
      - intros v Hv. specialize (E v Hv). apply forallb_false in E. destruct E as (u & Hu & E).
        apply negb_false_iff, nz_true in E. eauto. }
    apply (HA u). now apply clos_trans_flip in Hu.
Qed.

Lemma ext_dt_ok p D P S : square p D -> consistent_ext D P -> S <> [] -> incl S (seq 0 p) ->
  exists v, In v S /\ dt_ok P S v.
Proof.
  intros HD (HA & HSk & HV & HO) HS Hincl.
  destruct (ext_sink p D S HD HA HS Hincl) as (v & Hv & Hs). exists v. split; auto. split.
  - intros u Hu Hd. apply (Hs u Hu). now apply HO.
  - intros y z Hy Hz Hu Hz' Hzy.
    assert (Dy : edge D y v).
    { assert (adjacent D v y) as [E|E] by (apply HSk; left; apply Hu); auto. now apply Hs in E. }
    assert (Dz : edge D z v).
    { assert (adjacent D v z) as [E|E] by (now apply HSk); auto. now apply Hs in E. }
    destruct (adjacent_dec P y z) as [?|N]; auto. exfalso.
    assert (vstruct D y v z) as V.
    { split; [now apply acyclic_dir|]. split; [now apply acyclic_dir|]. split; [auto|].
      intros Hadj. apply N. now apply HSk. }
    apply HV in V. destruct V as ((_ & N') & _). apply N'. apply Hu.
Qed.

Lemma NoDup_split_unique (c : nat) m1 m2 l1 l2 : NoDup (m1 ++ c :: m2) ->
  m1 ++ c :: m2 = l1 ++ c :: l2 -> m1 = l1 /\ m2 = l2.
Proof.
  revert l1. induction m1 as [|x m1 IH]; intros l1 ND E; destruct l1 as [|y l1]; simpl in *;
    inversion E; subst; auto.
  - exfalso. inversion ND as [|? ? N _]; subst. apply N. rewrite in_app_iff. simpl. auto.
  - exfalso. inversion ND as [|? ? N _]; subst. apply N. rewrite in_app_iff. simpl. auto.
  - inversion ND as [|? ? _ ND']; subst. destruct (IH l1 ND' H1) as (-> & ->). auto.
Qed.

(** A removal order with [dt_ok] at each step. *)
Definition removal (P : mat) (order : list nat) : Prop :=
  forall a v b, order = a ++ v :: b -> dt_ok P (v :: b) v.

Lemma removal_cons P v b : dt_ok P (v :: b) v -> removal P b -> removal P (v :: b).
Proof.
  intros H1 H2 a w c E. destruct a as [|x a]; simpl in E; inversion E; subst; auto.
  eapply H2; eauto.
Qed.

(** The graph obtained by orienting the undirected edges against a removal order. *)
Lemma removal_ext p P order G : square p P -> loopless P ->
  Permutation order (seq 0 p) -> removal P order ->
  (forall x y, edge G x y <-> dir P x y \/ (und P x y /\ precedes order y x)) ->
  consistent_ext G P.
Proof.
  intros HP LL HPm HR HG.
  assert (ND : NoDup order) by (eapply Permutation_NoDup; [apply Permutation_sym, HPm | apply seq_NoDup]).
  assert (Hin : forall v, v < p -> In v order).
  { intros v Hv. eapply Permutation_in; [apply Permutation_sym, HPm|]. now apply in_seq0. }
  assert (Hprec : forall x y, edge G x y -> precedes order y x).
  { intros x y E. apply HG in E. destruct E as [D|(_ & ?)]; auto.
    pose proof (edge_lt _ _ _ _ HP (proj1 D)) as (Hx & Hy).
    destruct (precedes_total order x y (Hin x Hx) (Hin y Hy)) as [->|[Q|?]]; auto.
    - exfalso. now apply (LL y), D.
    - exfalso. destruct Q as (a & b & c & E). specialize (HR a x (b ++ y :: c) E).
      destruct HR as (H1 & _). apply (H1 y); auto. simpl. rewrite in_app_iff. simpl. auto. }
  assert (HA : acyclic G).
  { intros i T. assert (forall a b, clos_trans nat (edge G) a b -> precedes order b a) as H.
    { intros a b T'. induction T'; auto. eapply precedes_trans; eauto. }
    apply (precedes_irrefl order i ND); auto. }
  assert (HS : same_skeleton P G).
  { assert (forall i j, edge P i j -> adjacent G i j) as H1.
    { intros i j E. destruct (edge_dec P j i) as [E'|N].
      - pose proof (edge_lt _ _ _ _ HP E) as (Hi & Hj).
        destruct (precedes_total order i j (Hin i Hi) (Hin j Hj)) as [->|[Q|Q]].
        + exfalso. now apply (LL j).
        + right. apply HG. right. split; [split|]; auto.
        + left. apply HG. right. split; [split|]; auto.
      - left. apply HG. left. split; auto. }
    assert (forall i j, edge G i j -> adjacent P i j) as H2.
    { intros i j E. apply HG in E. destruct E as [(E & _)|((E & _) & _)]; left; auto. }
    intros i j. split; intros [E|E].
    - auto.
    - apply adjacent_sym; auto.
    - auto.
    - apply adjacent_sym; auto. }
  split; [auto|]. split; [auto|]. split.
  - intros i c j. split.
    + intros (D1 & D2 & N & NA). split; [|split; [|split]]; auto.
      * apply acyclic_dir; auto. apply HG. auto.
      * apply acyclic_dir; auto. apply HG. auto.
      * intros H. apply NA. now apply HS.
    + intros (D1 & D2 & N & NA).
      assert (NA' : ~ adjacent P i j) by (intros H; apply NA; now apply HS).
      assert (Key : forall a b, a <> b -> edge G a c -> edge G b c -> ~ adjacent P a b -> dir P a c).
      { intros a b Hab Ea Eb Nab. apply HG in Ea. destruct Ea as [?|(U & Q)]; auto. exfalso.
        apply Nab. destruct Q as (l1 & l2 & l3 & E). pose proof (HR _ _ _ E) as (_ & H).
        apply H; auto.
        - simpl. rewrite in_app_iff. simpl. auto.
        - apply Hprec in Eb. destruct Eb as (m1 & m2 & m3 & E').
          assert (m1 = l1 /\ m2 ++ b :: m3 = l2 ++ a :: l3) as (_ & E2).
          { apply NoDup_split_unique with c; congruence. }
          rewrite <- E2. simpl. rewrite in_app_iff. simpl. auto.
        - unfold und in *. tauto.
        - apply adjacent_sym. apply HS. left. auto. }
      split; [|split; [|split]]; auto.
      * apply Key with j; auto; [apply D1 | apply D2].
      * apply Key with i; auto; [apply D2 | apply D1 |].
        intros H. apply NA'. now apply adjacent_sym.
  - intros i j D. apply HG. auto.
Qed.

(** ** The model follows it *)

Lemma remove1_In x l y : NoDup l -> (In y (remove1 x l) <-> In y l /\ y <> x).
Proof.
  induction l as [|a l IH]; simpl; intros ND; [tauto|]. inversion ND; subst.
  destruct (Nat.eqb_spec x a) as [->|N].
  - split; [intros H; split; auto; intros ->; auto | intros ([->|?] & ?); tauto].
  - simpl. rewrite IH by auto. split.
    + intros [->|(? & ?)]; auto.
    + intros ([->|?] & ?); auto.
Qed.

Lemma remove1_NoDup x l : NoDup l -> NoDup (remove1 x l).
Proof.
  induction l as [|a l IH]; simpl; intros ND; auto. inversion ND; subst.
  destruct (Nat.eqb_spec x a); auto. constructor; auto. rewrite remove1_In by auto. tauto.
Qed.

Lemma remove1_perm x l : In x l -> Permutation l (x :: remove1 x l).
Proof.
  induction l as [|a l IH]; simpl; [easy|]. intros [->|H].
  - now rewrite Nat.eqb_refl.
  - destruct (Nat.eqb_spec x a) as [->|N]; auto.
    rewrite perm_swap. constructor. auto.
Qed.

Lemma filter_neq_all l i : (forall k, In k l -> k <> i) -> filter (fun k => negb (k =? i)) l = l.
Proof.
  induction l as [|a l IH]; simpl; intros H; auto.
  destruct (Nat.eqb_spec a i); [exfalso; eapply H; eauto|]. simpl. f_equal. auto.
Qed.

Lemma map_nth_seq (l : list nat) : map (fun j => nth j l 0) (seq 0 (length l)) = l.
Proof.
  apply (@list_ext _ 0); rewrite map_length, seq_length; auto.
  intros i Hi. now rewrite nth_map_seq.
Qed.

Lemma all_but_remove1 idx i : NoDup idx -> i < length idx ->
  map (fun j => nth j idx 0) (all_but_asc (length idx) i) = remove1 (nth i idx 0) idx.
Proof.
  unfold all_but_asc. revert i. induction idx as [|a idx IH]; intros i ND Hi; [simpl in *; lia|].
  inversion ND as [|? ? Na ND']; subst. cbn [length seq].
  destruct i as [|i].
  - cbn [filter]. simpl (negb (0 =? 0)). cbn iota.
    rewrite filter_neq_all by (intros k Hk; apply in_seq in Hk; lia).
    simpl. rewrite Nat.eqb_refl. rewrite <- seq_shift, map_map. apply map_nth_seq.
  - cbn [filter]. simpl (negb (0 =? S i)). cbn iota. simpl in Hi.
    cbn [map nth remove1].
    destruct (Nat.eqb_spec (nth i idx 0) a) as [E|N].
    + exfalso. apply Na. rewrite <- E. apply nth_In. lia.
    + f_equal. rewrite <- IH by (auto; lia).
      rewrite <- seq_shift. clear. induction (seq 0 (length idx)) as [|x l IHl]; simpl; auto.
      destruct (x =? i); simpl; auto. f_equal. auto.
Qed.

Lemma sub_sub P0 idx l : (forall j, In j l -> j < length idx) ->
  sub (sub P0 idx) l = sub P0 (map (fun j => nth j idx 0) l).
Proof.
  intros H. unfold sub at 1 3. rewrite map_map. apply map_ext_in. intros i Hi.
  rewrite map_map. apply map_ext_in. intros j Hj. apply sub_get; auto.
Qed.

Lemma fold_upd_col p v l : forall G, square p G -> v < p -> (forall j, In j l -> j < p) ->
  let G' := fold_left (fun G j => upd G j v 1) l G in
  square p G' /\ forall a b, get G' a b = if memb a l && (b =? v) then 1%Z else get G a b.
Proof.
  induction l as [|j l IH]; intros G HG Hv Hl; cbv zeta; simpl; [split; auto|].
  destruct (IH (upd G j v 1)) as (H1 & H2); auto using upd_square.
  { intros k Hk. apply Hl. simpl. auto. }
  split; auto. intros a b. rewrite H2. unfold memb. simpl.
  rewrite (get_upd _ _ _ HG) by (auto; apply Hl; simpl; auto).
  fold (memb a l). destruct (a =? j), (memb a l), (b =? v); auto.
Qed.

Lemma sub_dir P0 idx a b : a < length idx -> b < length idx ->
  (edge (sub P0 idx) a b <-> edge P0 (nth a idx 0) (nth b idx 0)).
Proof. intros Ha Hb. unfold edge. rewrite sub_get by auto. tauto. Qed.

Lemma In_nth_ex (l : list nat) x : In x l -> exists i, i < length l /\ nth i l 0 = x.
Proof. apply In_nth. Qed.

Lemma dt_candidate_spec P0 idx i : i < length idx -> NoDup idx -> loopless P0 ->
  (dt_candidate (sub P0 idx) i = true <-> dt_ok P0 idx (nth i idx 0)).
Proof.
  intros Hi ND LL. pose proof (sub_square P0 idx) as HS. unfold dt_candidate.
  rewrite andb_true_iff, forallb_forall. unfold dt_ok.
  assert (HE : forall a b, a < length idx -> b < length idx ->
    (edge (sub P0 idx) a b <-> edge P0 (nth a idx 0) (nth b idx 0))) by (intros; now apply sub_dir).
  split.
  - intros (H1 & H2). split.
    + intros u Hu D. apply In_nth_ex in Hu. destruct Hu as (b & Hb & <-).
      assert (In b (ch i (sub P0 idx))) as Hin.
      { apply (ch_In _ _ _ _ HS). unfold dir. now rewrite !HE. }
      destruct (ch i (sub P0 idx)); [easy | discriminate].
    + intros y z Hy Hz U A N. apply In_nth_ex in Hy, Hz.
      destruct Hy as (a & Ha & <-), Hz as (b & Hb & <-).
      assert (In a (neighbors i (sub P0 idx))) as Hin.
      { apply (neighbors_In _ _ _ _ HS). unfold und. now rewrite !HE. }
      specialize (H2 a Hin). rewrite subsetb_incl in H2.
      assert (In b (adj a (sub P0 idx))) as Hab.
      { apply H2, minus_In. split.
        - apply (adj_In _ _ _ _ HS). unfold adjacent. now rewrite !HE.
        - simpl. intros [->|[]]. auto. }
      apply (adj_In _ _ _ _ HS) in Hab. unfold adjacent in Hab. now rewrite !HE in Hab.
  - intros (H1 & H2). split.
    + destruct (ch i (sub P0 idx)) as [|b l] eqn:E; auto. exfalso.
      assert (In b (ch i (sub P0 idx))) as Hin by (rewrite E; simpl; auto).
      apply (ch_In _ _ _ _ HS) in Hin. pose proof (edge_lt _ _ _ _ HS (proj1 Hin)) as (_ & Hb).
      apply (H1 (nth b idx 0)); [apply nth_In; auto|]. unfold dir in *. now rewrite <- !HE.
    + intros a Ha. apply (neighbors_In _ _ _ _ HS) in Ha.
      pose proof (edge_lt _ _ _ _ HS (proj1 Ha)) as (_ & La).
      apply subsetb_incl. intros b Hb. apply minus_In in Hb. destruct Hb as (Hb & N).
      apply (adj_In _ _ _ _ HS) in Hb. pose proof (adjacent_lt _ _ _ _ HS Hb) as (_ & Lb).
      apply (adj_In _ _ _ _ HS). unfold adjacent. rewrite !HE by auto.
      apply H2; try (apply nth_In; auto).
      * unfold und in *. now rewrite <- !HE.
      * unfold adjacent in *. now rewrite <- !HE.
      * intros E. apply N. simpl. left. eapply NoDup_nth; eauto.
Qed.

Lemma dt_loop_spec (h : hord) p P0 : square p P0 -> loopless P0 ->
  forall fuel idx G, NoDup idx -> incl idx (seq 0 p) -> length idx <= fuel -> square p G ->
  match dt_loop h all_but_asc fuel (sub P0 idx) G idx with
  | Ok G' => square p G' /\ (forall x y, get G' x y = get G x y \/ und P0 x y /\ get G' x y = 1%Z) /\
      exists order, Permutation order idx /\ removal P0 order /\
        forall x y, edge G' x y <-> edge G x y \/ (und P0 x y /\ precedes order y x)
  | Err e => e = ValueError /\ exists S, S <> [] /\ incl S idx /\ forall v, In v S -> ~ dt_ok P0 S v
  end.
Proof.
  intros HP0 LL. induction fuel as [|f IH]; intros idx G ND Hincl HL HG.
  - destruct idx; [|simpl in HL; lia]. simpl. split; [auto|]. split; [auto|].
    exists []. split; [constructor|]. split.
    + intros a v b E. destruct a; discriminate.
    + intros x y. split; auto. intros [?|(_ & H)]; auto.
      destruct H as (a & b & c & E). destruct a; discriminate.
  - destruct idx as [|x0 idx0] eqn:EI.
    { simpl. split; [auto|]. split; [auto|]. exists []. split; [constructor|]. split.
      + intros a v b E. destruct a; discriminate.
      + intros x y. split; auto. intros [?|(_ & H)]; auto.
        destruct H as (a & b & c & E). destruct a; discriminate. }
    rewrite <- EI in *. cbn [dt_loop].
    assert (HNE : exists r R, sub P0 idx = r :: R).
    { subst idx. unfold sub. simpl. eauto. }
    destruct HNE as (r & R & ES). rewrite ES. rewrite <- ES.
    rewrite sub_length.
    destruct (find (dt_candidate (sub P0 idx)) (seq 0 (length idx))) as [i|] eqn:EF.
    + apply find_some in EF. destruct EF as (Hi & Hc). apply in_seq0 in Hi.
      apply dt_candidate_spec in Hc; auto.
      set (v := nth i idx 0) in *.
      assert (Hv : In v idx) by (apply nth_In; auto).
      assert (Hvp : v < p) by (apply in_seq0, Hincl; auto).
      rewrite sub_sub.
      2:{ intros j Hj. unfold all_but_asc in Hj. apply filter_In in Hj. destruct Hj as (Hj & _).
          now apply in_seq0 in Hj. }
      rewrite all_but_remove1 by auto. fold v.
      set (rn := map (fun j => nth j idx 0) (h (S f) (neighbors i (sub P0 idx)))).
      assert (Hrn : forall y, In y rn <-> In y idx /\ und P0 y v).
      { pose proof (sub_square P0 idx) as HS. intros y. unfold rn. rewrite in_map_iff. split.
        - intros (a & <- & Ha). rewrite ho_In, (neighbors_In _ _ _ _ HS) in Ha.
          pose proof (edge_lt _ _ _ _ HS (proj1 Ha)) as (_ & La). split; [now apply nth_In|].
          unfold und in *. rewrite !sub_dir in Ha by auto. tauto.
        - intros (Hy & U). apply In_nth_ex in Hy. destruct Hy as (a & La & <-). exists a. split; auto.
          rewrite ho_In, (neighbors_In _ _ _ _ HS). unfold und in *. rewrite !sub_dir by auto. tauto. }
      destruct (fold_upd_col p v rn G HG Hvp) as (HG1 & HG2).
      { intros y Hy. apply Hrn in Hy. now apply in_seq0, Hincl. }
      set (G1 := fold_left (fun G j => upd G j v 1) rn G) in *.
      assert (HP' := remove1_perm v idx Hv).
      specialize (IH (remove1 v idx) G1 (remove1_NoDup v idx ND)).
      assert (length (remove1 v idx) <= f).
      { apply Permutation_length in HP'. simpl in HP'. lia. }
      assert (incl (remove1 v idx) (seq 0 p)) as HI'.
      { intros y Hy. apply remove1_In in Hy; auto. now apply Hincl. }
      specialize (IH HI' H HG1).
      destruct (dt_loop h all_but_asc f (sub P0 (remove1 v idx)) G1 (remove1 v idx)) as [G'|e].
      * destruct IH as (HG' & Hval & order & HO & HR & HE). split; auto. split.
        { intros x y. destruct (Hval x y) as [E|E]; auto. rewrite E, HG2.
          destruct (memb x rn && (y =? v)) eqn:EM; auto. apply andb_true_iff in EM. destruct EM as (EM & EV).
          apply memb_In, Hrn in EM. apply Nat.eqb_eq in EV. subst y. right; tauto. }
        exists (v :: order).
        assert (Hmem : forall y, In y order <-> In y idx /\ y <> v).
        { intros y. rewrite <- (remove1_In v idx y ND). split; apply Permutation_in; auto.
          now apply Permutation_sym. }
        split; [|split].
        -- rewrite HP'. now constructor.
        -- apply removal_cons; auto.
           assert (Hmem' : forall y, In y (v :: order) -> In y idx).
           { intros y [<-|Hy]; auto. now apply Hmem in Hy. }
           destruct Hc as (C1 & C2). split; intros; [apply C1 | apply C2]; auto.
        -- intros x y. rewrite HE. rewrite precedes_cons.
           assert (edge G1 x y <-> edge G x y \/ (und P0 x y /\ y = v /\ In x idx)) as ->.
           { unfold edge. rewrite HG2. destruct (memb x rn) eqn:EM, (Nat.eqb_spec y v) as [->|N]; simpl;
               rewrite ?memb_In, ?memb_notIn in EM; rewrite Hrn in EM; split; intros; auto;
               try tauto; lia. }
           split.
           ++ intros [[?|(U & -> & Hx)]|(U & Q)]; auto. right. split; auto. left. split; auto.
              apply Hmem. split; auto. intros ->. now apply (LL v), U.
           ++ intros [?|(U & [(-> & Hx)|Q])]; auto. left. right. apply Hmem in Hx. tauto.
      * destruct IH as (-> & S & HS1 & HS2 & HS3). split; auto. exists S. split; auto. split; auto.
        intros y Hy. apply HS2 in Hy. apply remove1_In in Hy; auto. tauto.
    + split; auto. exists idx. split; [subst; discriminate|]. split; [apply incl_refl|].
      intros v Hv Hok. apply In_nth_ex in Hv. destruct Hv as (i & Hi & <-).
      pose proof (find_none _ _ EF i (proj2 (in_seq0 _ _) Hi)) as HF.
      apply dt_candidate_spec in Hok; auto. congruence.
Qed.

Lemma sub_all p P : square p P -> sub P (seq 0 p) = P.
Proof.
  intros H. apply mat_ext with p; auto.
  - pose proof (sub_square P (seq 0 p)) as HS. now rewrite seq_length in HS.
  - intros i j Hi Hj. rewrite sub_get by (now rewrite seq_length). now rewrite !seq_nth.
Qed.

(** [pdag_to_dag] on any matrix: an extension, or ValueError when there is none. *)
Lemma pdag_to_dag_spec (h : hord) p P : square p P -> loopless P ->
  match pdag_to_dag h P with
  | Ok G => square p G /\ consistent_ext G P /\
            (forall x y, get G x y = get (only_directed P) x y \/ und P x y /\ get G x y = 1%Z)
  | Err e => e = ValueError /\ forall D, square p D -> ~ consistent_ext D P
  end.
Proof.
  intros HP LL. unfold pdag_to_dag, pdag_to_dag_gen. rewrite (square_length HP).
  pose proof (dt_loop_spec h p P HP LL p (seq 0 p) (only_directed P) (seq_NoDup p 0)
                (incl_refl _)) as H.
  rewrite seq_length, (sub_all _ _ HP) in H.
  specialize (H (le_n p) (only_directed_square _ _ HP)).
  destruct (dt_loop h all_but_asc p P (only_directed P) (seq 0 p)) as [G|e].
  - destruct H as (H1 & H2 & order & H3 & H4 & H5). split; auto. split; auto.
    apply removal_ext with p order; auto. intros x y.
    rewrite H5, (only_directed_edge _ _ _ _ HP). tauto.
  - destruct H as (-> & S & H1 & H2 & H3). split; auto. intros D HD HC.
    destruct (ext_dt_ok p D P S HD HC H1 H2) as (v & Hv & Hok). now apply (H3 v).
Qed.

Lemma only_directed_binary p P : square p P -> binary P -> binary (only_directed P).
Proof.
  intros H B i j. rewrite (only_directed_get _ _ _ _ H). destruct (_ && _); auto.
Qed.

Lemma pdag_to_dag_sound (h : hord) p P G : square p P -> loopless P ->
  pdag_to_dag h P = Ok G -> square p G /\ consistent_ext G P.
Proof.
  intros HP LL E. pose proof (pdag_to_dag_spec h p P HP LL) as H. rewrite E in H. tauto.
Qed.

Lemma pdag_to_dag_sound01 (h : hord) p P G : square p P -> binary P -> loopless P ->
  pdag_to_dag h P = Ok G -> dag01 p G /\ consistent_ext G P.
Proof.
  intros HP B LL E. pose proof (pdag_to_dag_spec h p P HP LL) as H. rewrite E in H.
  destruct H as (H1 & H2 & H3). split; auto. split; [auto|]. split; [|apply H2].
  intros x y. destruct (H3 x y) as [E'|[_ E']]; auto. rewrite E'. now apply (only_directed_binary p).
Qed.

Lemma pdag_to_dag_complete (h : hord) p P D : square p P -> loopless P ->
  square p D -> consistent_ext D P -> exists G, pdag_to_dag h P = Ok G.
Proof.
  intros HP LL HD HC. pose proof (pdag_to_dag_spec h p P HP LL) as H.
  destruct (pdag_to_dag h P) as [G|e]; eauto. exfalso. now apply (proj2 H D).
Qed.

Lemma pdag_to_dag_fails (h : hord) p P : square p P -> loopless P ->
  (forall D, square p D -> ~ consistent_ext D P) -> pdag_to_dag h P = Err ValueError.
Proof.
  intros HP LL HN. pose proof (pdag_to_dag_spec h p P HP LL) as H.
  destruct (pdag_to_dag h P) as [G|e].
  - exfalso. destruct H as (H1 & H2 & _). now apply (HN G).
  - destruct H. congruence.
Qed.
