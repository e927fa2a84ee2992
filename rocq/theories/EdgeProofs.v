(** remove_edges and add_edges. *)
From Coq Require Import List Arith ZArith Lia Bool Permutation Relations.
Import ListNotations.
From Verif Require Import Base GraphModel GraphSpec TopoProofs BasicProofs Basic2Proofs.

Lemma to01_square p A : square p A -> square p (to01 A).
Proof. intros HA. unfold to01. rewrite (square_length HA). apply mk_square. Qed.

Lemma to01_get p A i j : square p A -> get (to01 A) i j = if nz (get A i j) then 1%Z else 0%Z.
Proof.
  intros HA. unfold to01. rewrite (square_length HA).
  destruct (lt_dec i p), (lt_dec j p); [now rewrite get_mk by auto| | |];
    rewrite (get_out (i:=i) (j:=j) HA) by lia; apply (get_out (mk_square p _)); lia.
Qed.

Lemma to01_edge p A i j : square p A -> (edge (to01 A) i j <-> edge A i j).
Proof.
  intros HA. unfold edge at 1. rewrite (to01_get p) by auto. unfold edge.
  destruct (nz (get A i j)) eqn:E.
  - apply nz_true in E. split; [auto | lia].
  - apply nz_false in E. split; [lia | congruence].
Qed.

Lemma to01_binary p A : square p A -> binary (to01 A).
Proof. intros HA i j. rewrite (to01_get p) by auto. destruct (nz _); auto. Qed.

Lemma acyclic_sub A B : (forall i j, edge A i j -> edge B i j) -> acyclic B -> acyclic A.
Proof.
  intros H HB i Hc. apply (HB i). revert Hc. generalize i at 2 4. intros k Hc.
  induction Hc; [apply t_step; auto | eapply t_trans; eauto].
Qed.

Lemma perm_In (A : Type) (l m : list A) x : Permutation l m -> (In x l <-> In x m).
Proof. intros H. split; apply Permutation_in; auto. now apply Permutation_sym. Qed.

(** ** Counting *)
Lemma NoDup_same_length (A : Type) (l m : list A) : NoDup l -> NoDup m -> (forall x, In x l <-> In x m) ->
  length l = length m.
Proof. intros H1 H2 H. apply Nat.le_antisymm; apply NoDup_incl_length; auto; intros x; apply H. Qed.

Lemma edge_count_fun A n m : edge_count A n -> edge_count A m -> n = m.
Proof.
  intros (l & H1 & H2 & <-) (l' & H1' & H2' & <-). apply NoDup_same_length; auto.
  intros (i & j). now rewrite H2, H2'.
Qed.

Lemma dir_count_fun A n m : dir_count A n -> dir_count A m -> n = m.
Proof.
  intros (l & H1 & H2 & <-) (l' & H1' & H2' & <-). apply NoDup_same_length; auto.
  intros (i & j). now rewrite H2, H2'.
Qed.

Lemma msum_count01 p A : square p A -> binary A ->
  msum A = Z.of_nat (length (where2 p (fun i j => nz (get A i j)))).
Proof.
  intros SA BA. unfold msum, where2. rewrite (square_length SA).
  induction (pairs p) as [|(i & j) l IH]; auto. simpl map. simpl filter. cbn [sumZ fold_right fst snd].
  destruct (BA i j) as [E|E]; rewrite E.
  - change (nz 0) with false. cbn iota. fold (sumZ (map (fun e => get A (fst e) (snd e)) l)). lia.
  - change (nz 1) with true. cbn iota. cbn [length].
    fold (sumZ (map (fun e => get A (fst e) (snd e)) l)). lia.
Qed.

Lemma msum_edges p A n : square p A -> binary A -> (msum A = Z.of_nat n <-> edge_count A n).
Proof.
  intros SA BA. rewrite (msum_count01 p) by auto.
  set (l := where2 p (fun i j => nz (get A i j))).
  assert (Hl : forall i j, In (i, j) l <-> edge A i j).
  { intros i j. unfold l. rewrite where2_In, nz_true. fold (edge A i j). split; [tauto|]. intros E.
    pose proof (edge_lt _ _ _ _ SA E). tauto. }
  assert (EC : edge_count A (length l)).
  { exists l. split; [apply NoDup_where2 | auto]. }
  split.
  - intros E. apply Nat2Z.inj in E. now rewrite <- E.
  - intros H. f_equal. now apply (edge_count_fun A).
Qed.

Lemma edge_count_exists p A : square p A -> edge_count A (length (where2 p (fun i j => nz (get A i j)))).
Proof.
  intros SA. exists (where2 p (fun i j => nz (get A i j))). split; [apply NoDup_where2|]. split; auto.
  intros i j. rewrite where2_In, nz_true. fold (edge A i j). split; [tauto|]. intros E.
  pose proof (edge_lt _ _ _ _ SA E). tauto.
Qed.

Lemma edge_count_eq A B n : (forall i j, edge A i j <-> edge B i j) -> edge_count A n -> edge_count B n.
Proof. intros H (l & H1 & H2 & H3). exists l. split; auto. split; auto. intros i j. now rewrite H2. Qed.

Lemma edge_count_complete p A n : square p A -> acyclic A ->
  (forall i j, i < p -> j < p -> i <> j -> adjacent A i j) -> edge_count A n -> n = p * (p - 1) / 2.
Proof.
  intros SA AA HC (l & ND & Hl & <-).
  set (swap := fun e : nat * nat => (snd e, fst e)).
  set (diag := map (fun i => (i, i)) (seq 0 p)).
  assert (HS : forall i j, In (i, j) (map swap l) <-> edge A j i).
  { intros i j. rewrite in_map_iff. split.
    - intros ((a & b) & E & Hin). unfold swap in E. simpl in E. inversion E; subst. now apply Hl.
    - intros E. exists (j, i). split; auto. now apply Hl. }
  assert (HD : forall i j, In (i, j) diag <-> i = j /\ i < p).
  { intros i j. unfold diag. rewrite in_map_iff. split.
    - intros (x & E & Hx). inversion E; subst. split; auto. now apply in_seq0.
    - intros (<- & Hi). exists i. split; auto. now apply in_seq0. }
  assert (length (l ++ map swap l ++ diag) = length (pairs p)) as E.
  { apply NoDup_same_length.
    - apply NoDup_app; auto.
      + apply NoDup_app.
        * apply FinFun.Injective_map_NoDup; auto. intros (a & b) (c & d) Q. unfold swap in Q. simpl in Q. congruence.
        * apply FinFun.Injective_map_NoDup; [|apply seq_NoDup]. intros a b Q. congruence.
        * intros (i & j) H1 H2. rewrite HS in H1. rewrite HD in H2. destruct H2 as (-> & _).
          now apply (acyclic_loopless _ AA j).
      + intros (i & j) H1 H2. rewrite Hl in H1. apply in_app_iff in H2. rewrite HS, HD in H2.
        destruct H2 as [H2|(-> & _)]; [now apply (acyclic_asym _ _ _ AA H1) | now apply (acyclic_loopless _ AA j)].
    - apply NoDup_pairs.
    - intros (i & j). rewrite !in_app_iff, Hl, HS, HD, pairs_In. split.
      + intros [H|[H|(<- & H)]]; auto; apply (edge_lt _ _ _ _ SA) in H; tauto.
      + intros (Hi & Hj). destruct (Nat.eq_dec i j) as [->|N]; auto.
        destruct (HC i j Hi Hj N); auto. }
  rewrite !app_length, map_length in E. unfold diag in E. rewrite map_length, seq_length in E.
  unfold pairs in E. rewrite prod_length, seq_length in E.
  assert (p * (p - 1) = length l * 2) as -> by (destruct p; [simpl in *; lia | cbn [Nat.sub]; rewrite Nat.sub_0_r; nia]).
  now rewrite Nat.div_mul.
Qed.

(** ** remove_edges *)
Definition pair_dec (x y : nat * nat) : {x = y} + {x <> y}.
Proof. decide equality; apply Nat.eq_dec. Defined.
Definition minus2 (l m : list (nat * nat)) : list (nat * nat) :=
  filter (fun e => if in_dec pair_dec e m then false else true) l.
Lemma minus2_In l m e : In e (minus2 l m) <-> In e l /\ ~ In e m.
Proof.
  unfold minus2. rewrite filter_In. destruct (in_dec pair_dec e m); split; intros (H1 & H2); try discriminate; auto.
Qed.
Lemma minus2_length l m : NoDup l -> NoDup m -> incl m l -> length (minus2 l m) = length l - length m.
Proof.
  intros H1 H2 HI.
  assert (length (minus2 l m ++ m) = length l) as E; [|rewrite app_length in E; lia].
  apply NoDup_same_length; auto.
  - apply NoDup_app; auto; [apply NoDup_filter; auto|]. intros e He. now apply minus2_In in He.
  - intros e. rewrite in_app_iff, minus2_In. split; [intros [H|H]; [tauto | now apply HI]|].
    intros H. destruct (in_dec pair_dec e m); auto.
Qed.

Lemma fold_remove p : forall es A, square p A -> (forall i j, In (i, j) es -> i < p /\ j < p) ->
  let R := fold_left (fun M e => upd M (fst e) (snd e) 0) es A in
  square p R /\ (binary A -> binary R) /\
  forall a b, edge R a b <-> edge A a b /\ ~ In (a, b) es.
Proof.
  induction es as [|(i & j) es IH]; intros A HA He; cbn [fold_left fst snd].
  - split; auto. split; auto. intros a b. simpl. tauto.
  - destruct (He i j) as (Hi & Hj); [simpl; auto|].
    destruct (IH (upd A i j 0)) as (S1 & B1 & E1).
    + now apply upd_square.
    + intros a b Hab. apply He. simpl; auto.
    + split; auto. split.
      * intros BA. apply B1. intros a b. rewrite (get_upd _ _ _ HA) by auto. destruct (_ && _); auto.
      * intros a b. rewrite E1, (get_upd0_edge p) by auto. simpl. split.
        -- intros ((H1 & H2) & H3). split; auto. intros [Q|Q]; auto. inversion Q; subst. tauto.
        -- intros (H1 & H2). split; [|tauto]. split; auto. intros (-> & ->). tauto.
Qed.

(** What numpy's [choice(edges, k, replace=False)] may return. *)
Definition chooses (choice : list (nat * nat) -> nat -> list (nat * nat)) : Prop :=
  forall l k, k <= length l -> NoDup l ->
    NoDup (choice l k) /\ incl (choice l k) l /\ length (choice l k) = k.

Lemma remove_edges_spec choice p A k n : chooses choice -> square p A -> dir_count A n ->
  (n < k /\ remove_edges choice A k = Err ValueError) \/
  (k <= n /\ exists R, remove_edges choice A k = Ok R /\ square p R /\ binary R /\
     (forall i j, edge R i j -> edge A i j) /\ (forall i j, und R i j <-> und A i j) /\
     dir_count R (n - k) /\ (acyclic A -> acyclic R)).
Proof.
  intros HC HA HN. unfold remove_edges.
  pose proof (to01_square p A HA) as H1.
  assert (HD : forall i j, In (i, j) (directed_edges (to01 A)) <-> dir A i j).
  { intros i j. rewrite (directed_edges_In p) by auto. unfold dir. now rewrite !(to01_edge p). }
  assert (length (directed_edges (to01 A)) = n) as EN.
  { apply (dir_count_fun A); auto. exists (directed_edges (to01 A)). split; [apply directed_edges_NoDup|]. auto. }
  destruct (length (directed_edges (to01 A)) <? k) eqn:E.
  - left. apply Nat.ltb_lt in E. split; auto. lia.
  - right. apply Nat.ltb_ge in E. split; [lia|].
    destruct (HC (directed_edges (to01 A)) k E (directed_edges_NoDup _)) as (C1 & C2 & C3).
    set (cs := choice (directed_edges (to01 A)) k) in *.
    assert (Hcs : forall i j, In (i, j) cs -> dir A i j) by (intros i j Hin; apply HD, C2, Hin).
    destruct (fold_remove p cs (to01 A) H1) as (S1 & B1 & E1).
    { intros i j Hin. apply (edge_lt _ _ _ _ HA). apply Hcs in Hin. apply Hin. }
    set (R := fold_left _ cs (to01 A)) in *.
    assert (E2 : forall a b, edge R a b <-> edge A a b /\ ~ In (a, b) cs)
      by (intros; rewrite E1, (to01_edge p); tauto).
    exists R. split; auto. split; auto. split; [apply B1, (to01_binary p), HA|].
    assert (HS : forall i j, edge R i j -> edge A i j) by (intros i j Hij; now apply E2 in Hij).
    split; auto. split.
    + intros i j. unfold und. rewrite !E2. split; [tauto|]. intros (U1 & U2). split; (split; auto);
        intros Hin; apply Hcs in Hin; destruct Hin as (_ & Q); contradiction.
    + split; [|now apply acyclic_sub].
      exists (minus2 (directed_edges (to01 A)) cs). split; [apply NoDup_filter, directed_edges_NoDup|]. split.
      * intros i j. rewrite minus2_In, HD. unfold dir. rewrite !E2. split.
        -- intros ((Q1 & Q2) & Q3). split; [auto | tauto].
        -- intros ((Q1 & Q2) & Q3). split; auto. split; auto. intros Q4. apply Q3. split; auto.
           intros Hin. apply Hcs in Hin. destruct Hin as (_ & Q). contradiction.
      * rewrite minus2_length; [lia | apply directed_edges_NoDup | exact C1 | exact C2].
Qed.

(** ** add_edges *)
Lemma upd1_edge p A i j a b : square p A -> i < p -> j < p ->
  (edge (upd A i j 1) a b <-> edge A a b \/ (a = i /\ b = j)).
Proof.
  intros HA Hi Hj. unfold edge. rewrite (get_upd _ _ _ HA) by auto.
  destruct (Nat.eqb_spec a i) as [->|], (Nat.eqb_spec b j) as [->|]; simpl; split; auto; try tauto; try lia.
Qed.

Lemma t_rt (R : nat -> nat -> Prop) x y : clos_trans nat R x y -> clos_refl_trans nat R x y.
Proof. induction 1; [now apply rt_step | eapply rt_trans; eauto]. Qed.

Lemma upd1_path p A i j x y : square p A -> i < p -> j < p -> clos_trans nat (edge (upd A i j 1)) x y ->
  clos_trans nat (edge A) x y \/ (clos_refl_trans nat (edge A) x i /\ clos_refl_trans nat (edge A) j y).
Proof.
  intros HA Hi Hj H. apply clos_trans_t1n in H. induction H as [x y H|x y z H _ IH].
  - apply (upd1_edge p) in H; auto. destruct H as [H|(-> & ->)]; [left; now apply t_step|].
    right. split; apply rt_refl.
  - apply (upd1_edge p) in H; auto. destruct IH as [IH|(I1 & I2)], H as [H|(-> & ->)].
    + left. apply t_trans with y; auto. now apply t_step.
    + right. split; [apply rt_refl | now apply t_rt].
    + right. split; auto. apply rt_trans with y; auto. now apply rt_step.
    + right. split; auto. apply rt_refl.
Qed.

Lemma rt_t (R : nat -> nat -> Prop) x y : clos_refl_trans nat R x y -> x = y \/ clos_trans nat R x y.
Proof.
  intros H. apply clos_rt_rt1n in H. induction H as [|x y z H _ IH]; auto. right.
  destruct IH as [<-|IH]; [now apply t_step | apply t_trans with y; auto; now apply t_step].
Qed.

Lemma clos_trans_mono (R S : nat -> nat -> Prop) x y : (forall a b, R a b -> S a b) ->
  clos_trans nat R x y -> clos_trans nat S x y.
Proof. intros H Hc. induction Hc; [apply t_step; auto | eapply t_trans; eauto]. Qed.

Lemma add_loop_spec (h : hord) p A k : square p A -> (0 <= k)%Z ->
  forall edges sup, (forall i j, In (i, j) edges -> i < p /\ j < p /\ i <> j) ->
    dag01 p sup -> (msum sup - msum A <= k)%Z ->
  exists R, add_loop h A k edges sup = Ok R /\ dag01 p R /\ (forall i j, edge sup i j -> edge R i j) /\
    (msum R - msum A <= k)%Z /\
    (msum R - msum A = k \/ forall i j, In (i, j) edges -> edge R i j \/ ~ ~ clos_trans nat (edge R) j i)%Z.
Proof.
  intros HA Hk. induction edges as [|(i & j) es IH]; intros sup He HD Hs; cbn [add_loop];
    destruct (msum sup - msum A <? k)%Z eqn:E.
  - exists sup. split; [reflexivity|]. split; [exact HD|]. split; [tauto|]. split; [exact Hs|]. right. intros i j [].
  - exists sup. split; [reflexivity|]. split; [exact HD|]. split; [tauto|]. split; [exact Hs|]. apply Z.ltb_ge in E. left. lia.
  - apply Z.ltb_lt in E. destruct (He i j) as (Hi & Hj & Nij); [simpl; auto|].
    destruct HD as (SD & BD & AD).
    assert (S1 : square p (upd sup i j 1)) by (now apply upd_square).
    assert (B1 : binary (upd sup i j 1)).
    { intros a b. rewrite (get_upd _ _ _ SD) by auto. destruct (_ && _); auto. }
    assert (M1 : (msum (upd sup i j 1) <= msum sup + 1)%Z).
    { pose proof (edge_count_exists p _ S1) as C1. pose proof (edge_count_exists p _ SD) as C2.
      set (n1 := length (where2 p (fun a b => nz (get (upd sup i j 1) a b)))) in *.
      set (n2 := length (where2 p (fun a b => nz (get sup a b)))) in *.
      rewrite (proj2 (msum_edges p _ n1 S1 B1) C1), (proj2 (msum_edges p _ n2 SD BD) C2).
      destruct C1 as (l1 & ND1 & H1 & E1). destruct C2 as (l2 & ND2 & H2 & E2).
      assert (length l1 <= length ((i, j) :: l2)); [|simpl in *; lia].
      apply NoDup_incl_length; auto. intros (a & b) Hin. apply H1, (upd1_edge p) in Hin; auto. simpl.
      destruct Hin as [Hin|(-> & ->)]; auto. right. now apply H2. }
    destruct (acyclic_dec p (upd sup i j 1) S1 (binary_nonneg B1)) as [A1|N1].
    + rewrite (is_dag_true h p _ S1 (binary_nonneg B1) A1). cbn [bind].
      destruct (IH (upd sup i j 1)) as (R & ER & DR & MR & KR & FR).
      * intros a b Hab. apply He. simpl; auto.
      * split; auto.
      * lia.
      * exists R. split; auto. split; auto. split; [intros a b Hab; apply MR, (upd1_edge p); auto|].
        split; auto. destruct FR as [FR|FR]; auto. right. intros a b [Q|Hin]; auto. inversion Q; subst a b.
        left. apply MR, (upd1_edge p); auto.
    + rewrite (is_dag_false h p _ S1 (binary_nonneg B1) N1). cbn [bind].
      destruct (IH sup) as (R & ER & DR & MR & KR & FR).
      * intros a b Hab. apply He. simpl; auto.
      * split; auto.
      * auto.
      * exists R. split; auto. split; auto. split; auto.
        split; auto. destruct FR as [FR|FR]; auto. right. intros a b [Q|Hin]; auto. inversion Q; subst a b.
        right. intros NC. apply N1. intros x Hx.
        apply (upd1_path p) in Hx; auto. destruct Hx as [Hx|(X1 & X2)]; [now apply (AD x)|].
        destruct (rt_t _ _ _ (rt_trans _ _ _ _ _ X2 X1)) as [Q0|Q0]; [congruence|].
        apply NC. now apply (clos_trans_mono (edge sup)).
  - exists sup. split; [reflexivity|]. split; [exact HD|]. split; [tauto|]. split; [exact Hs|]. apply Z.ltb_ge in E. left. lia.
Qed.

Lemma add_edges_spec (h : hord) shuffle p A n k : (forall l, Permutation (shuffle l) l) ->
  square p A -> acyclic A -> edge_count A n -> (0 <= k)%Z ->
  ((k > Z.of_nat (p * (p - 1) / 2) - Z.of_nat n)%Z /\ add_edges h shuffle A k = Err ValueError) \/
  ((k <= Z.of_nat (p * (p - 1) / 2) - Z.of_nat n)%Z /\
   exists R, add_edges h shuffle A k = Ok R /\ dag01 p R /\ (forall i j, edge A i j -> edge R i j) /\
     edge_count R (n + Z.to_nat k)).
Proof.
  intros Hsh HA AA HN Hk. unfold add_edges.
  pose proof (to01_square p A HA) as S0. pose proof (to01_binary p A HA) as B0.
  assert (E0 : forall i j, edge (to01 A) i j <-> edge A i j) by (intros; now apply (to01_edge p)).
  assert (D0 : dag01 p (to01 A)).
  { split; auto. split; auto. apply (acyclic_sub _ A); auto. intros i j. apply E0. }
  assert (M0 : msum (to01 A) = Z.of_nat n).
  { apply (msum_edges p); auto. apply (edge_count_eq A); auto. intros i j. now rewrite E0. }
  rewrite M0, (square_length S0).
  destruct (Z.of_nat (p * (p - 1) / 2) - Z.of_nat n <? k)%Z eqn:E.
  { left. apply Z.ltb_lt in E. split; auto. lia. }
  right. apply Z.ltb_ge in E. split; auto.
  set (es := shuffle (where2 p _)).
  assert (Hes : forall i j, In (i, j) es <-> i < p /\ j < p /\ i <> j /\ ~ adjacent A i j).
  { intros i j. unfold es. rewrite (perm_In _ _ _ _ (Hsh _)), where2_In, Z.eqb_eq.
    pose proof (E0 i j) as F1. pose proof (E0 j i) as F2. unfold adjacent. rewrite <- F1, <- F2.
    unfold edge. destruct (B0 i j) as [Q1|Q1], (B0 j i) as [Q2|Q2]; rewrite Q1, Q2;
      destruct (Nat.eqb_spec i j); intuition lia. }
  destruct (add_loop_spec h p (to01 A) k S0 Hk es (to01 A)) as (R & ER & DR & MR & KR & FR); auto.
  { intros i j Hin. apply Hes in Hin. tauto. }
  { lia. }
  rewrite ER. cbn [bind]. rewrite M0 in *. pose proof DR as (SR & BR & AR).
  assert (KK : (msum R - Z.of_nat n = k)%Z).
  { destruct FR as [FR|FR]; auto.
    assert (HC : forall i j, i < p -> j < p -> i <> j -> adjacent R i j).
    { intros i j Hi Hj N. destruct (edge_dec (to01 A) i j) as [Ei|Ni]; [left; auto|].
      destruct (edge_dec (to01 A) j i) as [Ej|Nj]; [right; auto|].
      rewrite E0 in Ni, Nj.
      destruct (FR i j) as [|P1]; [apply Hes; unfold adjacent; tauto | left; auto |].
      destruct (FR j i) as [|P2]; [apply Hes; unfold adjacent; intuition | right; auto |].
      exfalso. apply P1. intros Q1. apply P2. intros Q2. apply (AR i). now apply t_trans with j. }
    pose proof (edge_count_exists p R SR) as CR.
    pose proof (edge_count_complete p R _ SR AR HC CR) as EQ.
    apply (msum_edges p) in CR; auto. rewrite CR, EQ in *. lia. }
  rewrite KK, Z.eqb_refl. exists R. split; auto. split; auto. split.
  - intros i j Hij. apply MR, E0, Hij.
  - apply (msum_edges p); auto. lia.
Qed.

Lemma is_stable_set_raises S j I G : exists e, is_stable_set S j I G = Err e /\
  ((forall i, In i I -> i < length G) -> e = NameError).
Proof.
  unfold is_stable_set. destruct (forallb _ I) eqn:E; eexists; (split; [reflexivity|]); auto.
  intros H. apply forallb_false in E. destruct E as (x & Hx & E). apply Nat.ltb_ge in E. specialize (H x Hx). lia.
Qed.
