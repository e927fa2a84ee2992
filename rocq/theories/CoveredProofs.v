(** Equivalent DAGs are connected by reversals of covered edges (Chickering 1995). *)
From Coq Require Import ZArith List Bool Arith Lia Permutation Relation_Operators.
Import ListNotations.
From Verif Require Import Base GraphSpec GraphModel TopoProofs SortProofs CompelledProofs.

Definition reverse (G : mat) (x y : nat) : mat := upd (upd G x y 0) y x 1.

Section Covered.
Variable p : nat.

Lemma reverse_square G x y : square p G -> square p (reverse G x y).
Proof. intros. now apply upd_square, upd_square. Qed.

Lemma reverse_edge G x y a b : square p G -> x < p -> y < p -> x <> y ->
  (edge (reverse G x y) a b <-> (a = y /\ b = x) \/ (edge G a b /\ ~ (a = x /\ b = y))).
Proof.
  intros HG Hx Hy N. unfold reverse, edge.
  rewrite (get_upd _ _ _ (upd_square x y 0%Z HG)) by auto.
  destruct (Nat.eqb_spec a y), (Nat.eqb_spec b x); simpl; subst.
  - split; [left; auto | intros _; discriminate].
  - fold (edge (upd G x y 0) y b). rewrite (get_upd0_edge p) by auto. unfold edge. tauto.
  - fold (edge (upd G x y 0) a x). rewrite (get_upd0_edge p) by auto. unfold edge. tauto.
  - fold (edge (upd G x y 0) a b). rewrite (get_upd0_edge p) by auto. unfold edge. tauto.
Qed.

(** The parents of y are x and the parents of x. *)
Definition covered (G : mat) (x y : nat) : Prop := edge G x y /\ forall z, edge G z y <-> edge G z x \/ z = x.

Lemma covered_lt G x y : square p G -> acyclic G -> covered G x y -> x < p /\ y < p /\ x <> y.
Proof.
  intros HG HA [E _]. destruct (edge_lt p G x y HG E). repeat split; auto.
  intros ->. now apply (acyclic_loopless G HA y).
Qed.

Lemma reverse_acyclic G x y : square p G -> acyclic G -> covered G x y -> acyclic (reverse G x y).
Proof.
  intros HG HA HC. destruct (covered_lt _ _ _ HG HA HC) as (Hx & Hy & N). destruct HC as [E C].
  destruct (acyclic_topo p G HG HA) as [l [HP HE]].
  assert (ND : NoDup l) by (apply (Permutation_NoDup (Permutation_sym HP)), seq_NoDup).
  assert (HL : forall a b, edge G a b -> pos l a < pos l b) by (intros a b Hab; apply HE, precedes_pos in Hab; tauto).
  apply (acyclic_measure _ (fun v => if v =? y then 2 * pos l x else 2 * pos l v + 1)).
  intros a b. rewrite reverse_edge by auto. intros [[-> ->]|[Hab Nab]].
  - rewrite Nat.eqb_refl. rewrite (proj2 (Nat.eqb_neq x y)) by auto. lia.
  - destruct (Nat.eqb_spec a y), (Nat.eqb_spec b y); subst.
    + now apply acyclic_loopless in Hab.
    + apply HL in Hab. apply HL in E. lia.
    + apply C in Hab. destruct Hab as [Hab| ->]; [apply HL in Hab; lia | tauto].
    + apply HL in Hab. lia.
Qed.

Lemma reverse_markov G x y : square p G -> acyclic G -> covered G x y -> markov_equiv G (reverse G x y).
Proof.
  intros HG HA HC. pose proof (reverse_acyclic _ _ _ HG HA HC) as HR.
  destruct (covered_lt _ _ _ HG HA HC) as (Hx & Hy & N). destruct HC as [E C].
  assert (RE := fun a b => reverse_edge G x y a b HG Hx Hy N).
  assert (SK : same_skeleton G (reverse G x y)).
  { intros i j. unfold adjacent. rewrite !RE.
    destruct (Nat.eq_dec i x), (Nat.eq_dec j y), (Nat.eq_dec i y), (Nat.eq_dec j x); subst; tauto. }
  split; auto.
  assert (PX : forall z, edge G z x -> edge G z y) by (intros z Hz; apply C; auto).
  intros i c j. unfold vstruct. rewrite !(acyclic_dir _ _ _ HA), !(acyclic_dir _ _ _ HR), (SK i j), !RE.
  rewrite <- (SK i j). split.
  - intros (H1 & H2 & H3 & H4). repeat split; auto; right; split; auto; intros [-> ->].
    + apply C in H2. destruct H2 as [H2|H2]; [apply H4; right | ]; auto.
    + apply C in H1. destruct H1 as [H1|H1]; [apply H4; left | ]; auto.
  - intros (H1 & H2 & H3 & H4).
    destruct H1 as [[-> ->]|[H1 N1]], H2 as [[? ?]|[H2 N2]]; subst; repeat split; auto; try tauto.
    + exfalso. apply H4. right. auto.
    + exfalso. apply H4. left. auto.
Qed.

(** A least element for a measure *)
Lemma least (P : nat -> Prop) (m : nat -> nat) : (forall x, {P x} + {~ P x}) -> (exists x, x < p /\ P x) ->
  exists x, x < p /\ P x /\ forall y, y < p -> P y -> m x <= m y.
Proof.
  intros dec [x0 H0].
  assert (HK : forall k x, m x <= k -> x < p -> P x -> exists x, x < p /\ P x /\ forall y, y < p -> P y -> m x <= m y).
  { induction k as [k IH] using (well_founded_induction lt_wf). intros x Hm Hx HP.
    destruct (Exists_dec (fun y => P y /\ m y < m x) (seq 0 p)) as [He|He].
    - intros y. destruct (dec y), (lt_dec (m y) (m x)); [left | right | right | right]; tauto.
    - apply Exists_exists in He. destruct He as (y & Hy & HPy & Hlt). apply in_seq in Hy.
      apply (IH (m y)) with (x := y); auto; lia.
    - exists x. repeat split; auto. intros y Hy HPy. destruct (le_lt_dec (m x) (m y)); auto.
      exfalso. apply He. apply Exists_exists. exists y. rewrite in_seq. repeat split; auto; lia. }
  destruct H0. eapply HK; eauto.
Qed.

Lemma find_covered G H : square p G -> square p H -> acyclic G -> acyclic H -> markov_equiv G H ->
  (exists a b, edge G a b /\ ~ edge H a b) -> exists x y, covered G x y /\ edge H y x.
Proof.
  intros HG HH AG AH [SK VS] [a0 [b0 [E0 N0]]].
  destruct (acyclic_topo p G HG AG) as [l [HP HE]].
  assert (ND : NoDup l) by (apply (Permutation_NoDup (Permutation_sym HP)), seq_NoDup).
  assert (HL : forall a b, edge G a b -> pos l a < pos l b) by (intros a b Hab; apply HE, precedes_pos in Hab; tauto).
  assert (IN : forall a, a < p -> In a l) by (intros a Ha; apply (Permutation_in _ (Permutation_sym HP)), in_seq; lia).
  pose (R := fun x y => edge G x y /\ ~ edge H x y).
  assert (Rdec : forall x y, {R x y} + {~ R x y}) by (intros x y; unfold R; destruct (edge_dec G x y), (edge_dec H x y); tauto).
  assert (RH : forall x y, R x y -> edge H y x).
  { intros x y [H1 H2]. destruct (proj1 (SK x y) (or_introl H1)); tauto. }
  assert (HRlt : forall x y, R x y -> x < p /\ y < p) by (intros x y [H1 _]; now apply (edge_lt p G)).
  destruct (least (fun y => exists x, In x (seq 0 p) /\ R x y) (pos l)) as (y & Hy & [x1 [Hx1 R1]] & Miny).
  { intros y. destruct (Exists_dec (fun x => R x y) (seq 0 p)) as [He|He]; [auto | left; now apply Exists_exists |
      right; now rewrite <- Exists_exists]. }
  { exists b0. destruct (HRlt a0 b0 (conj E0 N0)). split; auto. exists a0. split; [apply in_seq; lia | now split]. }
  destruct (least (fun x => R x y) (fun x => p - pos l x)) as (x & Hx & R2 & Maxx); [auto | exists x1; apply in_seq in Hx1; split; auto; lia |].
  assert (Rmin : forall a b, R a b -> pos l y <= pos l b).
  { intros a b Rab. destruct (HRlt _ _ Rab). apply Miny; auto. exists a. split; auto. apply in_seq; lia. }
  assert (Rmax : forall a, R a y -> pos l a <= pos l x).
  { intros a Ra. destruct (HRlt _ _ Ra). specialize (Maxx a H0 Ra).
    assert (pos l a < p) by (rewrite <- (seq_length p 0), <- (Permutation_length HP); apply pos_lt; auto).
    assert (pos l x < p) by (rewrite <- (seq_length p 0), <- (Permutation_length HP); apply pos_lt; auto).
    lia. }
  clear Miny Maxx R1 Hx1 x1.
  assert (Hyx := RH _ _ R2). destruct R2 as [Exy Nxy].
  assert (Nne : x <> y) by (intros ->; now apply (acyclic_loopless G AG y)).
  exists x, y. split; auto. split; auto. intros z. split.
  - intros Ezy. destruct (Nat.eq_dec z x) as [->|Nz]; auto. left.
    destruct (adjacent_dec G z x) as [[Ad|Ad]|Ad]; auto.
    + (* x -> z -> y *)
      exfalso. assert (Exz : edge H x z).
      { destruct (edge_dec H x z) as [|Nxz]; auto. assert (Rxz : R x z) by now split. apply Rmin in Rxz. apply HL in Ezy. lia. }
      destruct (edge_dec H z y) as [Hzy|Hzy].
      * apply (AH x). apply t_trans with z; [now apply t_step | apply t_trans with y; now apply t_step].
      * assert (Rzy : R z y) by now split. apply Rmax in Rzy. apply HL in Ad. lia.
    + exfalso. assert (V : vstruct G z y x).
      { split; [now apply acyclic_dir | split; [now apply acyclic_dir | split; auto]]. }
      apply VS in V. destruct V as (_ & [V _] & _). now apply (acyclic_asym H x y AH).
  - intros [Ezx| ->]; auto.
    destruct (adjacent_dec G z y) as [[Ad|Ad]|Ad]; auto.
    + exfalso. apply (AG z). apply t_trans with x; [now apply t_step | apply t_trans with y; now apply t_step].
    + exfalso. destruct (edge_dec H z x) as [Hzx|Hzx].
      * assert (V : vstruct H z x y).
        { split; [now apply acyclic_dir | split; [now apply acyclic_dir | split]].
          - intros ->. now apply (acyclic_asym G x y AG).
          - intros Q. apply Ad. now apply SK. }
        apply VS in V. destruct V as (_ & [V _] & _). now apply (acyclic_asym G x y AG).
      * assert (Rzx : R z x) by now split. apply Rmin in Rzx. apply HL in Exy. lia.
Qed.

(** The number of edges of G that are not in H *)
Definition distance (G H : mat) : nat :=
  length (filter (fun ab => nz (get G (fst ab) (snd ab)) && negb (nz (get H (fst ab) (snd ab)))) (list_prod (seq 0 p) (seq 0 p))).

Lemma filter_mono_lt (A : Type) (f g : A -> bool) l x : (forall a, g a = true -> f a = true) -> In x l -> f x = true -> g x = false ->
  length (filter g l) < length (filter f l).
Proof.
  intros S. assert (LE : forall l, length (filter g l) <= length (filter f l)).
  { induction l0 as [|a l0 IH]; simpl; auto. destruct (g a) eqn:Eg.
    - rewrite (S _ Eg). simpl. lia.
    - destruct (f a); simpl; lia. }
  induction l as [|a l IH]; simpl; [easy|]. intros [->|HI] Hf Hg.
  - rewrite Hf, Hg. simpl. specialize (LE l). lia.
  - specialize (IH HI Hf Hg). destruct (g a) eqn:Eg.
    + rewrite (S _ Eg). simpl. lia.
    + destruct (f a); simpl; lia.
Qed.

Lemma nzP G a b : nz (get G a b) = true <-> edge G a b.
Proof. unfold nz, edge. destruct (Z.eqb_spec (get G a b) 0); simpl; split; intros; congruence. Qed.

Lemma markov_trans' G1 G2 G3 : markov_equiv G1 G2 -> markov_equiv G1 G3 -> markov_equiv G2 G3.
Proof.
  intros [S1 V1] [S2 V2]. split.
  - intros i j. rewrite <- (S1 i j). apply S2.
  - intros i c j. rewrite <- (V1 i c j). apply V2.
Qed.

Lemma covered_ind (I : list nat) (H : mat) (T : mat -> Prop) : square p H -> acyclic H ->
  (forall G, square p G -> (forall i j, edge G i j <-> edge H i j) -> T G) ->
  (forall G x y, square p G -> acyclic G -> covered G x y -> ~ In x I -> ~ In y I -> T (reverse G x y) -> T G) ->
  forall G, square p G -> acyclic G -> imarkov_equiv I G H -> T G.
Proof.
  intros HH AH Hend Hstep.
  assert (HK : forall k G, distance G H <= k -> square p G -> acyclic G -> imarkov_equiv I G H -> T G).
  { induction k as [k IH] using (well_founded_induction lt_wf). intros G Hk HG AG [ME SP].
    destruct (Exists_dec (fun ab => edge G (fst ab) (snd ab) /\ ~ edge H (fst ab) (snd ab)) (list_prod (seq 0 p) (seq 0 p))) as [He|He].
    - intros [a b]. simpl. destruct (edge_dec G a b), (edge_dec H a b); tauto.
    - apply Exists_exists in He. destruct He as ([a0 b0] & _ & E0). simpl in E0.
      destruct (find_covered G H HG HH AG AH ME (ex_intro _ a0 (ex_intro _ b0 E0))) as (x & y & HC & Hyx).
      destruct (covered_lt _ _ _ HG AG HC) as (Hx & Hy & N). pose proof (proj1 HC) as Exy.
      assert (Nxy : ~ edge H x y) by now apply acyclic_asym.
      assert (Nx : ~ In x I) by (intros Q; apply (acyclic_asym G x y AG Exy); now apply (SP x Q)).
      assert (Ny : ~ In y I) by (intros Q; apply Nxy; now apply (SP y Q)).
      apply (Hstep G x y); auto.
      apply (IH (distance (reverse G x y) H)); auto.
      + apply Nat.lt_le_trans with (distance G H); auto. unfold distance. apply filter_mono_lt with (x := (x, y)); simpl.
        * intros [a b]. simpl. rewrite !andb_true_iff, !negb_true_iff, !nzP. rewrite reverse_edge by auto.
          intros [[[-> ->]|[H1 _]] H2]; split; auto. apply nzP in Hyx. congruence.
        * apply in_prod; apply in_seq; lia.
        * rewrite andb_true_iff, negb_true_iff, nzP. split; auto. destruct (nz (get H x y)) eqn:En; auto. now apply nzP in En.
        * apply andb_false_iff. left. destruct (nz (get (reverse G x y) x y)) eqn:En; auto. apply nzP in En.
          rewrite reverse_edge in En by auto. destruct En as [[? _]|[_ ?]]; tauto.
      + now apply reverse_square.
      + now apply reverse_acyclic.
      + split.
        * apply (markov_trans' G); auto. now apply reverse_markov.
        * intros v Hv i. rewrite reverse_edge by auto. rewrite <- (SP v Hv i). split.
          -- intros [[-> ->]|[H1 _]]; [tauto | auto].
          -- intros H1. right. split; auto. intros [-> ->]. tauto.
    - apply Hend; auto. intros i j. split.
      + intros E. destruct (edge_dec H i j) as [|Nh]; auto. exfalso. apply He. apply Exists_exists. exists (i, j).
        destruct (edge_lt p G i j HG E). split; [apply in_prod; apply in_seq; lia | now split].
      + intros E. destruct ME as [SK _]. destruct (proj2 (SK i j) (or_introl E)) as [|E']; auto.
        exfalso. destruct (edge_dec H j i) as [Eh|Nh]; [now apply (acyclic_asym H i j AH)|].
        apply He. apply Exists_exists. exists (j, i). destruct (edge_lt p G j i HG E').
        split; [apply in_prod; apply in_seq; lia | now split]. }
  intros G. now apply HK with (k := distance G H).
Qed.
End Covered.
