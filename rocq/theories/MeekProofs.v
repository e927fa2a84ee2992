(** Meek's rules, maximally_orient, I-CPDAGs and imec. *)
From Coq Require Import List Arith ZArith Lia Bool Permutation Sorted Relations.
Import ListNotations.
From Verif Require Import Base GraphModel GraphSpec TopoProofs BasicProofs DTProofs SortProofs OrderProofs
  LabelProofs CompelledProofs CpdagProofs EnumProofs.

Lemma filter_true (A : Type) (f : A -> bool) l : (forall x, In x l -> f x = true) -> filter f l = l.
Proof.
  induction l as [|x l IH]; intros H; simpl; auto. rewrite (H x) by (simpl; auto). f_equal.
  apply IH. intros y Hy. apply H. simpl; auto.
Qed.

(** ** What the rule functions test *)
Lemma length_pos (A : Type) (l : list A) : (0 <? length l) = true <-> exists x, In x l.
Proof.
  rewrite Nat.ltb_lt. destruct l as [|x l]; simpl.
  - split; [lia | intros (x & [])].
  - split; [intros _; exists x; auto | lia].
Qed.

Lemma rule_1_spec p P i j : square p P -> (rule_1 i j P = true <-> meek1 P i j).
Proof.
  intros HP. unfold rule_1, meek1. rewrite andb_true_iff, length_pos, negb_true_iff. unfold subsetb.
  rewrite forallb_false. split.
  - intros (_ & k & Hk & E). apply memb_notIn in E. exists k.
    rewrite (pa_In _ _ _ _ HP) in Hk. rewrite (adj_In _ _ _ _ HP) in E. split; auto.
    intros Q. now apply E, adjacent_sym.
  - intros (k & Hk & N).
    assert (In k (pa i P)) as Hin by (now apply (pa_In _ _ _ _ HP)).
    split; [exists k; auto|]. exists k. split; auto. apply memb_notIn. rewrite (adj_In _ _ _ _ HP).
    intros Q. now apply N, adjacent_sym.
Qed.

Lemma rule_2_spec p P i j : square p P -> (rule_2 i j P = true <-> meek2 P i j).
Proof.
  intros HP. unfold rule_2, meek2. rewrite length_pos. split; intros (k & H); exists k;
    rewrite inter_In, (ch_In _ _ _ _ HP), (pa_In _ _ _ _ HP) in *; auto.
Qed.

Lemma rule_3_spec p P i j : square p P -> (rule_3 i j P = true <-> meek3 P i j).
Proof.
  intros HP. unfold rule_3, meek3. rewrite andb_true_iff.
  assert (HI : forall k, In k (inter (neighbors i P) (pa j P)) <-> und P i k /\ dir P k j).
  { intros k. rewrite inter_In, (neighbors_In _ _ _ _ HP), (pa_In _ _ _ _ HP). tauto. }
  set (I := inter (neighbors i P) (pa j P)) in *.
  assert (HE : existsb (fun k => existsb (fun l => negb (memb k (adj l P))) (minus I [k])) I = true <->
               exists k l, In k I /\ In l I /\ k <> l /\ ~ adjacent P k l).
  { rewrite existsb_exists. split.
    - intros (k & Hk & E). apply existsb_exists in E. destruct E as (l & Hl & E).
      apply minus_In in Hl. simpl in Hl. apply negb_true_iff, memb_notIn in E.
      rewrite (adj_In _ _ _ _ HP) in E. exists k, l. split; auto. split; [tauto|]. split; [intuition|].
      intros Q. now apply E, adjacent_sym.
    - intros (k & l & Hk & Hl & N & NA). exists k. split; auto. apply existsb_exists. exists l. split.
      + apply minus_In. simpl. intuition.
      + apply negb_true_iff, memb_notIn. rewrite (adj_In _ _ _ _ HP). intros Q. now apply NA, adjacent_sym. }
  rewrite HE. split.
  - intros (_ & k & l & Hk & Hl & N & NA). apply HI in Hk, Hl. exists k, l. tauto.
  - intros (k & l & N & H1 & H2 & H3 & H4 & NA).
    assert (In k I) as Hk by (apply HI; auto). assert (In l I) as Hl by (apply HI; auto).
    split; [|exists k, l; auto]. apply Nat.leb_le.
    apply (two_length I k l); auto. apply NoDup_inter, neighbors_NoDup.
Qed.

Lemma fold_union_In (f : nat -> list nat) ks : forall acc x,
  In x (fold_left (fun acc k => union acc (f k)) ks acc) <-> In x acc \/ exists k, In k ks /\ In x (f k).
Proof.
  induction ks as [|k ks IH]; intros acc x; simpl.
  - split; auto. intros [|(k & [] & _)]; auto.
  - rewrite IH, union_In. split.
    + intros [[H|H]|(k' & H1 & H2)]; auto; right; [exists k | exists k']; auto.
    + intros [H|(k' & [<-|H1] & H2)]; auto. right. exists k'. auto.
Qed.

Lemma rule_4_spec p P i j : square p P -> (rule_4 i j P = true <-> meek4 P i j).
Proof.
  intros HP. unfold rule_4, meek4. set (Ks := inter (pa j P) (neighbors i P)).
  assert (HK : forall k, In k Ks <-> dir P k j /\ und P i k).
  { intros k. unfold Ks. rewrite inter_In, (neighbors_In _ _ _ _ HP), (pa_In _ _ _ _ HP). tauto. }
  set (Hs := inter (neighbors i P) (fold_left (fun acc k => union acc (pa k P)) Ks [])).
  assert (HH : forall h, In h Hs <-> und P i h /\ exists k, In k Ks /\ dir P h k).
  { intros h. unfold Hs. rewrite inter_In, (neighbors_In _ _ _ _ HP), fold_union_In. simpl. split.
    - intros (H1 & [[]|(k & H2 & H3)]). split; auto. exists k. rewrite (pa_In _ _ _ _ HP) in H3. auto.
    - intros (H1 & k & H2 & H3). split; auto. right. exists k. rewrite (pa_In _ _ _ _ HP). auto. }
  rewrite !andb_true_iff, !length_pos, existsb_exists. split.
  - intros (_ & _ & h & Hh & E). apply HH in Hh. destruct Hh as (H1 & k & Hk & H2). apply HK in Hk.
    apply negb_true_iff, memb_notIn in E. rewrite (adj_In _ _ _ _ HP) in E. exists k, h.
    split; [tauto|]. split; auto. split; [tauto|]. split; auto. intros Q. now apply E, adjacent_sym.
  - intros (k & h & H1 & H2 & H3 & H4 & N).
    assert (In k Ks) as Hk by (apply HK; auto).
    assert (In h Hs) as Hh by (apply HH; split; auto; exists k; auto).
    split; [exists k; auto|]. split; [exists h; auto|]. exists h. split; auto.
    apply negb_true_iff, memb_notIn. rewrite (adj_In _ _ _ _ HP). intros Q. now apply N, adjacent_sym.
Qed.

Lemma rules_spec p P i j : square p P -> (rules i j P = true <-> meek P i j).
Proof.
  intros HP. unfold rules, meek. rewrite !orb_true_iff, (rule_1_spec p), (rule_2_spec p),
    (rule_3_spec p), (rule_4_spec p) by auto. tauto.
Qed.

(** ** Soundness *)
Lemma meek_sound P D i j : consistent_ext D P -> und P i j -> meek P i j -> edge D i j.
Proof.
  intros (AD & HS & HV & HD) HU HM.
  assert (HAd : adjacent D i j) by (apply (HS i j); left; apply HU).
  destruct HAd as [|E]; auto. exfalso. (* j -> i in D *)
  assert (VD : forall a c b, edge D a c -> edge D b c -> a <> b -> ~ adjacent P a b -> dir P a c /\ dir P b c).
  { intros a c b E1 E2 N NA. assert (vstruct D a c b) as V.
    { apply vstruct_dag; auto. split; auto. split; auto. split; auto. now rewrite <- (HS a b). }
    apply HV in V. unfold vstruct in V. tauto. }
  destruct HM as [(k & H1 & N)|[(k & H1 & H2)|[(k & l & N & H1 & H2 & H3 & H4 & NA)|
    (k & h & H1 & H2 & H3 & H4 & NA)]]]; unfold und, dir in *.
  - destruct (VD k i j) as (_ & _ & Q); auto; [intros ->; tauto | tauto].
  - assert (edge D i j); [|now apply (acyclic_asym _ _ _ AD E)].
    apply (path2 D i k j); auto. apply (HS i j). left. tauto.
  - assert (edge D k i) as E1 by (apply (path2 D k j i); auto; apply (HS k i); right; tauto).
    assert (edge D l i) as E2 by (apply (path2 D l j i); auto; apply (HS l i); right; tauto).
    destruct (VD k i l) as ((_ & Q) & _); auto. tauto.
  - assert (edge D k i) as E1 by (apply (path2 D k j i); auto; apply (HS k i); right; tauto).
    assert (edge D h i) as E2 by (apply (path2 D h k i); auto; apply (HS h i); right; tauto).
    destruct (VD h i j) as ((_ & Q) & _); auto; [|tauto].
    intros ->. tauto.
Qed.

(** ** Orienting one edge *)
Lemma orient1 p P i j D0 : square p P -> und P i j -> i <> j -> consistent_ext D0 P -> edge D0 i j ->
  let P' := upd P j i 0 in
  square p P' /\ same_skeleton P P' /\ same_vstructs P P' /\
  (forall a b, edge P' a b <-> edge P a b /\ ~ (a = j /\ b = i)) /\
  (forall a b, dir P' a b <-> dir P a b \/ (a = i /\ b = j)) /\
  (forall D, consistent_ext D P' <-> consistent_ext D P /\ edge D i j).
Proof.
  intros HP HU Nij HD0 E0. cbv zeta. pose proof (edge_lt _ _ _ _ HP (proj1 HU)) as (Hi & Hj).
  assert (HE : forall a b, edge (upd P j i 0) a b <-> edge P a b /\ ~ (a = j /\ b = i))
    by (intros; now apply (get_upd0_edge p)).
  assert (HDir : forall a b, dir (upd P j i 0) a b <-> dir P a b \/ (a = i /\ b = j)).
  { intros a b. unfold dir. rewrite !HE. destruct HU as (U1 & U2). split.
    - intros ((H1 & H2) & H3).
      destruct (edge_dec P b a) as [Eb|]; auto. right.
      destruct (Nat.eq_dec b j), (Nat.eq_dec a i); auto; exfalso; apply H3; split; auto; tauto.
    - intros [(H1 & H2)|(-> & ->)].
      + split; [|tauto]. split; auto. intros (-> & ->). tauto.
      + split; [split; auto; tauto | tauto]. }
  assert (HSk : same_skeleton P (upd P j i 0)).
  { intros a b. unfold adjacent. rewrite !HE. destruct HU as (U1 & U2). split; [|tauto].
    intros [H|H].
    - destruct (Nat.eq_dec a j) as [->|]; [destruct (Nat.eq_dec b i) as [->|]|]; [right|left|left];
        split; auto; tauto.
    - destruct (Nat.eq_dec b j) as [->|]; [destruct (Nat.eq_dec a i) as [->|]|]; [left|right|right];
        split; auto; tauto. }
  assert (HVs : same_vstructs P (upd P j i 0)).
  { intros a c b. unfold vstruct. rewrite !HDir, <- (HSk a b). split; [tauto|].
    intros (H1 & H2 & N & NA). destruct HD0 as (AD & HS & HV & HD).
    assert (F : forall x y, dir P x y \/ (x = i /\ y = j) -> edge D0 x y).
    { intros x y [H|(-> & ->)]; auto. }
    assert (vstruct D0 a c b) as V.
    { apply vstruct_dag; auto. split; auto. split; auto. split; auto. now rewrite <- (HS a b). }
    apply HV in V. exact V. }
  split; [now apply upd_square|]. split; auto. split; auto. split; auto. split; auto.
  intros D. split.
  - intros (AD & HS & HV & HD). split.
    + split; auto. split; [|split].
      * intros a b. rewrite (HSk a b). apply HS.
      * intros a c b. rewrite (HVs a c b). apply HV.
      * intros a b H. apply HD, HDir. auto.
    + apply HD, HDir. auto.
  - intros ((AD & HS & HV & HD) & E). split; auto. split; [|split].
    + intros a b. rewrite <- (HSk a b). apply HS.
    + intros a c b. rewrite <- (HVs a c b). apply HV.
    + intros a b H. apply HDir in H. destruct H as [H|(-> & ->)]; auto.
Qed.

(** ** maximally_orient *)
(** M is P with some undirected edges oriented, and the same extensions. *)
Record refines (p : nat) (P M : mat) : Prop := {
  r_sq : square p M;
  r_bin : binary P -> binary M;
  r_skel : same_skeleton P M;
  r_vs : same_vstructs P M;
  r_edge : forall a b, edge M a b -> edge P a b;
  r_dir : forall a b, dir P a b -> dir M a b;
  r_ext : forall D, consistent_ext D P <-> consistent_ext D M
}.

Lemma refines_refl p P : square p P -> refines p P P.
Proof. intros HP. constructor; auto; try tauto; intros ?; intros; tauto. Qed.

Lemma refines_trans p P Q R : refines p P Q -> refines p Q R -> refines p P R.
Proof.
  intros [a1 a2 a3 a4 a5 a6 a7] [b1 b2 b3 b4 b5 b6 b7]. constructor; auto.
  - intros i j. rewrite (a3 i j). apply b3.
  - intros i c j. rewrite (a4 i c j). apply b4.
  - intros D. rewrite a7. apply b7.
Qed.

Lemma refines_loopless p P M : refines p P M -> loopless P -> loopless M.
Proof. intros H HL i E. apply (r_edge _ _ _ H) in E. now apply (HL i). Qed.

Lemma upd0_binary p P i j : square p P -> i < p -> j < p -> binary P -> binary (upd P i j 0).
Proof. intros HP Hi Hj HB a b. rewrite (get_upd _ _ _ HP) by auto. destruct (_ && _); auto. Qed.

Lemma orient_refines p P i j D0 : square p P -> und P i j -> i <> j -> consistent_ext D0 P ->
  meek P i j -> refines p P (upd P j i 0).
Proof.
  intros HP HU N HD0 HM. pose proof (edge_lt _ _ _ _ HP (proj1 HU)) as (Hi & Hj).
  destruct (orient1 p P i j D0 HP HU N HD0 (meek_sound P D0 i j HD0 HU HM))
    as (A1 & A2 & A3 & A4 & A5 & A6).
  constructor; auto.
  - now apply (upd0_binary p).
  - intros a b H. now apply A4 in H.
  - intros a b H. apply A5. auto.
  - intros D. rewrite A6. split; [|tauto]. intros HD. split; auto. eapply meek_sound; eauto.
Qed.

Lemma mo_for_spec p D0 : forall es P b, square p P -> loopless P -> consistent_ext D0 P ->
  NoDup es -> (forall i j, In (i, j) es -> und P i j /\ j < i) ->
  let '(P', b') := mo_for es P b in
  refines p P P' /\
  (b' = false -> P' = P /\ b = false /\ forall i j, In (i, j) es -> ~ meek P i j /\ ~ meek P j i) /\
  (b' = true -> b = true \/ exists i j, In (i, j) es /\ ~ und P' i j).
Proof.
  induction es as [|(i & j) es IH]; intros P b HP HL HD0 ND He; cbn [mo_for].
  - split; [now apply refines_refl|]. split; [|auto]. intros Q. split; [reflexivity|].
    split; [exact Q|]. intros i j [].
  - inversion ND as [|? ? Nin ND']; subst.
    destruct (He i j) as (HU & Hlt); [simpl; auto|].
    assert (Nij : i <> j) by lia.
    assert (STEP : forall x y, (x = i /\ y = j) \/ (x = j /\ y = i) -> meek P x y ->
      let '(P', b') := mo_for es (upd P y x 0) true in
      refines p P P' /\
      (b' = false -> P' = P /\ b = false /\
         forall i0 j0, In (i0, j0) ((i, j) :: es) -> ~ meek P i0 j0 /\ ~ meek P j0 i0) /\
      (b' = true -> b = true \/ exists i0 j0, In (i0, j0) ((i, j) :: es) /\ ~ und P' i0 j0)).
    { intros x y Hxy HM.
      assert (HUx : und P x y) by (destruct Hxy as [(-> & ->)|(-> & ->)]; [auto | split; apply HU]).
      assert (Nxy : x <> y) by lia.
      pose proof (orient_refines p P x y D0 HP HUx Nxy HD0 HM) as HR.
      destruct (orient1 p P x y D0 HP HUx Nxy HD0 (meek_sound P D0 x y HD0 HUx HM))
        as (A1 & A2 & A3 & A4 & A5 & A6).
      specialize (IH (upd P y x 0) true A1 (refines_loopless _ _ _ HR HL)
                    (proj1 (r_ext _ _ _ HR D0) HD0) ND').
      destruct (mo_for es (upd P y x 0) true) as (P' & b').
      destruct IH as (B1 & B2 & B3).
      { intros a c Hac. destruct (He a c) as (U & Hac'); [simpl; auto|]. split; auto.
        assert (~ (a = i /\ c = j)) by (intros (-> & ->); contradiction).
        assert (~ (a = j /\ c = i)) by lia.
        unfold und. rewrite !A4. unfold und in U. destruct Hxy as [(-> & ->)|(-> & ->)]; split; split; tauto. }
      split; [now apply (refines_trans p P (upd P y x 0))|]. split.
      - intros Q. destruct (B2 Q) as (_ & Q' & _). discriminate.
      - intros _. right. exists i, j. split; [simpl; auto|]. intros (U1 & U2).
        apply (r_edge _ _ _ B1), A4 in U1. apply (r_edge _ _ _ B1), A4 in U2. lia. }
    destruct (rules i j P) eqn:R1; [|destruct (rules j i P) eqn:R2].
    + apply (rules_spec p) in R1; [|exact HP]. apply (STEP i j); auto.
    + apply (rules_spec p) in R2; [|exact HP]. apply (STEP j i); auto.
    + specialize (IH P b HP HL HD0 ND'). destruct (mo_for es P b) as (P' & b').
      destruct IH as (B1 & B2 & B3); [intros; apply He; simpl; auto|]. split; auto. split.
      * intros Q. destruct (B2 Q) as (C1 & C2 & C3). split; auto. split; auto.
        intros a c [Q'|Hin]; auto. inversion Q'; subst a c. split; intros HM;
          apply (rules_spec p) in HM; auto; congruence.
      * intros Q. destruct (B3 Q) as [|(a & c & Hin & NU)]; auto. right. exists a, c. simpl; auto.
Qed.

Lemma undirected_edges_decr p P P' : square p P -> square p P' ->
  (forall a b, edge P' a b -> edge P a b) -> (exists i j, In (i, j) (undirected_edges P) /\ ~ und P' i j) ->
  length (undirected_edges P') < length (undirected_edges P).
Proof.
  intros HP HP' HE (i & j & Hin & NU).
  assert (incl ((i, j) :: undirected_edges P') (undirected_edges P)) as HI.
  { intros (a & b) [Q|Q]; [inversion Q; subst; auto|]. apply (undirected_edges_In p) in Q; auto.
    apply (undirected_edges_In p); auto. destruct Q as ((U1 & U2) & Hlt). split; auto. split; auto. }
  apply NoDup_incl_length in HI; [simpl in HI; lia|]. constructor; [|apply undirected_edges_NoDup].
  intros Q. apply (undirected_edges_In p) in Q; tauto.
Qed.

Definition meek_closed (P : mat) : Prop := forall i j, und P i j -> ~ meek P i j.

Lemma mo_loop_spec p D0 : forall fuel P, square p P -> loopless P -> consistent_ext D0 P ->
  length (undirected_edges P) < fuel ->
  exists M, mo_loop fuel P = Ok M /\ refines p P M /\ meek_closed M.
Proof.
  induction fuel as [|f IH]; intros P HP HL HD0 Hf; [lia|]. simpl.
  pose proof (mo_for_spec p D0 (undirected_edges P) P false HP HL HD0 (undirected_edges_NoDup P)) as HS.
  destruct (mo_for (undirected_edges P) P false) as (P' & b').
  destruct HS as (B1 & B2 & B3); [intros i j H; now apply (undirected_edges_In p) in H|].
  destruct b'.
  - destruct (B3 eq_refl) as [|Hex]; [discriminate|].
    pose proof (undirected_edges_decr p P P' HP (r_sq _ _ _ B1) (r_edge _ _ _ B1) Hex) as Hlt.
    destruct (IH P') as (M & E & HR & HC).
    + apply B1.
    + now apply (refines_loopless p P).
    + now apply (r_ext _ _ _ B1).
    + lia.
    + exists M. split; auto. split; auto. now apply (refines_trans p P P').
  - destruct (B2 eq_refl) as (-> & _ & B4). exists P. split; auto. split; auto.
    intros i j HU. assert (i <> j) by (intros ->; apply (HL j), HU).
    destruct (lt_dec j i).
    + apply (B4 i j). apply (undirected_edges_In p); auto.
    + apply (B4 j i). apply (undirected_edges_In p); auto. split; [split; apply HU | lia].
Qed.

Lemma maximally_orient_spec (h : hord) p P : square p P -> loopless P ->
  (maximally_orient h P = Err ValueError /\ forall D, square p D -> ~ consistent_ext D P) \/
  (exists M, maximally_orient h P = Ok M /\ (exists D, square p D /\ consistent_ext D P) /\
     refines p P M /\ meek_closed M).
Proof.
  intros HP HL. unfold maximally_orient. pose proof (pdag_to_dag_spec h p P HP HL) as HS.
  destruct (pdag_to_dag h P) as [D0|e] eqn:E; cbn [bind].
  - right. destruct HS as (SD & CE & _).
    destruct (mo_loop_spec p D0 (S (length (undirected_edges P))) P) as (M & EM & HR & HC); auto.
    exists M. split; auto. split; auto. exists D0. auto.
  - left. destruct HS as (-> & HS). auto.
Qed.

Lemma maximally_orient_full (h : hord) p P : square p P -> binary P -> loopless P ->
  (maximally_orient h P = Err ValueError /\ forall D, square p D -> ~ consistent_ext D P) \/
  (exists M, maximally_orient h P = Ok M /\ (exists D, square p D /\ consistent_ext D P) /\
     square p M /\ binary M /\ same_skeleton P M /\ same_vstructs P M /\
     (forall a b, edge M a b -> edge P a b) /\ (forall a b, dir P a b -> dir M a b) /\
     (forall D, consistent_ext D M <-> consistent_ext D P) /\
     (forall i j, und M i j -> ~ meek M i j)).
Proof.
  intros HP HB HL. destruct (maximally_orient_spec h p P HP HL) as [H|(M & E & HD & HR & HC)]; auto.
  right. exists M. split; auto. split; auto. destruct HR as [a1 a2 a3 a4 a5 a6 a7].
  split; auto. split; auto. split; auto. split; auto. split; auto. split; auto. split; auto.
  intros D. symmetry. auto.
Qed.

(** ** I-CPDAGs *)
Lemma ic_loop_spec (h : hord) p G : square p G -> acyclic G ->
  forall es P, square p P -> binary P -> loopless P -> consistent_ext G P ->
  (forall x y, In (x, y) es -> edge G x y) ->
  exists M, ic_loop h es P = Ok M /\ square p M /\ binary M /\ loopless M /\ consistent_ext G M /\
    forall D, consistent_ext D M <-> consistent_ext D P /\ forall x y, In (x, y) es -> edge D x y.
Proof.
  intros HG AG. induction es as [|(x & y) es IH]; intros P HP HB HL HE Hes; simpl.
  - exists P. split; [reflexivity|]. split; [exact HP|]. split; [exact HB|]. split; [exact HL|].
    split; [exact HE|]. intros D. split; [|tauto]. intros HD. split; [exact HD|]. intros x y [].
  - assert (Exy : edge G x y) by (apply Hes; simpl; auto).
    assert (Nxy : x <> y) by (intros ->; now apply (acyclic_loopless _ AG y)).
    pose proof (edge_lt _ _ _ _ HG Exy) as (Hx & Hy).
    assert (square p (upd P y x 0) /\ binary (upd P y x 0) /\ loopless (upd P y x 0) /\
      forall D, consistent_ext D (upd P y x 0) <-> consistent_ext D P /\ edge D x y) as (S1 & B1 & L1 & X1).
    { assert (HAd : adjacent P x y) by (destruct HE as (_ & HS & _); apply (HS x y); now left).
      assert (Pxy : edge P x y).
      { destruct (edge_dec P x y) as [|N]; auto. exfalso.
        assert (dir P y x) as Dyx by (split; [destruct HAd; tauto | auto]).
        apply HE in Dyx. now apply (acyclic_asym _ _ _ AG Exy). }
      assert (loopless (upd P y x 0)).
      { intros i E. apply (get_upd0_edge p) in E; auto. now apply (HL i). }
      destruct (edge_dec P y x) as [Pyx|Nyx].
      - destruct (orient1 p P x y G HP (conj Pxy Pyx) Nxy HE Exy) as (A1 & A2 & A3 & A4 & A5 & A6).
        split; auto. split; [now apply (upd0_binary p)|]. split; auto.
      - assert (upd P y x 0 = P) as ->.
        { apply (mat_ext (p:=p)); auto using upd_square. intros i j _ _. rewrite (get_upd _ _ _ HP) by auto.
          destruct (Nat.eqb_spec i y) as [->|], (Nat.eqb_spec j x) as [->|]; simpl; auto.
          symmetry. now apply eqz_nedge. }
        split; auto. split; auto. split; auto. intros D. split; [|tauto]. intros HD. split; auto.
        apply HD. split; auto. }
    destruct (maximally_orient_spec h p (upd P y x 0) S1 L1) as [(_ & N)|(M & E & _ & HR & _)].
    { exfalso. apply (N G HG). apply X1. auto. }
    rewrite E. cbn [bind].
    destruct (IH M) as (M' & E' & S2 & B2 & L2 & C2 & X2); auto.
    + apply HR.
    + now apply (r_bin _ _ _ HR).
    + now apply (refines_loopless _ _ _ HR).
    + apply (r_ext _ _ _ HR), X1. auto.
    + intros a b Hab. apply Hes. simpl; auto.
    + exists M'. split; auto. split; auto. split; auto. split; auto. split; auto.
      intros D. rewrite X2, <- (r_ext _ _ _ HR D), X1. split.
      * intros ((H1 & H2) & H3). split; auto. intros a b [Q|Hin]; auto. inversion Q; subst; auto.
      * intros (H1 & H2). split; [split; auto|]; intros; apply H2; simpl; auto.
Qed.

Lemma same_parents_edges G D v : acyclic G -> acyclic D -> same_skeleton G D ->
  (same_parents G D v <-> (forall j, edge G v j -> edge D v j) /\ (forall j, edge G j v -> edge D j v)).
Proof.
  intros AG AD HS. split.
  - intros H. split; [|intros j E; now apply H]. intros j E.
    assert (adjacent D v j) as [|E'] by (apply (HS v j); now left); auto.
    apply H in E'. exfalso. now apply (acyclic_asym _ _ _ AG E).
  - intros (H1 & H2) i. split; [apply H2|]. intros E.
    assert (adjacent G i v) as [|E'] by (apply (HS i v); now left); auto.
    apply H1 in E'. exfalso. now apply (acyclic_asym _ _ _ AD E).
Qed.

Lemma dag_to_icpdag_spec (h : hord) p G I : square p G -> nonneg G -> acyclic G ->
  exists M, dag_to_icpdag h G I = Ok M /\ square p M /\ binary M /\ loopless M /\ consistent_ext G M /\
    forall D, square p D -> (consistent_ext D M <-> acyclic D /\ imarkov_equiv I G D).
Proof.
  intros HG Hn AG. unfold dag_to_icpdag.
  destruct (dag_to_cpdag_is h p G HG Hn AG) as (C & E & HC). rewrite E. cbn [bind].
  pose proof HC as (SC & BC & _). pose proof (cpdag_loopless p G C HC) as LC.
  set (des := flat_map _ _).
  assert (Hdes : forall x y, In (x, y) des <-> edge G x y /\ (In x I \/ In y I)).
  { intros x y. unfold des. rewrite in_flat_map. split.
    - intros (i & Hi & Hin). apply ho_In in Hi. apply in_app_iff in Hin.
      destruct Hin as [Hin|Hin]; apply in_map_iff in Hin; destruct Hin as (j & Q & Hj);
        inversion Q; subst; apply ho_In in Hj.
      + apply (ch_In _ _ _ _ HG) in Hj. split; [apply Hj | auto].
      + apply (pa_In _ _ _ _ HG) in Hj. split; [apply Hj | auto].
    - intros (Exy & [Hx|Hy]).
      + exists x. split; [now apply ho_In|]. apply in_app_iff. left. apply in_map_iff. exists y.
        split; auto. apply ho_In, (ch_In _ _ _ _ HG). now apply acyclic_dir.
      + exists y. split; [now apply ho_In|]. apply in_app_iff. right. apply in_map_iff. exists x.
        split; auto. apply ho_In, (pa_In _ _ _ _ HG). now apply acyclic_dir. }
  assert (CG : consistent_ext G C).
  { apply (cpdag_extensions p G C G); auto. split; auto. apply markov_equiv_refl. }
  destruct (ic_loop_spec h p G HG AG (rev des) C SC BC LC CG) as (M & EM & SM & BM & LM & CM & XM).
  { intros x y Hin. apply in_rev, Hdes in Hin. tauto. }
  rewrite EM. cbn [bind].
  destruct (is_consistent_extension_spec h p G M HG Hn SM) as [(N & _)|(_ & b & Eb & Hb)].
  { apply nonneg_nocancel, binary_nonneg, BM. }
  { contradiction. }
  rewrite Eb. cbn [bind]. assert (b = true) as -> by (now apply Hb).
  exists M. split; auto. split; auto. split; auto. split; auto. split; auto.
  intros D SD. rewrite XM, (cpdag_extensions p G C D) by auto. unfold imarkov_equiv. split.
  - intros ((AD & HM) & HD). split; auto. split; auto. intros v Hv.
    apply (same_parents_edges G D v); auto; [apply HM|]. split; intros j Ej; apply HD, in_rev; rewrite rev_involutive;
      apply Hdes; auto.
  - intros (AD & HM & HI). split; auto. intros x y Hin. apply in_rev, Hdes in Hin.
    destruct Hin as (Exy & [Hx|Hy]).
    + specialize (HI x Hx). apply same_parents_edges in HI; auto; [apply HI; auto | apply HM].
    + now apply (HI y Hy).
Qed.

Lemma dag_to_icpdag_err (h : hord) p G I : square p G -> nonneg G -> ~ acyclic G ->
  dag_to_icpdag h G I = Err ValueError.
Proof. intros HG Hn HA. unfold dag_to_icpdag. now rewrite (dag_to_cpdag_err h p G HG Hn HA). Qed.

(** ** imec *)
Lemma imec_spec (h : hord) p A I check : square p A -> nonneg A -> 0 < p ->
  ((~ acyclic A \/ ~ incl I (seq 0 p)) /\ imec h A I check = Err ValueError) \/
  (acyclic A /\ incl I (seq 0 p) /\ exists l, imec h A I check = Ok l /\ NoDup l /\
     forall D, In D l <-> dag01 p D /\ imarkov_equiv I A D).
Proof.
  intros HA Hn Hp. unfold imec.
  destruct (acyclic_dec p A HA Hn) as [AA|NA].
  2:{ left. split; auto. now rewrite (is_dag_false h p A HA Hn NA). }
  rewrite (is_dag_true h p A HA Hn AA). cbn [bind negb]. rewrite (square_length HA).
  destruct (subsetb I (seq 0 p)) eqn:ES; cbn [negb].
  2:{ left. split; auto. right. rewrite <- subsetb_incl. congruence. }
  apply subsetb_incl in ES. right. split; auto. split; auto.
  destruct (check && is_chain_graph A) eqn:E.
  - apply andb_true_iff in E. destruct E as (_ & E). unfold chain_graph_IMEC. rewrite E. cbn [negb].
    apply (is_chain_graph_spec p) in E; auto. rewrite (square_length HA).
    assert (BA : binary A).
    { intros i j. rewrite E. unfold chain_graph. rewrite get_mk'. destruct (_ && _); auto. destruct (_ =? _); auto. }
    destruct (chain_graph_MEC_spec p Hp) as (_ & ND & HM).
    eexists. split; [reflexivity|]. split; [now apply NoDup_filter|].
    intros D. rewrite filter_In, HM, <- E, forallb_forall. unfold imarkov_equiv.
    split.
    + intros ((HD & HMk) & HF). split; auto. split; auto. intros v Hv i. unfold edge.
      destruct (lt_dec i p) as [Hi|Hi].
      * specialize (HF (i, v)). simpl in HF. rewrite Z.eqb_eq in HF. rewrite HF; [tauto|].
        apply in_prod; auto. now apply in_seq0.
      * rewrite (get_out (i:=i) (j:=v) HA), (get_out (i:=i) (j:=v) (proj1 HD)) by lia. tauto.
    + intros (HD & HMk & HI). split; auto. intros (i & v) Hin. apply in_prod_iff in Hin. simpl.
      apply Z.eqb_eq. specialize (HI v (proj2 Hin) i). unfold edge in HI.
      destruct HD as (_ & BD & _). destruct (BD i v) as [Q|Q], (BA i v) as [Q'|Q']; rewrite Q, Q' in *; auto; lia.
  - destruct (dag_to_icpdag_spec h p A I HA Hn AA) as (M & EM & SM & BM & LM & CM & XM).
    rewrite EM. cbn [bind].
    destruct (all_dags_exact p M SM BM LM h) as (l & El & ND & Hl).
    { apply (und_or_acyclic p); auto. exists A. split; auto. apply CM. }
    exists l. split; auto. split; auto. intros D. rewrite Hl. split.
    + intros (HD & CE). split; auto. apply XM in CE; [tauto | apply HD].
    + intros (HD & HM). split; auto. apply XM; [apply HD|]. split; auto. apply HD.
Qed.

Lemma imec_no_targets (h : hord) p A check : square p A -> nonneg A -> 
  imec h A [] check = mec h A check.
Proof.
  intros HA Hn. unfold imec, mec. destruct (acyclic_dec p A HA Hn) as [AA|NA].
  2:{ now rewrite (is_dag_false h p A HA Hn NA). }
  rewrite (is_dag_true h p A HA Hn AA). cbn [bind negb subsetb forallb].
  destruct (check && is_chain_graph A) eqn:E.
  - apply andb_true_iff in E. destruct E as (_ & E). unfold chain_graph_IMEC. rewrite E. cbn [negb]. f_equal.
    apply filter_true.
    intros x _. apply forallb_forall. intros (a & b) Hin. apply in_prod_iff in Hin. destruct Hin as (_ & []).
  - unfold dag_to_icpdag. destruct (dag_to_cpdag_is h p A HA Hn AA) as (C & EC & HC). rewrite EC.
    cbn [bind]. assert (h 0 [] = []) as -> by (apply Permutation_nil, Permutation_sym, ho_perm).
    simpl flat_map. simpl rev. cbn [ic_loop bind].
    destruct (is_consistent_extension_spec h p A C HA Hn) as [(N & _)|(_ & b & Eb & Hb)].
    + apply HC.
    + apply nonneg_nocancel, binary_nonneg, HC.
    + contradiction.
    + rewrite Eb. cbn [bind]. assert (b = true) as ->; auto. apply Hb.
      apply (cpdag_extensions p A C A); auto. split; auto. apply markov_equiv_refl.
Qed.

Lemma imec_all_targets (h : hord) p A check : dag01 p A -> 0 < p ->
  imec h A (seq 0 p) check = Ok [A].
Proof.
  intros (HA & BA & AA) Hp.
  destruct (imec_spec h p A (seq 0 p) check HA (binary_nonneg BA) Hp) as [([N|N] & _)|(_ & _ & l & E & ND & Hl)].
  - contradiction.
  - exfalso. apply N. intros x; auto.
  - rewrite E. f_equal.
    assert (H1 : forall D, In D l <-> D = A).
    { intros D. rewrite Hl. split.
      - intros ((SD & BD & AD) & _ & HP). apply (binary_edge_eq p); auto. intros i j. split; intros Ee.
        + apply (HP j); auto. apply in_seq0, (edge_lt _ _ _ _ SD Ee).
        + apply (HP j); auto. apply in_seq0, (edge_lt _ _ _ _ HA Ee).
      - intros ->. split; [split; auto|]. split; [apply markov_equiv_refl|]. intros v _ i. tauto. }
    destruct l as [|a [|b l]].
    + exfalso. now apply (proj2 (H1 A) eq_refl).
    + f_equal. apply H1. simpl; auto.
    + exfalso. inversion ND as [|? ? N _]; subst. apply N.
      assert (a = A) as -> by (apply H1; simpl; auto). assert (b = A) as -> by (apply H1; simpl; auto).
      simpl; auto.
Qed.

(** ** pdag_to_icpdag *)
Lemma pdag_to_icpdag_spec (h : hord) p P I : square p P -> binary P -> loopless P ->
  (((exists v j, In v I /\ und P v j) \/ (forall D, square p D -> ~ consistent_ext D P)) /\
   pdag_to_icpdag h P I = Err ValueError) \/
  ((forall v j, In v I -> ~ und P v j) /\
   exists G M, dag01 p G /\ consistent_ext G P /\ pdag_to_icpdag h P I = Ok M /\
     square p M /\ binary M /\ loopless M /\
     (forall D, square p D -> (consistent_ext D M <-> acyclic D /\ imarkov_equiv I G D)) /\
     (forall D, square p D -> consistent_ext D P -> consistent_ext D M)).
Proof.
  intros HP HB HL. unfold pdag_to_icpdag.
  destruct (existsb (fun i => 0 <? length (neighbors i P)) (h 0 I)) eqn:E.
  - left. split; auto. left. apply existsb_exists in E. destruct E as (v & Hv & E).
    apply length_pos in E. destruct E as (j & Hj). exists v, j. rewrite ho_In in Hv. split; auto.
    now apply (neighbors_In _ _ _ _ HP).
  - rewrite existsb_false in E.
    assert (NU : forall v j, In v I -> ~ und P v j).
    { intros v j Hv HU. specialize (E v). rewrite ho_In in E. specialize (E Hv).
      assert ((0 <? length (neighbors v P)) = true); [|congruence].
      apply length_pos. exists j. now apply (neighbors_In _ _ _ _ HP). }
    pose proof (pdag_to_dag_spec h p P HP HL) as HS.
    destruct (pdag_to_dag h P) as [G|e] eqn:EG; cbn [bind].
    + right. split; auto. destruct (pdag_to_dag_sound01 h p P G HP HB HL EG) as ((SG & BG & AG) & CG).
      destruct (dag_to_icpdag_spec h p G I SG (binary_nonneg BG) AG) as (M & EM & SM & BM & LM & CM & XM).
      exists G, M. split; [split; auto|]. split; auto. split; auto. split; auto. split; auto. split; auto. split; auto.
      intros D SD CD. apply XM; auto. split; [apply CD|].
      pose proof (extensions_equiv P G D CG CD) as HM. split; auto.
      intros v Hv i.
      assert (F : forall X Y, consistent_ext X P -> consistent_ext Y P -> edge X i v -> edge Y i v).
      { intros X Y (AX & SX & _ & DX) (AY & SY & _ & DY) Ex.
        assert (adjacent P i v) as HAd by (apply (SX i v); now left).
        destruct (edge_dec P i v) as [E1|N1], (edge_dec P v i) as [E2|N2].
        - exfalso. apply (NU v i Hv). split; auto.
        - apply DY. split; auto.
        - exfalso. apply (acyclic_asym _ _ _ AX Ex). apply DX. split; auto.
        - destruct HAd; contradiction. }
      split; now apply F.
    + left. destruct HS as (-> & HS). auto.
Qed.

Lemma rules_sound p P D i j : square p P -> und P i j -> consistent_ext D P ->
  rule_1 i j P = true \/ rule_2 i j P = true \/ rule_3 i j P = true \/ rule_4 i j P = true ->
  edge D i j.
Proof.
  intros HP HU HD H. apply (meek_sound P D i j HD HU). unfold meek.
  rewrite (rule_1_spec p), (rule_2_spec p), (rule_3_spec p), (rule_4_spec p) in H by auto. exact H.
Qed.

Lemma rules_patterns p P i j : square p P ->
  (rule_1 i j P = true <-> meek1 P i j) /\ (rule_2 i j P = true <-> meek2 P i j) /\
  (rule_3 i j P = true <-> meek3 P i j) /\ (rule_4 i j P = true <-> meek4 P i j).
Proof.
  intros HP. split; [now apply (rule_1_spec p)|]. split; [now apply (rule_2_spec p)|].
  split; [now apply (rule_3_spec p) | now apply (rule_4_spec p)].
Qed.
