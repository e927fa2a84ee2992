(** label_edges, dag_to_cpdag, pdag_to_cpdag. *)
From Coq Require Import List Arith ZArith Lia Bool Permutation Sorted Relations.
Import ListNotations.
From Verif Require Import Base GraphModel GraphSpec TopoProofs BasicProofs DTProofs SortProofs OrderProofs
  LabelProofs CompelledProofs.

Lemma label_edges_compelled (h : hord) p G : square p G -> nonneg G -> acyclic G ->
  exists O L, order_edges h G = Ok O /\ label_edges h O = Ok L /\ square p L /\
  forall a b,
    (get L a b = 1%Z <-> edge G a b /\ forall D, acyclic D -> markov_equiv G D -> edge D a b) /\
    (get L a b = (-1)%Z <-> edge G a b /\ exists D, dag01 p D /\ markov_equiv G D /\ edge D b a) /\
    (get L a b = 0%Z <-> ~ edge G a b).
Proof.
  intros HG Hn HA. destruct (label_edges_spec h p G HG Hn HA) as (order & O & L & HT & EO & EL & HL).
  exists O, L. split; auto. split; auto. split; [apply HL|]. intros a b.
  apply (labels_compelled p G order L HG HA HT HL).
Qed.

(** Setting both entries of the listed pairs *)
Lemma fold_both p : forall (l : list (nat * nat)) m, square p m ->
  (forall i j, In (i, j) l -> i < p /\ j < p) ->
  let m' := fold_left (fun c e => let '(x, y) := e in upd (upd c x y 1) y x 1) l m in
  square p m' /\
  forall a b, get m' a b = 1%Z /\ (In (a, b) l \/ In (b, a) l) \/
              (~ In (a, b) l /\ ~ In (b, a) l /\ get m' a b = get m a b).
Proof.
  induction l as [|(x & y) l IH]; intros m Hm Hl; cbv zeta; simpl; [split; auto|].
  assert (Hxy : x < p /\ y < p) by (apply Hl; simpl; auto).
  destruct (IH (upd (upd m x y 1) y x 1)) as (H1 & H2); auto using upd_square.
  { intros i j Hij. apply Hl. simpl. auto. }
  split; auto. intros a b. destruct (H2 a b) as [(E & H)|(N1 & N2 & E)].
  - left. split; auto. tauto.
  - rewrite (get_upd _ _ _ (upd_square x y 1 Hm)) in E by tauto. rewrite (get_upd _ _ _ Hm) in E by tauto.
    destruct ((a =? y) && (b =? x)) eqn:Q1; [|destruct ((a =? x) && (b =? y)) eqn:Q2].
    + left. split; auto. apply andb_true_iff in Q1. rewrite !Nat.eqb_eq in Q1. destruct Q1. subst. auto.
    + left. split; auto. apply andb_true_iff in Q2. rewrite !Nat.eqb_eq in Q2. destruct Q2. subst. auto.
    + apply andb_false_iff in Q1, Q2. rewrite !Nat.eqb_neq in Q1, Q2.
      right. split; [|split; auto]; intros [Q|Q]; try contradiction; inversion Q; subst; tauto.
Qed.

(** Entries of the CPDAG *)
Lemma dag_to_cpdag_spec (h : hord) p G : square p G -> nonneg G -> acyclic G ->
  exists C, dag_to_cpdag h G = Ok C /\ square p C /\ binary C /\
    forall i j, edge C i j <-> exists D, dag01 p D /\ markov_equiv G D /\ edge D i j.
Proof.
  intros HG Hn HA. destruct (label_edges_compelled h p G HG Hn HA) as (O & L & EO & EL & SL & HL).
  unfold dag_to_cpdag. rewrite EO. cbn [bind]. rewrite EL. cbn [bind]. rewrite (square_length SL).
  set (C0 := mk p (fun i j => if (get L i j =? 1)%Z then get L i j else 0%Z)).
  set (l := where2 p (fun i j => (get L i j =? -1)%Z)).
  assert (Hl : forall i j, In (i, j) l <-> get L i j = (-1)%Z).
  { intros i j. unfold l. rewrite where2_In, Z.eqb_eq. split; [tauto|]. intros E.
    assert (get L i j <> 0%Z) as N by (rewrite E; discriminate). pose proof (get_lt SL N). tauto. }
  destruct (fold_both p l C0) as (SC & HC); [apply mk_square| |].
  { intros i j Hin. unfold l in Hin. rewrite where2_In in Hin. tauto. }
  eexists. split; [reflexivity|]. split; auto.
  set (C := fold_left _ l C0) in *.
  assert (H0 : forall i j, get C0 i j = if (get L i j =? 1)%Z then 1%Z else 0%Z).
  { intros i j. unfold C0. rewrite get_mk'.
    destruct (Nat.ltb_spec i p), (Nat.ltb_spec j p); simpl;
      [destruct (Z.eqb_spec (get L i j) 1) as [->|]; auto| | |];
      rewrite (get_out (i:=i) (j:=j) SL) by lia; auto. }
  split.
  - intros i j. destruct (HC i j) as [(E & _)|(_ & _ & E)]; auto. rewrite E, H0.
    destruct (_ =? _)%Z; auto.
  - assert (HCe : forall i j, edge C i j <->
        get L i j = 1%Z \/ get L i j = (-1)%Z \/ get L j i = (-1)%Z).
    { intros i j. unfold edge. rewrite <- !Hl. destruct (HC i j) as [(E & H)|(N1 & N2 & E)].
      - rewrite E. split; [tauto | discriminate].
      - rewrite E, H0. destruct (Z.eqb_spec (get L i j) 1); split; intros; try tauto; try discriminate. }
    assert (exists G', dag01 p G' /\ markov_equiv G G' /\ forall i j, edge G' i j <-> edge G i j) as HG'.
    { exists (to01 G).
      assert (HE : forall i j, edge (to01 G) i j <-> edge G i j).
      { intros i j. unfold edge, to01. rewrite get_mk', (square_length HG).
        destruct (Nat.ltb_spec i p), (Nat.ltb_spec j p); simpl;
          [destruct (nz (get G i j)) eqn:Q; rewrite ?nz_true, ?nz_false in Q;
             split; intros; auto; try discriminate | | |];
          rewrite (get_out (i:=i) (j:=j) HG) by lia; tauto. }
      split; [|split; auto].
      - split; [unfold to01; rewrite (square_length HG); apply mk_square|]. split.
        + intros i j. unfold to01. rewrite get_mk'. destruct (_ && _); auto. destruct (nz _); auto.
        + apply (acyclic_ext _ _ HE). auto.
      - split; [intros i j | intros i c j]; unfold vstruct, dir, adjacent; rewrite !HE; tauto. }
    intros i j. rewrite HCe. destruct (HL i j) as (A1 & A2 & A3). destruct (HL j i) as (B1 & B2 & B3).
    split.
    + intros [E|[E|E]].
      * destruct HG' as (G' & D1 & D2 & D3). exists G'. split; auto. split; auto.
        apply D3. tauto.
      * destruct HG' as (G' & D1 & D2 & D3). exists G'. split; auto. split; auto.
        apply D3. tauto.
      * apply B2 in E. destruct E as (_ & D & D1 & D2 & D3). exists D. auto.
    + intros (D & D1 & D2 & D3). assert (adjacent G i j) as HAd by (apply (proj1 D2 i j); now left).
      destruct HAd as [E|E].
      * destruct (Z.eq_dec (get L i j) 0) as [Q|Q]; [tauto|].
        destruct (Z.eq_dec (get L i j) 1); [tauto|]. right. left.
        (* labels are 0, 1 or -1 *)
        destruct (label_edges_spec h p G HG Hn HA) as (order & O' & L' & HT & EO' & EL' & HL').
        rewrite EO in EO'. inversion EO'; subst O'. rewrite EL in EL'. inversion EL'; subst L'.
        destruct HL' as (_ & _ & Hlab & _). destruct (Hlab i j E); auto. contradiction.
      * right. right. apply B2. split; auto. exists D. auto.
Qed.

Lemma dag_to_cpdag_err (h : hord) p G : square p G -> nonneg G -> ~ acyclic G ->
  dag_to_cpdag h G = Err ValueError.
Proof. intros HG Hn HA. unfold dag_to_cpdag. now rewrite (order_edges_err h p G HG Hn HA). Qed.

(** The CPDAG of G: a matrix whose entries are decided by the class of G *)
Definition is_cpdag (p : nat) (G C : mat) : Prop :=
  square p C /\ binary C /\
  forall i j, edge C i j <-> exists D, dag01 p D /\ markov_equiv G D /\ edge D i j.

Lemma to01_dag p G : square p G -> acyclic G ->
  dag01 p (to01 G) /\ markov_equiv G (to01 G) /\ forall i j, edge (to01 G) i j <-> edge G i j.
Proof.
  intros HG HA.
  assert (HE : forall i j, edge (to01 G) i j <-> edge G i j).
  { intros i j. unfold edge, to01. rewrite get_mk', (square_length HG).
    destruct (Nat.ltb_spec i p), (Nat.ltb_spec j p); simpl;
      [destruct (nz (get G i j)) eqn:Q; rewrite ?nz_true, ?nz_false in Q;
         split; intros; auto; try discriminate | | |];
      rewrite (get_out (i:=i) (j:=j) HG) by lia; tauto. }
  split; [|split; auto].
  - split; [unfold to01; rewrite (square_length HG); apply mk_square|]. split.
    + intros i j. unfold to01. rewrite get_mk'. destruct (_ && _); auto. destruct (nz _); auto.
    + apply (acyclic_ext _ _ HE). auto.
  - split; [intros i j | intros i c j]; unfold vstruct, dir, adjacent; rewrite !HE; tauto.
Qed.

(** A DAG has the same skeleton and v-structures as its CPDAG. *)
Lemma cpdag_skeleton p G C : square p G -> acyclic G -> is_cpdag p G C -> same_skeleton G C.
Proof.
  intros HG HA (_ & _ & HC) i j. unfold adjacent at 2. rewrite !HC. split.
  - intros [E|E]; [left | right]; destruct (to01_dag p G HG HA) as (D1 & D2 & D3);
      exists (to01 G); rewrite D3; auto.
  - intros [(D & _ & (HS & _) & E)|(D & _ & (HS & _) & E)]; apply (HS i j); [left | right]; auto.
Qed.

Lemma cpdag_dir p G C i j : square p G -> acyclic G -> is_cpdag p G C ->
  (dir C i j <-> adjacent G i j /\ forall D, dag01 p D -> markov_equiv G D -> edge D i j).
Proof.
  intros HG HA HC. pose proof HC as (_ & _ & HE). unfold dir. rewrite !HE. split.
  - intros ((D0 & _ & M0 & E0) & N).
    assert (HAd : adjacent G i j) by (apply (proj1 M0 i j); now left). split; auto.
    intros D HD HM. apply (proj1 HM i j) in HAd. destruct HAd as [|E]; auto. exfalso. apply N.
    exists D. auto.
  - intros (HAd & H). destruct (to01_dag p G HG HA) as (D1 & D2 & D3). split.
    + exists (to01 G). auto.
    + intros (D & HD & HM & E). specialize (H D HD HM). now apply (acyclic_asym _ _ _ (proj2 (proj2 HD)) H).
Qed.

Lemma cpdag_vstructs p G C : square p G -> acyclic G -> is_cpdag p G C -> same_vstructs G C.
Proof.
  intros HG HA HC i c j. pose proof (cpdag_skeleton p G C HG HA HC) as HS.
  unfold vstruct at 2. rewrite !(cpdag_dir p G C) by auto. rewrite <- (HS i j). split.
  - intros V. assert (forall D, acyclic D -> markov_equiv G D -> edge D i c /\ edge D j c) as F.
    { intros D AD (_ & HV). apply HV, vstruct_dag in V; tauto. }
    apply vstruct_dag in V; auto. destruct V as (E1 & E2 & N & NA).
    split; [|split; [|tauto]]; (split; [now left|]); intros D HD HM; apply F; auto; apply HD.
  - intros ((A1 & H1) & (A2 & H2) & N & NA). destruct (to01_dag p G HG HA) as (D1 & D2 & D3).
    apply vstruct_dag; auto. split; [apply D3, H1; auto|]. split; [apply D3, H2; auto|]. tauto.
Qed.

(** The consistent extensions of the CPDAG are the equivalent DAGs. *)
Lemma cpdag_extensions p G C D : square p G -> acyclic G -> is_cpdag p G C -> square p D ->
  (consistent_ext D C <-> acyclic D /\ markov_equiv G D).
Proof.
  intros HG HA HC HD. pose proof (cpdag_skeleton p G C HG HA HC) as HS.
  pose proof (cpdag_vstructs p G C HG HA HC) as HV. split.
  - intros (AD & S1 & V1 & _). split; auto. split.
    + intros i j. rewrite (HS i j). apply S1.
    + intros i c j. rewrite (HV i c j). apply V1.
  - intros (AD & (S1 & V1)). split; auto. split; [|split].
    + intros i j. rewrite <- (HS i j). apply S1.
    + intros i c j. rewrite <- (HV i c j). apply V1.
    + intros i j E. apply (cpdag_dir p G C) in E; auto. destruct E as (_ & E).
      destruct (to01_dag p D HD AD) as (D1 & D2 & D3). apply D3, E; auto.
      apply (markov_equiv_trans _ D); auto. split; auto.
Qed.

Lemma cpdag_unique p G G' C C' : markov_equiv G G' -> is_cpdag p G C -> is_cpdag p G' C' -> C = C'.
Proof.
  intros HM (S1 & B1 & E1) (S2 & B2 & E2). apply (binary_edge_eq p); auto. intros i j.
  rewrite E1, E2. split; intros (D & D1 & D2 & D3); exists D; split; auto; split; auto.
  - apply (markov_equiv_trans _ G); auto. now apply markov_equiv_sym.
  - apply (markov_equiv_trans _ G'); auto.
Qed.

Lemma dag_to_cpdag_is (h : hord) p G : square p G -> nonneg G -> acyclic G ->
  exists C, dag_to_cpdag h G = Ok C /\ is_cpdag p G C.
Proof.
  intros HG Hn HA. destruct (dag_to_cpdag_spec h p G HG Hn HA) as (C & E & H). exists C. split; auto.
Qed.

Lemma dag_to_cpdag_canonical (h h' : hord) p G G' :
  square p G -> nonneg G -> acyclic G -> square p G' -> nonneg G' -> acyclic G' ->
  (dag_to_cpdag h G = dag_to_cpdag h' G' <-> markov_equiv G G').
Proof.
  intros HG Hn HA HG' Hn' HA'.
  destruct (dag_to_cpdag_is h p G HG Hn HA) as (C & E & HC).
  destruct (dag_to_cpdag_is h' p G' HG' Hn' HA') as (C' & E' & HC'). rewrite E, E'. split.
  - intros Q. inversion Q; subst C'. split.
    + intros i j. rewrite (cpdag_skeleton p G C HG HA HC i j).
      symmetry. apply (cpdag_skeleton p G' C HG' HA' HC' i j).
    + intros i c j. rewrite (cpdag_vstructs p G C HG HA HC i c j).
      symmetry. apply (cpdag_vstructs p G' C HG' HA' HC' i c j).
  - intros HM. f_equal. now apply (cpdag_unique p G G').
Qed.

(** pdag_to_cpdag *)
Lemma extensions_equiv P G D : consistent_ext G P -> consistent_ext D P -> markov_equiv G D.
Proof.
  intros (_ & S1 & V1 & _) (_ & S2 & V2 & _). split.
  - intros i j. rewrite <- (S1 i j). apply S2.
  - intros i c j. rewrite <- (V1 i c j). apply V2.
Qed.

Lemma pdag_to_cpdag_spec (h : hord) p P : square p P -> binary P -> loopless P ->
  (pdag_to_cpdag h P = Err ValueError /\ forall D, square p D -> ~ consistent_ext D P) \/
  (exists C, pdag_to_cpdag h P = Ok C /\ square p C /\ binary C /\
     (exists D, dag01 p D /\ consistent_ext D P) /\
     forall G, square p G -> consistent_ext G P ->
       forall i j, edge C i j <-> exists D, dag01 p D /\ markov_equiv G D /\ edge D i j).
Proof.
  intros HP HB HL. unfold pdag_to_cpdag. pose proof (pdag_to_dag_spec h p P HP HL) as HS.
  destruct (pdag_to_dag h P) as [G|e] eqn:EG; cbn [bind].
  - right. destruct (pdag_to_dag_sound01 h p P G HP HB HL EG) as ((S1 & B1 & A1) & CE).
    destruct (dag_to_cpdag_is h p G S1 (binary_nonneg B1) A1) as (C & E & SC & BC & HC).
    exists C. split; auto. split; auto. split; auto. split.
    + exists G. split; [split; auto|exact CE].
    + intros G' SG' CE' i j. rewrite HC. pose proof (extensions_equiv P G G' CE CE') as HM.
      split; intros (D & D1 & D2 & D3); exists D; split; auto; split; auto.
      * apply (markov_equiv_trans _ G); auto. now apply markov_equiv_sym.
      * apply (markov_equiv_trans _ G'); auto.
  - left. destruct HS as (-> & HS). auto.
Qed.
