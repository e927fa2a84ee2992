(** label_edges: the labels it computes, as a recursive characterisation. *)
From Coq Require Import List Arith ZArith Lia Bool Permutation Sorted Relations.
Import ListNotations.
From Verif Require Import Base GraphModel GraphSpec TopoProofs BasicProofs SortProofs OrderProofs.

(** x is the parent of y that comes last in the order. *)
Definition latest (order : list nat) (G : mat) (x y : nat) : Prop :=
  edge G x y /\ forall z, edge G z y -> pos order z <= pos order x.

(** What label_edges does with the edges into y. *)
Definition colspec (order : list nat) (G L : mat) (y : nat) : Prop :=
  forall x, latest order G x y ->
  ((exists w, get L w x = COM /\ ~ edge G w y) -> forall z, edge G z y -> get L z y = COM) /\
  ((forall w, get L w x = COM -> edge G w y) ->
   (exists z, edge G z y /\ z <> x /\ ~ edge G z x) -> forall z, edge G z y -> get L z y = COM) /\
  ((forall w, get L w x = COM -> edge G w y) ->
   (forall z, edge G z y -> z <> x -> edge G z x) ->
   forall z, edge G z y -> (get L z x = COM -> get L z y = COM) /\
                           (get L z x <> COM -> get L z y = REV)).

Lemma latest_unique p G order x x' y : square p G -> topo_order p G order ->
  latest order G x y -> latest order G x' y -> x = x'.
Proof.
  intros HG HT (E1 & L1) (E2 & L2). specialize (L1 _ E2). specialize (L2 _ E1).
  pose proof (edge_lt _ _ _ _ HG E1) as (Hx & _). pose proof (edge_lt _ _ _ _ HG E2) as (Hx' & _).
  assert (ND : NoDup order) by (eapply Permutation_NoDup; [apply Permutation_sym, HT | apply seq_NoDup]).
  apply (pos_inj order); auto; [| | lia];
    eapply Permutation_in; try (apply Permutation_sym, HT); now apply in_seq0.
Qed.

Lemma fold_upd_colv p v c l : forall G, square p G -> v < p -> (forall j, In j l -> j < p) ->
  let G' := fold_left (fun G j => upd G j v c) l G in
  square p G' /\ forall a b, get G' a b = if memb a l && (b =? v) then c else get G a b.
Proof.
  induction l as [|j l IH]; intros G HG Hv Hl; cbv zeta; simpl; [split; auto|].
  destruct (IH (upd G j v c)) as (H1 & H2); auto using upd_square.
  { intros k Hk. apply Hl. simpl. auto. }
  split; auto. intros a b. rewrite H2. unfold memb. simpl.
  rewrite (get_upd _ _ _ HG) by (auto; apply Hl; simpl; auto).
  fold (memb a l). destruct (a =? j), (memb a l), (b =? v); auto.
Qed.

Lemma le_for_all p y Ws : forall L, square p L -> y < p -> (forall w, In w Ws -> w < p) ->
  (forall w, In w Ws -> edge L w y) ->
  exists L', le_for Ws y L = (L', false) /\ square p L' /\
    forall a b, get L' a b = if memb a Ws && (b =? y) then COM else get L a b.
Proof.
  induction Ws as [|w Ws IH]; intros L HL Hy Hw HE; simpl.
  - exists L. auto.
  - assert (Hwp : w < p) by (apply Hw; simpl; auto).
    destruct (Z.eqb_spec (get L w y) 0) as [E|_].
    { exfalso. apply (HE w); simpl; auto. }
    destruct (IH (upd L w y COM)) as (L' & E & H1 & H2); auto using upd_square.
    + intros. apply Hw. simpl; auto.
    + intros w' Hw'. unfold edge. rewrite (get_upd _ _ _ HL) by auto.
      destruct (_ && _); [discriminate|]. apply HE. simpl; auto.
    + exists L'. split; auto. split; auto. intros a b. rewrite H2, (get_upd _ _ _ HL) by auto.
      unfold memb. simpl. fold (memb a Ws). destruct (a =? w), (memb a Ws), (b =? y); auto.
Qed.

Lemma le_for_some p y Ws : forall L, square p L -> y < p -> (forall w, In w Ws -> w < p) ->
  (forall a b, edge L a b -> ~ edge L b a) ->
  (exists w, In w Ws /\ ~ edge L w y) ->
  exists L', le_for Ws y L = (L', true) /\ square p L' /\
    forall a b, get L' a b = if nz (get L a b) && (b =? y) then COM else get L a b.
Proof.
  induction Ws as [|w Ws IH]; intros L HL Hy Hw HA HX; simpl.
  - destruct HX as (w & [] & _).
  - assert (Hwp : w < p) by (apply Hw; simpl; auto).
    destruct (Z.eqb_spec (get L w y) 0) as [E|NE].
    + destruct (fold_upd_colv p y COM (pa y L) L HL Hy) as (H1 & H2).
      { intros j Hj. apply (pa_In _ _ _ _ HL) in Hj. apply (edge_lt _ _ _ _ HL (proj1 Hj)). }
      eexists. split; [reflexivity|]. split; auto. intros a b. rewrite H2.
      destruct (Nat.eqb_spec b y) as [->|N]; [|now rewrite !andb_false_r].
      rewrite !andb_true_r. destruct (memb a (pa y L)) eqn:EM.
      * apply memb_In, (pa_In _ _ _ _ HL) in EM.
        assert (nz (get L a y) = true) as -> by (apply nz_true, EM). auto.
      * destruct (nz (get L a y)) eqn:EN; auto. exfalso. apply memb_notIn in EM. apply EM.
        apply nz_true in EN. apply (pa_In _ _ _ _ HL). split; auto.
    + assert (HE : forall a b, edge (upd L w y COM) a b <-> edge L a b).
      { intros a b. unfold edge. rewrite (get_upd _ _ _ HL) by auto.
        destruct (Nat.eqb_spec a w) as [->|Na], (Nat.eqb_spec b y) as [->|Nb]; simpl; try tauto.
        split; auto. intros _. discriminate. }
      destruct (IH (upd L w y COM)) as (L' & E & H1 & H2); auto using upd_square.
      * intros. apply Hw. simpl; auto.
      * intros a b E1 E2. rewrite HE in E1, E2. now apply (HA a b).
      * destruct HX as (w' & [->|Hw'] & N); [contradiction|]. exists w'. split; auto. now rewrite HE.
      * exists L'. split; auto. split; auto. intros a b. rewrite H2, (get_upd _ _ _ HL) by auto.
        destruct (Nat.eqb_spec a w) as [->|Na], (Nat.eqb_spec b y) as [->|Nb]; simpl; auto.
        apply nz_true in NE. rewrite NE. auto.
Qed.

Lemma argmaxZ_spec f l : forall b, In (argmaxZ f l b) (b :: l) /\
  forall e, In e (b :: l) -> (f e <= f (argmaxZ f l b))%Z.
Proof.
  induction l as [|e l IH]; intros b; simpl.
  - split; auto. intros e [<-|[]]. lia.
  - destruct (IH (if (f b <? f e)%Z then e else b)) as (H1 & H2). split.
    + destruct H1 as [H1|H1]; auto. destruct (f b <? f e)%Z; auto.
    + intros e' He'. destruct (Z.ltb_spec (f b) (f e)) as [L|L].
      * destruct He' as [<-|[<-|He']].
        -- specialize (H2 e (or_introl eq_refl)). lia.
        -- apply H2. simpl; auto.
        -- apply H2. simpl; auto.
      * destruct He' as [<-|[<-|He']].
        -- apply H2. simpl; auto.
        -- specialize (H2 b (or_introl eq_refl)). lia.
        -- apply H2. simpl; auto.
Qed.

Section Label.
  Variables (p : nat) (G : mat) (order : list nat) (O : mat).
  Hypothesis HG : square p G.
  Hypothesis HA : acyclic G.
  Hypothesis HT : topo_order p G order.
  Hypothesis HO : square p O.
  Hypothesis OE : forall a b, edge O a b <-> edge G a b.
  Hypothesis OR : forall a b, edge G a b -> (1 <= get O a b)%Z.
  Hypothesis OL : forall a b c d, edge G a b -> edge G c d ->
                    ((get O a b < get O c d)%Z <-> klt order a b c d).

  Let ND : NoDup order.
  Proof. eapply Permutation_NoDup; [apply Permutation_sym, HT | apply seq_NoDup]. Qed.
  Let Inn : forall v, v < p -> In v order.
  Proof. intros v Hv. eapply Permutation_in; [apply Permutation_sym, HT | now apply in_seq0]. Qed.

  (** Column y of L is not processed / is processed. *)
  Definition col_unk (L : mat) (y : nat) : Prop := forall z, edge G z y -> get L z y = UNK.
  Definition col_done (L : mat) (y : nat) : Prop :=
    (forall z, edge G z y -> get L z y = COM \/ get L z y = REV).

  Record linv (L : mat) : Prop := {
    l_sq : square p L;
    l_edge : forall a b, edge L a b <-> edge G a b;
    l_col : forall y, col_unk L y \/
              (col_done L y /\ colspec order G L y /\ forall x, edge G x y -> col_done L x)
  }.

  Definition unk (L : mat) : list (nat * nat) := where2 p (fun i j => (get L i j =? UNK)%Z).

  Lemma unk_In L a b : square p L -> (In (a, b) (unk L) <-> get L a b = UNK).
  Proof.
    intros H. unfold unk. rewrite where2_In, Z.eqb_eq. split; [tauto|].
    intros E. assert (get L a b <> 0%Z) as N by (rewrite E; discriminate).
    pose proof (get_lt H N). tauto.
  Qed.

  Lemma le_pick_spec L : linv L -> unk L <> [] ->
    exists x y, le_pick O L = (x, y) /\ edge G x y /\ get L x y = UNK /\
      latest order G x y /\ col_unk L y /\ (forall a, edge G a y -> col_done L a).
  Proof.
    intros HI HN. pose proof HI as [Lsq Ledge Lcol]. unfold le_pick. rewrite (square_length HO).
    set (val := fun e : nat * nat => if (get L (fst e) (snd e) =? UNK)%Z
                                     then get O (fst e) (snd e) else 0%Z).
    change (filter _ (pairs p)) with (filter (fun e => nz (val e)) (pairs p)).
    assert (HF : forall a b, In (a, b) (filter (fun e => nz (val e)) (pairs p)) <-> get L a b = UNK).
    { intros a b. rewrite filter_In, pairs_In, nz_true. unfold val. simpl.
      destruct (Z.eqb_spec (get L a b) UNK) as [E|N]; split; intros H; try tauto.
      assert (edge G a b) as E' by (apply Ledge; unfold edge; rewrite E; discriminate).
      pose proof (edge_lt _ _ _ _ HG E'). split; auto. apply OE in E'. exact E'. }
    destruct (filter (fun e => nz (val e)) (pairs p)) as [|e l] eqn:EF.
    { exfalso. apply HN. destruct (unk L) as [|(a & b) l] eqn:EU; auto.
      assert (In (a, b) (unk L)) as Hin by (rewrite EU; simpl; auto).
      apply (unk_In _ _ _ Lsq), HF in Hin. destruct Hin. }
    destruct (argmaxZ_spec val l e) as (M1 & M2). destruct (argmaxZ val l e) as (x & y) eqn:EM.
    exists x, y. split; auto.
    assert (Exy : get L x y = UNK) by (now apply HF).
    assert (HE : forall a b, get L a b = UNK -> edge G a b).
    { intros a b E. apply Ledge. unfold edge. rewrite E. discriminate. }
    assert (Gxy := HE _ _ Exy).
    assert (Hmax : forall a b, get L a b = UNK -> (get O a b <= get O x y)%Z).
    { intros a b E. specialize (M2 (a, b) (proj2 (HF a b) E)). unfold val in M2. simpl in M2.
      rewrite E, Exy, Z.eqb_refl in M2. auto. }
    assert (Hk : forall a b, get L a b = UNK -> ~ klt order x y a b).
    { intros a b E K. apply OL in K; auto. specialize (Hmax a b E). lia. }
    assert (Cy : col_unk L y).
    { destruct (Lcol y) as [?|(D & _)]; auto. destruct (D x Gxy) as [F|F]; rewrite F in Exy; discriminate. }
    split; auto. split; auto. split.
    - split; auto. intros z Ez. destruct (le_lt_dec (pos order z) (pos order x)); auto.
      exfalso. apply (Hk z y (Cy z Ez)). right. auto.
    - split; auto. intros a Ea.
      destruct (Lcol a) as [U|(D & _)]; auto. intros z Ez. exfalso.
      apply (Hk z a (U z Ez)). left. eapply edge_pos; eauto.
  Qed.

  Lemma le_pass_spec L : linv L -> unk L <> [] ->
    exists L', le_pass O L = Ok L' /\ linv L' /\ length (unk L') < length (unk L).
  Proof.
    intros HI HN. destruct (le_pick_spec L HI HN) as (x & y & EP & Gxy & Lxy & HLat & Cy & Cpar).
    pose proof HI as [Lsq Ledge Lcol]. pose proof (edge_lt _ _ _ _ HG Gxy) as (Hx & Hy).
    assert (Cx : col_done L x) by (now apply Cpar).
    assert (Lasym : forall a b, edge L a b -> ~ edge L b a).
    { intros a b E1 E2. rewrite Ledge in E1, E2. now apply (acyclic_asym _ _ _ HA E1). }
    assert (Hxy : x <> y) by (intros ->; now apply (acyclic_loopless _ HA y)).
    unfold le_pass. rewrite EP, (square_length Lsq).
    set (Ws := where1 p (fun w => (get L w x =? COM)%Z)).
    assert (HWs : forall w, In w Ws <-> get L w x = COM).
    { intros w. unfold Ws. rewrite where1_In, Z.eqb_eq. split; [tauto|]. intros E.
      assert (get L w x <> 0%Z) as N by (rewrite E; discriminate). pose proof (get_lt Lsq N). tauto. }
    assert (HWp : forall w, In w Ws -> w < p) by (intros w Hw; unfold Ws in Hw; rewrite where1_In in Hw; tauto).
    assert (HWx : forall w, In w Ws -> edge G w x).
    { intros w Hw. apply HWs in Hw. apply Ledge. unfold edge. rewrite Hw. discriminate. }
    (* what remains to be shown about the new matrix *)
    assert (FIN : forall L', square p L' ->
      (forall a b, b <> y -> get L' a b = get L a b) ->
      (forall a, edge L' a y <-> edge G a y) ->
      (forall z, edge G z y -> get L' z y = COM \/ get L' z y = REV) ->
      colspec order G L' y -> linv L' /\ length (unk L') < length (unk L)).
    { intros L' S' Hoth Hed Hdone Hspec. split.
      - constructor; auto.
        + intros a b. destruct (Nat.eq_dec b y) as [->|N]; auto. unfold edge.
          rewrite Hoth by auto. apply Ledge.
        + assert (Hcd : forall a, col_done L a -> col_done L' a).
          { intros a D z Ez. destruct (Nat.eq_dec a y) as [->|N]; auto. rewrite Hoth by auto. auto. }
          intros v. destruct (Nat.eq_dec v y) as [->|N].
          * right. split; auto.
          * destruct (Lcol v) as [U|(D & Sp & P)].
            -- left. intros z Ez. rewrite Hoth by auto. auto.
            -- right. split; auto. split.
               ++ intros x' HL'. destruct (Nat.eq_dec x' y) as [->|N'].
                  { exfalso. specialize (P y (proj1 HL')). specialize (P x Gxy).
                    rewrite (Cy x Gxy) in P. destruct P; discriminate. }
                  specialize (Sp x' HL'). destruct Sp as (S1 & S2 & S3).
                  assert (Q1 : forall w, get L' w x' = get L w x') by (intros; now apply Hoth).
                  assert (Q2 : forall z, get L' z v = get L z v) by (intros; now apply Hoth).
                  split; [|split].
                  ** intros (w & E1 & E2) z Ez. rewrite Q2. apply S1; auto. exists w. now rewrite <- Q1.
                  ** intros H1 H2 z Ez. rewrite Q2. apply S2; auto. intros w. rewrite <- Q1. auto.
                  ** intros H1 H2 z Ez. rewrite Q2, Q1. apply S3; auto. intros w. rewrite <- Q1. auto.
               ++ intros x' E. now apply Hcd, P.
      - assert (incl ((x, y) :: unk L') (unk L)) as HIn.
        { intros (a & b) [Q|Q].
          - inversion Q; subst. now apply (unk_In _ _ _ Lsq).
          - apply (unk_In _ _ _ S') in Q. apply (unk_In _ _ _ Lsq).
            destruct (Nat.eq_dec b y) as [->|N]; [|now rewrite <- Hoth].
            assert (edge G a y) as E by (apply Hed; unfold edge; rewrite Q; discriminate). now apply Cy. }
        apply NoDup_incl_length in HIn; [simpl in HIn; lia|].
        constructor; [|apply NoDup_where2]. rewrite (unk_In _ _ _ S'). intros F.
        destruct (Hdone x Gxy) as [D|D]; rewrite D in F; discriminate. }
    destruct (forallb (fun w => nz (get L w y)) Ws) eqn:EW.
    - (* every compelled parent of x is a parent of y *)
      rewrite forallb_forall in EW.
      assert (HWy : forall w, In w Ws -> edge L w y) by (intros w Hw; now apply nz_true, EW).
      destruct (le_for_all p y Ws L Lsq Hy HWp HWy) as (L1 & EL & S1 & G1). rewrite EL.
      assert (L1edge : forall a b, edge L1 a b <-> edge G a b).
      { intros a b. rewrite <- Ledge. unfold edge. rewrite G1.
        destruct (memb a Ws) eqn:EM, (Nat.eqb_spec b y) as [->|N]; simpl; try tauto.
        apply memb_In in EM. apply HWy in EM. unfold edge in EM. split; auto. discriminate. }
      assert (L1pa : forall v a, In a (pa v L1) <-> edge G a v).
      { intros v a. rewrite (pa_In _ _ _ _ S1). unfold dir. rewrite !L1edge. split; [tauto|].
        intros E. split; auto. now apply acyclic_asym. }
      set (zl := minus (minus (pa y L1) [x]) (pa x L1)).
      assert (Hzl : forall z, In z zl <-> edge G z y /\ z <> x /\ ~ edge G z x).
      { intros z. unfold zl. rewrite !minus_In, !L1pa. simpl. intuition. }
      set (unknown := where1 p (fun a => (get L1 a y =? UNK)%Z)).
      assert (Hunk : forall a, In a unknown <-> edge G a y /\ ~ In a Ws).
      { intros a. unfold unknown. rewrite where1_In, Z.eqb_eq, G1, Nat.eqb_refl, andb_true_r. split.
        - intros (Ha & E). destruct (memb a Ws) eqn:EM; [discriminate|]. apply memb_notIn in EM.
          split; auto. apply Ledge. unfold edge. rewrite E. discriminate.
        - intros (E & N). apply memb_notIn in N. rewrite N.
          split; [apply (edge_lt _ _ _ _ HG E) | now apply Cy]. }
      assert (memb x unknown = true) as ->.
      { apply memb_In, Hunk. split; auto. intros Hin. apply HWx in Hin. now apply (acyclic_loopless _ HA x). }
      assert (HWS1 : forall w, get L w x = COM -> edge G w y).
      { intros w Hw. apply Ledge, HWy, HWs. auto. }
      destruct (fold_upd_colv p y (if match zl with [] => false | _ => true end then COM else REV)
                  unknown L1 S1 Hy) as (S2 & G2).
      { intros j Hj. unfold unknown in Hj. rewrite where1_In in Hj. tauto. }
      eexists. split; [reflexivity|].
      set (L2 := fold_left _ unknown L1) in *.
      apply FIN; auto.
      + intros a b N. rewrite G2, G1. apply Nat.eqb_neq in N. rewrite N, !andb_false_r. auto.
      + intros a. rewrite <- L1edge. unfold edge. rewrite G2, Nat.eqb_refl, andb_true_r.
        destruct (memb a unknown) eqn:EM; [|tauto]. apply memb_In, Hunk in EM. destruct EM as (EM & _).
        apply L1edge in EM. unfold edge in EM. split; auto. intros _. destruct zl; discriminate.
      + intros z Ez. rewrite G2, G1, Nat.eqb_refl, !andb_true_r.
        destruct (memb z unknown) eqn:EM; [destruct zl; auto|].
        destruct (memb z Ws) eqn:EM'; auto. exfalso.
        apply memb_notIn in EM, EM'. apply EM, Hunk. auto.
      + intros x' HL'. assert (x' = x) by (apply (latest_unique p G order x' x y); auto). subst x'.
        assert (Q : forall w, get L2 w x = get L w x).
        { intros w. rewrite G2, G1. apply Nat.eqb_neq in Hxy. rewrite Hxy, !andb_false_r. auto. }
        assert (Q2 : forall z, edge G z y -> get L2 z y = if memb z Ws then COM
                     else if match zl with [] => false | _ => true end then COM else REV).
        { intros z Ez. rewrite G2, G1, Nat.eqb_refl, !andb_true_r.
          destruct (memb z unknown) eqn:EM.
          - apply memb_In, Hunk in EM. destruct EM as (_ & EM). apply memb_notIn in EM. now rewrite EM.
          - apply memb_notIn in EM. rewrite Hunk in EM. destruct (memb z Ws) eqn:EM'; auto.
            exfalso. apply memb_notIn in EM'. tauto. }
        split; [|split].
        * intros (w & E1 & E2). exfalso. apply E2. apply HWS1. now rewrite <- Q.
        * intros _ (z & Hz) z' Ez'. rewrite Q2 by auto. destruct (memb z' Ws); auto.
          destruct zl; auto. exfalso. now apply Hzl in Hz.
        * intros _ H z Ez. rewrite Q2, Q by auto.
          assert (zl = []) as ->.
          { destruct zl as [|z' l] eqn:EZ; auto. exfalso.
            assert (In z' (z' :: l)) as Hin by (simpl; auto). apply Hzl in Hin.
            destruct Hin as (H1 & H2 & H3). apply H3. now apply H. }
          split; intros E.
          -- apply HWs, memb_In in E. now rewrite E.
          -- assert (memb z Ws = false) as -> by (apply memb_notIn; now rewrite HWs). auto.
    - (* some compelled parent of x is not a parent of y *)
      apply forallb_false in EW. destruct EW as (w & Hw & EW). apply nz_false in EW.
      destruct (le_for_some p y Ws L Lsq Hy HWp Lasym) as (L1 & EL & S1 & G1).
      { exists w. split; [exact Hw|]. unfold edge. rewrite EW. auto. }
      rewrite EL. exists L1. split; auto. apply FIN; auto.
      + intros a b N. rewrite G1. apply Nat.eqb_neq in N. now rewrite N, andb_false_r.
      + intros a. rewrite <- Ledge. unfold edge. rewrite G1, Nat.eqb_refl, andb_true_r.
        destruct (nz (get L a y)) eqn:EN; [|tauto]. apply nz_true in EN. split; auto. discriminate.
      + intros z Ez. left. rewrite G1, Nat.eqb_refl, andb_true_r.
        assert (nz (get L z y) = true) as -> by (now apply nz_true, Ledge). auto.
      + intros x' HL'. assert (x' = x) by (apply (latest_unique p G order x' x y); auto). subst x'.
        assert (Q : forall v, get L1 v x = get L v x).
        { intros v. rewrite G1. apply Nat.eqb_neq in Hxy. rewrite Hxy, andb_false_r. auto. }
        assert (NW : ~ edge G w y) by (rewrite <- Ledge; unfold edge; rewrite EW; auto).
        split; [|split].
        * intros _ z Ez. rewrite G1, Nat.eqb_refl, andb_true_r.
          assert (nz (get L z y) = true) as -> by (now apply nz_true, Ledge). auto.
        * intros H. exfalso. apply NW, H. rewrite Q. now apply HWs.
        * intros H. exfalso. apply NW, H. rewrite Q. now apply HWs.
  Qed.

  Lemma le_loop_spec : forall fuel L, linv L -> length (unk L) <= fuel ->
    exists L', le_loop fuel O L = Ok L' /\ linv L' /\ unk L' = [].
  Proof.
    induction fuel as [|f IH]; intros L HI HF.
    - assert (unk L = []) as E by (destruct (unk L); [auto | simpl in HF; lia]).
      exists L. split; auto. simpl. rewrite (square_length (l_sq _ HI)). fold (unk L). now rewrite E.
    - cbn [le_loop]. rewrite (square_length (l_sq _ HI)). fold (unk L).
      destruct (unk L) as [|e l] eqn:EU; [exists L; auto|].
      destruct (le_pass_spec L HI) as (L' & E & HI' & HL); [rewrite EU; discriminate|].
      rewrite E. cbn [bind]. apply IH; auto. rewrite EU in HL. simpl in *. lia.
  Qed.
End Label.

(** The result of label_edges on the output of order_edges. *)
Definition labelling (p : nat) (order : list nat) (G L : mat) : Prop :=
  square p L /\ (forall a b, edge L a b <-> edge G a b) /\
  (forall a b, edge G a b -> get L a b = COM \/ get L a b = REV) /\
  (forall y, colspec order G L y).

Lemma label_edges_spec (h : hord) p G : square p G -> nonneg G -> acyclic G ->
  exists order O L, topo_order p G order /\ order_edges h G = Ok O /\
    label_edges h O = Ok L /\ labelling p order G L.
Proof.
  intros HG Hn HA. destruct (order_edges_spec h p G HG Hn HA)
    as (order & O & _ & HT & EO & HO & OE & OR & OL).
  exists order, O.
  assert (HOn : nonneg O).
  { intros a b. destruct (Z.eq_dec (get O a b) 0); [lia|].
    assert (edge G a b) as E by (now apply OE). apply OR in E. lia. }
  assert (HOA : acyclic O) by (now apply (acyclic_ext _ _ OE)).
  assert (OR1 : forall a b, edge G a b -> (1 <= get O a b)%Z) by (intros a b E; apply OR in E; lia).
  unfold label_edges. rewrite (is_dag_true h p O HO HOn HOA). cbn [bind negb].
  rewrite (square_length HO).
  pose proof (labels_perm p G order O HG HT HO OE OR OL) as HP.
  fold (edges_of p O). rewrite (isort_labels _ _ HP).
  assert (listZ_eqb (map Z.of_nat (seq 1 (length (edges_of p O))))
            (map Z.of_nat (seq 1 (length (edges_of p O)))) = true) as -> by (now apply listZ_eqb_eq).
  cbn [negb].
  set (L0 := mk p (fun i j => if nz (get O i j) then UNK else 0%Z)).
  assert (Hget : forall a b, get L0 a b = if nz (get O a b) then UNK else 0%Z).
  { intros a b. unfold L0. rewrite get_mk'.
    destruct (Nat.ltb_spec a p), (Nat.ltb_spec b p); simpl; auto;
      rewrite (get_out (i:=a) (j:=b) HO) by lia; reflexivity. }
  assert (HI0 : linv p G order L0).
  { constructor.
    - apply mk_square.
    - intros a b. rewrite <- OE. unfold edge. rewrite Hget. destruct (nz (get O a b)) eqn:Q;
        rewrite ?nz_true, ?nz_false in Q; split; intros; auto; discriminate.
    - intros y. left. intros z Ez. rewrite Hget. apply OE in Ez.
      assert (nz (get O z y) = true) as -> by (now apply nz_true). auto. }
  destruct (le_loop_spec p G order O HG HA HT HO OE OL (p * p) L0 HI0) as (L & EL & HI & HU).
  { unfold unk. transitivity (length (pairs p)).
    - apply NoDup_incl_length; [apply NoDup_where2|]. intros e He. apply filter_In in He. tauto.
    - unfold pairs. rewrite prod_length, seq_length. lia. }
  exists L. split; auto. split; auto. split; auto. destruct HI as [S1 S2 S3].
  assert (HN : forall a b, get L a b <> UNK).
  { intros a b Q. assert (In (a, b) (unk p L)) as Hin by (apply unk_In; auto).
    now rewrite HU in Hin. }
  assert (HD : forall y, col_done G L y).
  { intros y z Ez. destruct (S3 y) as [U|(D & _)]; [|auto]. exfalso. apply (HN z y). now apply U. }
  split; auto. split; auto. split; [intros; now apply HD|].
  intros y x HL. destruct (S3 y) as [U|(_ & Sp & _)]; [|now apply Sp].
  exfalso. apply (HN x y). apply U, HL.
Qed.
