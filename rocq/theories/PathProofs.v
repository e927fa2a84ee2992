(** Paths, separation and chain components. *)
From Coq Require Import List Arith ZArith Lia Bool Permutation Relations.
Import ListNotations.
From Verif Require Import Base GraphModel GraphSpec TopoProofs BasicProofs Basic2Proofs.

Lemma accessible_In p A i j : square p A -> (In j (accessible A i) <-> edge A i j).
Proof.
  intros HA. unfold accessible. rewrite union_In, (ch_In _ _ _ _ HA), (neighbors_In _ _ _ _ HA).
  unfold dir, und. destruct (edge_dec A j i); tauto.
Qed.

Lemma hd_rev_last (a d : nat) q : hd_error (rev (a :: q)) = Some (last (a :: q) d).
Proof.
  revert a. induction q as [|b q IH]; intros a; [reflexivity|].
  change (rev (a :: b :: q)) with (rev (b :: q) ++ [a]). specialize (IH b).
  destruct (rev (b :: q)) as [|c r]; [discriminate|]. simpl in *. exact IH.
Qed.

Lemma last_In (l : list nat) d : l <> [] -> In (last l d) l.
Proof.
  induction l as [|a l IH]; intros H; [congruence|]. destruct l as [|b l]; [simpl; auto|].
  right. apply IH. discriminate.
Qed.

Section Sdp.
Variables (h : hord) (p : nat) (A : mat) (to : nat).
Hypothesis HA : square p A.
Hypothesis HL : loopless A.

Definition good (cur : nat) (visited tv l : list nat) : Prop :=
  exists q, l = visited ++ cur :: q /\ NoDup l /\ chain_of (edge A) q /\ last (cur :: q) 0 = to /\
    forall n q', q = n :: q' -> In n tv.

Fixpoint cost (m : nat) : nat := match m with 0 => 0 | S m' => 1 + p * (1 + cost m') end.

Lemma chain_of_cons (R : nat -> nat -> Prop) x q :
  chain_of R (x :: q) <-> chain_of R q /\ forall n q', q = n :: q' -> R x n.
Proof.
  destruct q as [|y q]; simpl.
  - split; auto. intros _. split; auto. discriminate.
  - split.
    + intros (H1 & H2). split; auto. intros n q' E. inversion E; subst; auto.
    + intros (H1 & H2). split; auto. now apply (H2 y q).
Qed.

Lemma NoDup_bounded_length l : NoDup l -> (forall x, In x l -> x < p) -> length l <= p.
Proof.
  intros ND HB. rewrite <- (seq_length p 0). apply NoDup_incl_length; auto.
  intros x Hx. apply in_seq0. auto.
Qed.

Lemma sdp_elt : forall m cur visited tv,
  p <= length visited + m -> NoDup (visited ++ [cur]) -> (forall x, In x (visited ++ [cur]) -> x < p) ->
  NoDup tv -> (forall x, In x tv -> x < p /\ ~ In x (visited ++ [cur])) ->
  forall fuel stack paths, cost m < fuel ->
  exists k fuel' new, k <= 1 + length tv * (1 + cost (pred m)) /\ fuel = k + fuel' /\
    sdp_loop h fuel A to ((cur, visited, tv) :: stack) paths = sdp_loop h fuel' A to stack (paths ++ new) /\
    NoDup new /\ forall l, In l new <-> good cur visited tv l.
Proof.
  induction m as [|m IHm]; intros cur visited tv Hm ND HB NDt Ht.
  { pose proof (NoDup_bounded_length _ ND HB) as Q. rewrite app_length in Q. simpl in Q. lia. }
  assert (Hlen : length tv <= p) by (apply NoDup_bounded_length; auto; intros; now apply Ht).
  cbn [cost pred]. intros fuel stack paths Hf.
  assert (Hf' : 1 + length tv * (1 + cost m) < fuel).
  { apply Nat.le_lt_trans with (1 + p * (1 + cost m)); auto. apply le_n_S, Nat.mul_le_mono_r. auto. }
  clear Hf Hlen. revert fuel stack paths Hf'.
  destruct (Nat.eq_dec cur to) as [->|Ne].
  - intros fuel stack paths Hf'. destruct fuel as [|f]; [lia|].
    exists 1, f, [visited ++ [to]]. split; [lia|]. split; [lia|]. split; [cbn [sdp_loop]; now rewrite Nat.eqb_refl|].
    split; [constructor; [auto|constructor]|]. intros l. simpl. split.
    + intros [<-|[]]. exists []. split; auto. split; auto. split; simpl; auto. split; auto. discriminate.
    + intros (q & -> & ND' & _ & HLa & _). destruct q as [|n q]; auto. exfalso.
      apply NoDup_remove_2 in ND'. apply ND'. apply in_or_app. right. rewrite <- HLa.
      change (last (to :: n :: q) 0) with (last (n :: q) 0). apply last_In. discriminate.
  - induction tv as [|next rest IHt]; intros fuel stack paths Hf'.
    + destruct fuel as [|f]; [lia|]. exists 1, f, [].
      split; [lia|]. split; [lia|]. split.
      { cbn [sdp_loop]. apply Nat.eqb_neq in Ne. rewrite Ne. now rewrite app_nil_r. }
      split; [constructor|]. intros l. simpl. split; [tauto|].
      intros (q & -> & _ & _ & HLa & Hq). destruct q as [|n q].
      * simpl in HLa. congruence.
      * now apply (Hq n q).
    + destruct fuel as [|f]; [lia|]. inversion NDt as [|? ? Nn NDr]; subst.
      set (ntv := h (S f) (minus (minus (accessible A next) visited) [cur])).
      assert (Hntv : forall x, In x ntv <-> edge A next x /\ ~ In x (visited ++ [cur])).
      { intros x. unfold ntv. rewrite ho_In, !minus_In, (accessible_In p), in_app_iff; auto. tauto. }
      destruct (Ht next) as (Hn1 & Hn2); [simpl; auto|].
      cbn [length] in Hf'.
      destruct (IHm next (visited ++ [cur]) ntv) with (fuel := f) (stack := (cur, visited, rest) :: stack)
        (paths := paths) as (k1 & f1 & new1 & Hk1 & Hf1 & E1 & ND1 & H1).
      * rewrite app_length. simpl. lia.
      * apply NoDup_app; auto; [constructor; [auto|constructor]|]. intros x Hx [<-|[]]. contradiction.
      * intros x Hx. apply in_app_iff in Hx. destruct Hx as [Hx|[<-|[]]]; auto.
      * apply ho_NoDup. apply NoDup_minus, NoDup_minus. apply NoDup_union; [apply ch_NoDup | apply neighbors_NoDup].
      * intros x Hx. apply Hntv in Hx. destruct Hx as (Ex & Nx). split; [now apply (edge_lt _ _ _ _ HA) in Ex|].
        intros Hx. apply in_app_iff in Hx. destruct Hx as [Hx|[<-|[]]]; auto. now apply (HL next).
      * lia.
      * assert (Hb : length ntv <= p).
        { apply NoDup_bounded_length.
          - apply ho_NoDup. apply NoDup_minus, NoDup_minus. apply NoDup_union; [apply ch_NoDup | apply neighbors_NoDup].
          - intros x Hx. apply Hntv in Hx. destruct Hx as (Hx & _). now apply (edge_lt _ _ _ _ HA) in Hx. }
        assert (Hk1' : k1 <= cost m).
        { destruct m as [|m'].
          - pose proof (NoDup_bounded_length (visited ++ [cur]) ND HB) as Q.
            assert (In next (visited ++ [cur])) as Hin; [|contradiction].
            assert (incl (seq 0 p) (visited ++ [cur])) as HI.
            { apply NoDup_length_incl; auto.
              - rewrite app_length, seq_length. simpl. lia.
              - intros x Hx. apply in_seq0. auto. }
            apply HI, in_seq0. auto.
          - cbn [cost pred] in *. apply Nat.le_trans with (1 + length ntv * (1 + cost m')); auto.
            apply le_n_S, Nat.mul_le_mono_r. auto. }
        destruct (IHt NDr) with (fuel := f1) (stack := stack) (paths := paths ++ new1)
          as (k2 & f2 & new2 & Hk2 & Hf2 & E2 & ND2 & H2).
        { intros x Hx. apply Ht. simpl; auto. }
        { lia. }
        exists (1 + k1 + k2), f2, (new1 ++ new2). split; [cbn [length]; lia|]. split; [lia|]. split.
        { cbn [sdp_loop]. apply Nat.eqb_neq in Ne. rewrite Ne. fold ntv. rewrite E1, E2. now rewrite app_assoc. }
        assert (H1' : forall l, In l new1 <-> exists q, l = visited ++ cur :: next :: q /\ NoDup l /\
                  chain_of (edge A) (next :: q) /\ last (cur :: next :: q) 0 = to).
        { intros l. rewrite H1. split.
          - intros (q & -> & N & C & La & F). exists q. rewrite <- app_assoc in N |- *. cbn [app] in N |- *.
            split; auto. split; auto. split; auto. apply chain_of_cons. split; auto.
            intros n q' E. apply F in E. now apply Hntv in E.
          - intros (q & -> & N & C & La). exists q. rewrite <- app_assoc. cbn [app]. split; auto. split; auto.
            apply chain_of_cons in C. destruct C as (C & F). split; auto. split; auto.
            intros n q' ->. apply Hntv. split; [now apply (F n q')|]. intros Hin.
            assert (~ In n (visited ++ [cur; next])) as Q; [|apply Q; rewrite in_app_iff in *; simpl in *; tauto].
            replace (visited ++ cur :: next :: n :: q') with ((visited ++ [cur; next]) ++ n :: q') in N
              by (rewrite <- app_assoc; reflexivity).
            apply NoDup_remove_2 in N. intros Q. apply N. rewrite in_app_iff. auto. }
        split.
        { apply NoDup_app; auto. intros l Hl1 Hl2. apply H1' in Hl1. apply H2 in Hl2.
          destruct Hl1 as (q1 & E1' & _). destruct Hl2 as (q2 & E2' & _ & _ & _ & F).
          rewrite E1' in E2'. apply app_inv_head in E2'. inversion E2' as [E3]. symmetry in E3.
          apply F in E3. contradiction. }
        intros l. rewrite in_app_iff, H1', H2. split.
        { intros [(q & -> & N & C & La)|(q & -> & N & C & La & F)].
          - exists (next :: q). split; auto. split; auto. split; auto. split; auto.
            intros n q' E. inversion E; subst. simpl; auto.
          - exists q. split; auto. split; auto. split; auto. split; auto. intros n q' E. right. now apply (F n q'). }
        { intros (q & -> & N & C & La & F). destruct q as [|n q]; [simpl in La; congruence|].
          destruct (F n q eq_refl) as [->|Hin].
          - left. exists q. auto.
          - right. exists (n :: q). split; auto. split; auto. split; auto. split; auto.
            intros n' q' E. inversion E; subst; auto. }
Qed.

Lemma semi_directed_paths_spec fro : fro < p ->
  exists N, forall fuel, N <= fuel ->
    exists l, semi_directed_paths h fuel fro to A = Ok l /\ NoDup l /\
      forall q, In q l <-> semi_path A fro to q.
Proof.
  intros Hfro. exists (2 + cost p). intros fuel Hf. unfold semi_directed_paths.
  assert (HT : forall x, In x (h 0 (accessible A fro)) <-> edge A fro x)
    by (intros; rewrite ho_In; now apply (accessible_In p)).
  destruct (sdp_elt p fro [] (h 0 (accessible A fro))) with (fuel := fuel) (stack := @nil (nat * list nat * list nat))
    (paths := @nil (list nat)) as (k & f' & new & Hk & Hf' & E & ND & H).
  - simpl. lia.
  - constructor; [simpl; auto | constructor].
  - simpl. intros x [<-|[]]; auto.
  - apply ho_NoDup, NoDup_union; [apply ch_NoDup | apply neighbors_NoDup].
  - intros x Hx. apply HT in Hx. split; [now apply (edge_lt _ _ _ _ HA) in Hx|]. simpl.
    intros [<-|[]]. now apply (HL fro).
  - lia.
  - assert (k <= cost p).
    { replace (cost p) with (cost (S (pred p))) by (f_equal; lia). cbn [cost].
      eapply Nat.le_trans; [exact Hk|]. apply le_n_S, Nat.mul_le_mono_r.
      rewrite <- (seq_length p 0). apply NoDup_incl_length.
      - apply ho_NoDup, NoDup_union; [apply ch_NoDup | apply neighbors_NoDup].
      - intros x Hx. apply HT in Hx. apply in_seq0. now apply (edge_lt _ _ _ _ HA) in Hx. }
    rewrite E. destruct f' as [|f']; [lia|]. exists new. split; [reflexivity|]. split; auto.
    intros l. rewrite H. unfold good, semi_path. simpl app. split.
    + intros (q & -> & N & C & La & F). split; auto. split; [|split; [reflexivity|]].
      * apply chain_of_cons. split; auto. intros n q' E'. now apply HT, (F n q').
      * rewrite (hd_rev_last fro 0). now f_equal.
    + intros (N & C & H1 & H2). destruct l as [|a q]; [discriminate|]. inversion H1; subst a.
      exists q. split; auto. split; auto. apply chain_of_cons in C. destruct C as (C & F). split; auto.
      rewrite (hd_rev_last fro 0) in H2. split; [congruence|]. intros n q' E'. apply HT. now apply (F n q').
Qed.
End Sdp.

(** ** separates *)
Lemma inter_nil a b : inter a b = [] <-> forall x, In x a -> ~ In x b.
Proof.
  split.
  - intros E x Ha Hb. assert (In x (inter a b)) as Q by (apply inter_In; auto). rewrite E in Q. auto.
  - intros H. destruct (inter a b) as [|x l] eqn:E; auto. exfalso.
    assert (In x (inter a b)) as Q by (rewrite E; simpl; auto). apply inter_In in Q. apply (H x); tauto.
Qed.

Lemma sep_loop_spec (h : hord) p G S : square p G -> loopless G ->
  forall ab, (forall a b, In (a, b) ab -> a < p) ->
  exists N, forall fuel, N <= fuel ->
    exists r, sep_loop h fuel S G ab = Ok r /\
      (r = true <-> forall a b, In (a, b) ab -> forall q, semi_path G a b q -> exists x, In x q /\ In x S).
Proof.
  intros HG HL. induction ab as [|(a & b) ab IH]; intros Hab.
  - exists 0. intros fuel _. exists true. split; [reflexivity|]. split; auto. intros _ a b [].
  - destruct IH as (N1 & H1); [intros x y Hxy; apply (Hab x y); simpl; auto|].
    destruct (semi_directed_paths_spec h p G b HG HL a) as (N2 & H2); [apply (Hab a b); simpl; auto|].
    exists (N1 + N2). intros fuel Hf.
    destruct (H1 fuel) as (r & E1 & Hr); [lia|]. destruct (H2 fuel) as (l & E2 & _ & Hl); [lia|].
    cbn [sep_loop]. rewrite E2. cbn [bind].
    destruct (existsb (fun path => match inter path S with [] => true | _ => false end) l) eqn:EX.
    + exists false. split; auto. split; [discriminate|]. intros H.
      apply existsb_exists in EX. destruct EX as (q & Hq & EX). apply Hl in Hq.
      destruct (inter q S) eqn:EI; [|discriminate]. rewrite inter_nil in EI.
      destruct (H a b (or_introl eq_refl) q Hq) as (x & X1 & X2). exfalso. now apply (EI x).
    + exists r. split; auto. rewrite Hr. rewrite existsb_false in EX. split.
      * intros H a' b' [Q|Hin]; [|apply (H a' b' Hin)]. inversion Q; subst a' b'. intros q Hq.
        apply Hl in Hq. specialize (EX q Hq). destruct (inter q S) as [|x t] eqn:EI; [discriminate|].
        exists x. apply inter_In. rewrite EI. simpl; auto.
      * intros H a' b' Hin. apply (H a' b'). simpl; auto.
Qed.

Lemma separates_spec (h : hord) p G S A B : square p G -> loopless G ->
  (forall a, In a A -> a < p) -> 
  exists N, forall fuel, N <= fuel ->
    ((exists x, (In x A /\ In x B) \/ (In x A /\ In x S) \/ (In x B /\ In x S)) /\
     separates h fuel S A B G = Err ValueError) \/
    ((forall x, ~ (In x A /\ In x B) /\ ~ (In x A /\ In x S) /\ ~ (In x B /\ In x S)) /\
     exists r, separates h fuel S A B G = Ok r /\
       (r = true <-> forall a b, In a A -> In b B ->
                       forall q, semi_path G a b q -> exists x, In x q /\ In x S)).
Proof.
  intros HG HL HA.
  destruct (sep_loop_spec h p G S HG HL (list_prod (h 1 A) (h 2 B))) as (N & HN).
  { intros a b Hin. apply in_prod_iff in Hin. rewrite ho_In in Hin. now apply HA. }
  exists N. intros fuel Hf. unfold separates.
  assert (NE : forall u v x t, inter u v = x :: t -> In x u /\ In x v).
  { intros u v x t E. apply inter_In. rewrite E. simpl; auto. }
  destruct (inter A B) as [|x t] eqn:E1.
  2:{ left. split; auto. exists x. left. now apply (NE A B x t). }
  destruct (inter A S) as [|x t] eqn:E2.
  2:{ left. split; auto. exists x. right; left. now apply (NE A S x t). }
  destruct (inter B S) as [|x t] eqn:E3.
  2:{ left. split; auto. exists x. right; right. now apply (NE B S x t). }
  right. rewrite inter_nil in E1, E2, E3. split.
  - intros x. split; [|split]; intros (Q1 & Q2); [now apply (E1 x) | now apply (E2 x) | now apply (E3 x)].
  - destruct (HN fuel Hf) as (r & E & Hr). exists r. split; auto. rewrite Hr. split.
    + intros H a b Ha Hb. apply H. apply in_prod_iff. rewrite !ho_In. auto.
    + intros H a b Hin. apply in_prod_iff in Hin. rewrite !ho_In in Hin. now apply H.
Qed.

(** ** chain_component *)
Lemma cc_for_spec A js : forall v t v' t', cc_for A js (v, t) = (v', t') ->
  (forall x, In x t -> ~ In x v) ->
  (forall x, In x v' <-> In x v \/ In x js) /\
  (forall x, In x t' <-> (In x t \/ exists j, In j js /\ In x (neighbors j A)) /\ ~ In x v') /\
  (NoDup v -> NoDup v').
Proof.
  unfold cc_for. induction js as [|j js IH]; intros v t v' t' E HD; simpl in E.
  - inversion E; subst. split; [simpl; tauto|]. split; [|auto]. intros x. split.
    + intros Hx. split; auto.
    + intros ([Hx|(j & [] & _)] & _). exact Hx.
  - apply IH in E; [|intros x Hx; now apply minus_In in Hx]. destruct E as (H1 & H2 & H3).
    assert (HV : forall x, In x v' <-> In x v \/ In x (j :: js)).
    { intros x. rewrite H1, union_In. simpl. tauto. }
    split; auto. split.
    + intros x. rewrite H2, minus_In, !union_In. split.
      * intros ([([Q1|Q1] & Q2)|(k & Q1 & Q2)] & N); split; auto; right; [exists j | exists k]; simpl; auto.
      * intros ([Q|(k & [<-|Q1] & Q2)] & N); split; auto.
        -- left. split; auto. intros Q'. apply N, HV. destruct Q' as [Q'|[<-|[]]]; simpl; auto.
        -- left. split; auto. intros Q'. apply N, HV. destruct Q' as [Q'|[<-|[]]]; simpl; auto.
        -- right. exists k. auto.
    + intros ND. apply H3. apply NoDup_union; auto. constructor; [auto|constructor].
Qed.

Lemma cc_loop_spec (h : hord) p G i : square p G ->
  forall fuel v t, NoDup v -> (forall x, In x v \/ In x t -> x < p) -> (forall x, In x t -> ~ In x v) ->
    (In i v \/ In i t) -> (forall x, In x v \/ In x t -> clos_refl_trans nat (und G) i x) ->
    (forall x y, In x v -> und G x y -> In y v \/ In y t) -> p < length v + fuel ->
  exists l, cc_loop h fuel (only_undirected G) v t = Ok l /\ NoDup l /\
    forall x, In x l <-> clos_refl_trans nat (und G) i x.
Proof.
  intros HG. induction fuel as [|f IH]; intros v t ND HB HD Hi HR HC Hf.
  - assert (length v <= p); [|lia]. rewrite <- (seq_length p 0). apply NoDup_incl_length; auto.
    intros x Hx. apply in_seq0. auto.
  - cbn [cc_loop]. destruct t as [|t0 t].
    + exists v. split; auto. split; auto. intros x. split; [intros Hx; auto|].
      intros Hx. apply clos_rt_rtn1 in Hx. induction Hx as [|y z Hyz _ IHx]; [destruct Hi as [|[]]; auto|].
      destruct (HC y z IHx Hyz) as [|[]]; auto.
    + remember (t0 :: t) as tv eqn:Et.
      destruct (cc_for (only_undirected G) (h (S f) tv) (v, tv)) as (v' & t') eqn:E.
      apply cc_for_spec in E; auto. destruct E as (H1 & H2 & H3).
      assert (HN : forall j x, In x (neighbors j (only_undirected G)) <-> und G j x).
      { intros j x. destruct (decomposition p G HG) as (S1 & S2 & _ & _ & _ & HU & _).
        rewrite (neighbors_In _ _ _ _ S2). unfold und at 1. rewrite !HU. unfold und. tauto. }
      assert (HV : forall x, In x v' <-> In x v \/ In x tv) by (intros x; rewrite H1, ho_In; tauto).
      assert (HT : forall x, In x t' <-> (In x tv \/ exists j, In j tv /\ und G j x) /\ ~ In x v').
      { intros x. rewrite H2. split; intros ([Q|(j & Q1 & Q2)] & N); split; auto; right; exists j;
          rewrite ho_In, HN in *; auto. }
      apply IH; auto.
      * intros x [Hx|Hx]; [apply HB, HV; auto|]. apply HT in Hx. destruct Hx as ([Hx|(j & _ & (U & _))] & _); auto.
        now apply (edge_lt _ _ _ _ HG) in U.
      * intros x Hx. now apply HT in Hx.
      * left. apply HV. auto.
      * intros x [Hx|Hx]; [apply HR, HV; auto|]. apply HT in Hx. destruct Hx as ([Hx|(j & Hj & U)] & _); auto.
        apply rt_trans with j; auto. now apply rt_step.
      * intros x y Hx U. destruct (in_dec Nat.eq_dec y v') as [|N]; auto. apply HV in Hx. destruct Hx as [Hx|Hx].
        -- exfalso. apply N, HV. now apply (HC x y).
        -- right. apply HT. split; auto. right. exists x. auto.
      * assert (length (t0 :: v) <= length v'); [|simpl in *; lia]. apply NoDup_incl_length.
        -- constructor; auto. apply HD. subst tv; simpl; auto.
        -- intros x Hx. apply HV. destruct Hx as [<-|Hx]; auto. right. subst tv; simpl; auto.
Qed.

Lemma chain_component_spec (h : hord) p G i : square p G -> i < p ->
  exists l, chain_component h i G = Ok l /\ NoDup l /\
    forall x, In x l <-> clos_refl_trans nat (und G) i x.
Proof.
  intros HG Hi. unfold chain_component. apply (cc_loop_spec h p G i HG).
  - constructor.
  - simpl. intros x [[]|[<-|[]]]; auto.
  - intros x _ [].
  - simpl. auto.
  - simpl. intros x [[]|[<-|[]]]. apply rt_refl.
  - intros x y [].
  - rewrite (square_length HG). simpl. lia.
Qed.
