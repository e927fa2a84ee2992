(** Lemmas on adjacencies whose entries are not positive. *)
From Coq Require Import List Arith ZArith Bool Lia.
Import ListNotations.
From Verif Require Import Base GraphModel GraphSpec BasicProofs TopoProofs EdgeProofs WeightSpec WeightProofs.

Definition nonpos (P : mat) : Prop := forall i j, (get P i j <= 0)%Z.
Definition opp (p : nat) (P : mat) : mat := mk p (fun i j => - get P i j)%Z.

Lemma get_opp p P i j : square p P -> get (opp p P) i j = (- get P i j)%Z.
Proof.
  intros HP. unfold opp. rewrite get_mk'. destruct (i <? p) eqn:Hi, (j <? p) eqn:Hj; rewrite ?Nat.ltb_lt, ?Nat.ltb_ge in *; simpl; auto;
    rewrite (get_out HP); lia.
Qed.
Lemma opp_square p P : square p (opp p P). Proof. apply mk_square. Qed.
Lemma opp_nonneg p P : square p P -> nonpos P -> nonneg (opp p P).
Proof. intros HP NP i j. rewrite get_opp by auto. specialize (NP i j). lia. Qed.
Lemma sumZ_opp A (f : A -> Z) l : sumZ (map (fun x => - f x)%Z l) = (- sumZ (map f l))%Z.
Proof. induction l as [|x l IH]; simpl; [reflexivity|]. unfold sumZ in *. simpl. rewrite IH. lia. Qed.
Lemma msum_opp p P : square p P -> msum (opp p P) = (- msum P)%Z.
Proof.
  intros HP. unfold msum. rewrite (square_length HP), (square_length (opp_square p P)), <- sumZ_opp. f_equal. apply map_ext.
  intros e. now apply get_opp.
Qed.
Lemma colsum_opp p P j : square p P -> colsum (opp p P) j = (- colsum P j)%Z.
Proof.
  intros HP. unfold colsum. rewrite (square_length HP), (square_length (opp_square p P)), <- sumZ_opp. f_equal. apply map_ext.
  intros e. now apply get_opp.
Qed.
Lemma msum_nonpos p P : square p P -> nonpos P -> (0 <? msum P)%Z = false.
Proof. intros HP NP. pose proof (msum_nonneg (opp_nonneg p P HP NP)). rewrite (msum_opp p P HP) in H. apply Z.ltb_ge. lia. Qed.

(** P has no positive entry, Q no negative one, and they are non-zero at the same entries. *)
Definition neg (p : nat) (P Q : mat) : Prop :=
  square p P /\ square p Q /\ nonpos P /\ nonneg Q /\ forall i j, nz (get P i j) = nz (get Q i j).

Section Neg.
Variables (p : nat) (P Q : mat).
Hypothesis S : neg p P Q.
Let HP : square p P. Proof. apply S. Qed.
Let HQ : square p Q. Proof. apply S. Qed.
Let NP : nonpos P. Proof. apply S. Qed.
Let NQ : nonneg Q. Proof. apply S. Qed.
Let E i j : nz (get P i j) = nz (get Q i j). Proof. apply S. Qed.

Lemma neg_len : length P = length Q.
Proof. now rewrite (square_length HP), (square_length HQ). Qed.
Lemma neg_z i j : (get P i j =? 0)%Z = (get Q i j =? 0)%Z.
Proof. pose proof (E i j) as H. unfold nz in H. destruct (get P i j =? 0)%Z, (get Q i j =? 0)%Z; simpl in H; congruence. Qed.
Lemma neg_pa i : pa i P = pa i Q.
Proof. unfold pa. rewrite neg_len. apply where1_ext. intros j. now rewrite !E, !neg_z. Qed.
Lemma neg_ch i : ch i P = ch i Q.
Proof. unfold ch. rewrite neg_len. apply where1_ext. intros j. now rewrite !E, !neg_z. Qed.
Lemma neg_upd x y : neg p (upd P x y 0) (upd Q x y 0).
Proof.
  split; [now apply upd_square|]. split; [now apply upd_square|]. unfold upd. rewrite (square_length HP), (square_length HQ).
  repeat split; intros i j; rewrite !get_mk'; destruct (_ && _); try destruct (_ && _); auto; lia.
Qed.
Lemma neg_sim : sim p (opp p P) Q.
Proof.
  split; [apply opp_square|]. split; [exact HQ|]. split; [now apply opp_nonneg|]. split; [exact NQ|]. intros i j. rewrite get_opp by exact HP.
  rewrite <- E. unfold nz. f_equal. destruct (Z.eqb_spec (- get P i j) 0), (Z.eqb_spec (get P i j) 0); auto; lia.
Qed.
Lemma neg_colsum j : (colsum P j =? 0)%Z = (colsum Q j =? 0)%Z.
Proof.
  rewrite <- (sim_colsum _ _ _ neg_sim j), (colsum_opp p P j HP). destruct (Z.eqb_spec (colsum P j) 0), (Z.eqb_spec (- colsum P j) 0); auto; lia.
Qed.
Lemma neg_skeleton : skeleton P = skeleton Q.
Proof.
  rewrite <- (sim_skeleton _ _ _ neg_sim). unfold skeleton. rewrite (square_length HP), (square_length (opp_square p P)).
  apply mk_ext. intros i j _ _. rewrite !get_opp by exact HP. unfold nz.
  destruct (Z.eqb_spec (get P i j + get P j i) 0), (Z.eqb_spec (- get P i j + - get P j i) 0); auto; lia.
Qed.
Lemma neg_only_directed i j : nz (get (only_directed P) i j) = nz (get (only_directed Q) i j).
Proof.
  unfold only_directed. rewrite (square_length HP), (square_length HQ), !get_mk'. destruct (_ && _); auto.
  rewrite !E, !neg_z. destruct (nz (get Q i j)) eqn:H; simpl; [|reflexivity]. destruct (get Q j i =? 0)%Z; [|reflexivity]. now rewrite E.
Qed.
Lemma neg_vstructures h : vstructures h P = vstructures h Q.
Proof.
  unfold vstructures. rewrite neg_len.
  assert (C : forall c, (1 <? length (where1 (length Q) (fun i => nz (get (only_directed P) i c)))) =
                        (1 <? length (where1 (length Q) (fun i => nz (get (only_directed Q) i c))))).
  { intros c. do 2 f_equal. apply where1_ext. intros i. apply neg_only_directed. }
  rewrite (where1_ext _ _ _ C). apply flat_map_eq. intros c. rewrite neg_pa. apply flat_map_eq. intros [i j]. now rewrite !neg_z.
Qed.
Lemma neg_und : (0 <? msum (only_undirected P))%Z = false.
Proof.
  apply (msum_nonpos p); unfold only_undirected; rewrite (square_length HP); [apply mk_square|].
  intros i j. rewrite get_mk'. destruct (_ && _); [|lia]. destruct (_ && _); [apply NP|lia].
Qed.
End Neg.

Lemma neg_topo_children p i js : forall P Q s, neg p P Q ->
  neg p (fst (topo_children i js P s)) (fst (topo_children i js Q s)) /\
  snd (topo_children i js P s) = snd (topo_children i js Q s).
Proof.
  induction js as [|j js IH]; intros P Q s S; simpl; auto.
  assert (S' : neg p (upd P i j 0) (upd Q i j 0)) by (apply neg_upd; exact S).
  rewrite (neg_pa _ _ _ S'). now apply IH.
Qed.
Lemma neg_topo_loop h p fuel : forall P Q s o l, neg p P Q -> topo_loop h fuel Q s o = Ok l -> topo_loop h fuel P s o = Ok l.
Proof.
  induction fuel as [|f IH]; intros P Q s o l S; [discriminate|]. cbn [topo_loop]. destruct s as [|i s].
  - rewrite (msum_nonpos p P) by apply S. destruct (_ <? _)%Z; [discriminate|auto].
  - rewrite (neg_ch _ _ _ S). destruct (neg_topo_children p i (h (Datatypes.S f) (ch i Q)) P Q s S) as [H1 H2].
    destruct (topo_children i _ P s), (topo_children i _ Q s). simpl in *. subst. now apply IH.
Qed.
Lemma neg_topo h p P Q : neg p P Q -> acyclic Q -> topological_ordering h P = topological_ordering h Q.
Proof.
  intros S AQ. destruct (topological_ordering_ok h p Q) as (l & H & _); [apply S|apply S|exact AQ|]. rewrite H. revert H.
  unfold topological_ordering. rewrite (neg_und _ _ _ S), (neg_len _ _ _ S). destruct (0 <? _)%Z; [discriminate|].
  rewrite (where1_ext _ _ _ (neg_colsum _ _ _ S)). now apply (neg_topo_loop h p).
Qed.
Lemma neg_is_dag h p P Q : neg p P Q -> acyclic Q -> is_dag h P = is_dag h Q.
Proof. intros S AQ. unfold is_dag. now rewrite (neg_topo h p P Q S). Qed.
Lemma neg_cpdag h p P Q : neg p P Q -> acyclic Q -> dag_to_cpdag h P = dag_to_cpdag h Q.
Proof.
  intros S AQ. unfold dag_to_cpdag, order_edges. rewrite (neg_is_dag h p P Q S), (neg_topo h p P Q S), (neg_len _ _ _ S) by auto.
  destruct (is_dag h Q) as [[|]|]; simpl; auto. destruct (topological_ordering h Q); simpl; auto.
  replace (mk (length Q) (fun i j => if nz (get P i j) then (-1)%Z else 0%Z)) with (mk (length Q) (fun i j => if nz (get Q i j) then (-1)%Z else 0%Z)); auto.
  apply mk_ext. intros i j _ _. assert (E : nz (get P i j) = nz (get Q i j)) by apply S. now rewrite E.
Qed.
Lemma neg_extension_left h p G G' P : neg p G G' -> acyclic G' -> is_consistent_extension h G P = is_consistent_extension h G' P.
Proof.
  intros S AQ. unfold is_consistent_extension. rewrite (neg_is_dag h p G G' S) by auto. destruct (is_dag h G') as [d|]; simpl; auto.
  destruct d; simpl; auto. rewrite (neg_vstructures p G G' S), (neg_skeleton _ _ _ S). do 3 f_equal. apply forallb_eq. intros e. apply S.
Qed.
Lemma neg_icpdag h p P Q I : neg p P Q -> acyclic Q -> dag_to_icpdag h P I = dag_to_icpdag h Q I.
Proof.
  intros S AQ. unfold dag_to_icpdag. rewrite (neg_cpdag h p P Q S AQ). destruct (dag_to_cpdag h Q) as [C|]; simpl; auto.
  assert (F : flat_map (fun i => map (fun j => (i, j)) (h i (ch i P)) ++ map (fun j => (j, i)) (h i (pa i P))) (h 0 I) =
              flat_map (fun i => map (fun j => (i, j)) (h i (ch i Q)) ++ map (fun j => (j, i)) (h i (pa i Q))) (h 0 I)).
  { apply flat_map_eq. intros i. now rewrite (neg_ch _ _ _ S), (neg_pa _ _ _ S). }
  rewrite F. destruct (ic_loop h _ C) as [M|]; simpl; auto. now rewrite (neg_extension_left h p P Q M S AQ).
Qed.

(** With only non-positive entries every graph passes for a DAG. *)
Lemma nonpos_topo_loop h p fuel : forall P s o, square p P -> nonpos P -> topo_loop h fuel P s o <> Err ValueError.
Proof.
  induction fuel as [|f IH]; intros P s o HP NP; [discriminate|]. cbn [topo_loop]. destruct s as [|i s].
  - rewrite (msum_nonpos p P) by auto. discriminate.
  - set (js := h _ _). assert (K : neg p P (opp p P)).
    { split; [exact HP|]. split; [apply opp_square|]. split; [exact NP|]. split; [now apply opp_nonneg|]. intros x y. rewrite get_opp by exact HP.
      unfold nz. f_equal. destruct (Z.eqb_spec (- get P x y) 0), (Z.eqb_spec (get P x y) 0); auto; lia. }
    destruct (neg_topo_children p i js P (opp p P) s K) as [H1 _]. destruct (topo_children i js P s) as [P' s']. apply IH; apply H1.
Qed.
Lemma nonpos_is_dag h p P : square p P -> nonpos P -> is_dag h P = Ok true.
Proof.
  intros HP NP. unfold is_dag. destruct (topological_ordering_res h p P HP) as [[l ->]|H]; [reflexivity|]. exfalso. revert H. unfold topological_ordering.
  assert (U : (0 <? msum (only_undirected P))%Z = false).
  { apply (msum_nonpos p); unfold only_undirected; rewrite (square_length HP); [apply mk_square|].
    intros i j. rewrite get_mk'. destruct (_ && _); [|lia]. destruct (_ && _); [apply NP|lia]. }
  rewrite U. now apply (nonpos_topo_loop h p).
Qed.
