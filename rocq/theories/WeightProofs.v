(** Lemmas on which functions only see the zeros of an adjacency. *)
From Coq Require Import List Arith ZArith Bool Lia.
Import ListNotations.
From Verif Require Import Base GraphModel GraphSpec BasicProofs TopoProofs EdgeProofs EnumProofs WeightSpec.

Lemma filter_eq A (f g : A -> bool) l : (forall x, f x = g x) -> filter f l = filter g l.
Proof. intros H. apply filter_ext. exact H. Qed.
Lemma where1_ext n f g : (forall i, f i = g i) -> where1 n f = where1 n g.
Proof. apply filter_eq. Qed.
Lemma where2_ext n f g : (forall i j, f i j = g i j) -> where2 n f = where2 n g.
Proof. intros H. apply filter_eq. intros [i j]. apply H. Qed.
Lemma existsb_eq A (f g : A -> bool) l : (forall x, f x = g x) -> existsb f l = existsb g l.
Proof. intros H. induction l; simpl; congruence. Qed.
Lemma forallb_eq A (f g : A -> bool) l : (forall x, f x = g x) -> forallb f l = forallb g l.
Proof. intros H. induction l; simpl; congruence. Qed.
Lemma flat_map_eq A B (f g : A -> list B) l : (forall x, f x = g x) -> flat_map f l = flat_map g l.
Proof. intros H. induction l; simpl; congruence. Qed.

(** The working form of [same_edges] *)
Definition sim (p : nat) (P Q : mat) : Prop :=
  square p P /\ square p Q /\ nonneg P /\ nonneg Q /\ forall i j, nz (get P i j) = nz (get Q i j).

Lemma sim_of p P Q : same_edges p P Q -> sim p P Q.
Proof.
  intros (HP & HQ & NP & NQ & E). repeat split; try apply HP; try apply HQ; auto. intros i j.
  specialize (E i j). unfold edge in E. apply eq_iff_eq_true. rewrite !nz_true. exact E.
Qed.
Lemma sim_to p P Q : sim p P Q -> same_edges p P Q.
Proof.
  intros (HP & HQ & NP & NQ & E). repeat split; try apply HP; try apply HQ; auto; unfold edge; rewrite <- !nz_true, E; auto.
Qed.

Section Sim.
Variables (p : nat) (P Q : mat).
Hypothesis S : sim p P Q.
Let HP : square p P. Proof. apply S. Qed.
Let HQ : square p Q. Proof. apply S. Qed.
Let NP : nonneg P. Proof. apply S. Qed.
Let NQ : nonneg Q. Proof. apply S. Qed.
Let E i j : nz (get P i j) = nz (get Q i j). Proof. apply S. Qed.

Lemma sim_len : length P = length Q.
Proof. now rewrite (square_length HP), (square_length HQ). Qed.
Lemma sim_z i j : (get P i j =? 0)%Z = (get Q i j =? 0)%Z.
Proof. pose proof (E i j) as H. unfold nz in H. destruct (get P i j =? 0)%Z, (get Q i j =? 0)%Z; simpl in H; congruence. Qed.
Lemma sim_sum i j : nz (get P i j + get P j i) = nz (get Q i j + get Q j i).
Proof.
  pose proof (E i j) as H1. pose proof (E j i) as H2. pose proof (NP i j). pose proof (NP j i). pose proof (NQ i j). pose proof (NQ j i).
  apply eq_iff_eq_true in H1, H2. rewrite !nz_true in H1, H2. apply eq_iff_eq_true. rewrite !nz_true. lia.
Qed.
Lemma sim_neighbors i : neighbors i P = neighbors i Q.
Proof. unfold neighbors. rewrite sim_len. apply where1_ext. intros j. now rewrite !E. Qed.
Lemma sim_adj i : adj i P = adj i Q.
Proof. unfold adj. rewrite sim_len. apply where1_ext. intros j. now rewrite !E. Qed.
Lemma sim_pa i : pa i P = pa i Q.
Proof. unfold pa. rewrite sim_len. apply where1_ext. intros j. now rewrite !E, !sim_z. Qed.
Lemma sim_ch i : ch i P = ch i Q.
Proof. unfold ch. rewrite sim_len. apply where1_ext. intros j. now rewrite !E, !sim_z. Qed.
Lemma sim_na y x : na y x P = na y x Q.
Proof. unfold na. now rewrite sim_neighbors, sim_adj. Qed.

Lemma sim_mk f g : (forall i j, (0 <= f i j)%Z) -> (forall i j, (0 <= g i j)%Z) -> (forall i j, nz (f i j) = nz (g i j)) ->
  sim p (mk p f) (mk p g).
Proof.
  intros Hf Hg H. split; [apply mk_square|]. split; [apply mk_square|]. split; [|split].
  - intros i j. rewrite get_mk'. destruct (_ && _); [apply Hf|lia].
  - intros i j. rewrite get_mk'. destruct (_ && _); [apply Hg|lia].
  - intros i j. rewrite !get_mk'. destruct (_ && _); [apply H|reflexivity].
Qed.

Lemma sim_only_directed : sim p (only_directed P) (only_directed Q).
Proof.
  unfold only_directed. rewrite (square_length HP), (square_length HQ). apply sim_mk; intros i j; try (destruct (_ && _); [auto|lia]).
  rewrite !E, !sim_z. destruct (nz (get Q i j)) eqn:H; simpl; [|reflexivity]. destruct (get Q j i =? 0)%Z; [|reflexivity].
  now rewrite E.
Qed.
Lemma sim_only_undirected : sim p (only_undirected P) (only_undirected Q).
Proof.
  unfold only_undirected. rewrite (square_length HP), (square_length HQ). apply sim_mk; intros i j; try (destruct (_ && _); [auto|lia]).
  rewrite !E. destruct (nz (get Q i j) && nz (get Q j i)); [apply E|reflexivity].
Qed.
Lemma sim_upd x y v : (0 <= v)%Z -> sim p (upd P x y v) (upd Q x y v).
Proof.
  intros Hv. unfold upd. rewrite (square_length HP), (square_length HQ). apply sim_mk; intros i j; destruct (_ && _); auto.
Qed.
Lemma sim_sub L : sim (length L) (sub P L) (sub Q L).
Proof.
  split; [apply sub_square|]. split; [apply sub_square|].
  assert (G : forall A i j, get (sub A L) i j = if (i <? length L) && (j <? length L) then get A (nth i L 0) (nth j L 0) else 0%Z).
  { intros A i j. destruct (i <? length L) eqn:Hi, (j <? length L) eqn:Hj; rewrite ?Nat.ltb_lt, ?Nat.ltb_ge in *; simpl;
      try (apply (get_out (sub_square A L)); lia). now apply sub_get. }
  repeat split; intros i j; rewrite !G; destruct (_ && _); auto; lia.
Qed.

Lemma sim_colsum j : (colsum P j =? 0)%Z = (colsum Q j =? 0)%Z.
Proof.
  apply eq_iff_eq_true. rewrite !Z.eqb_eq, (colsum_zero j HP NP), (colsum_zero j HQ NQ).
  split; intros H i; specialize (H i); apply Z.eqb_eq; [rewrite <- sim_z|rewrite sim_z]; now apply Z.eqb_eq.
Qed.
Lemma sim_msum : (0 <? msum P)%Z = (0 <? msum Q)%Z.
Proof.
  pose proof (msum_nonneg NP). pose proof (msum_nonneg NQ).
  assert (H1 : (0 <? msum P)%Z = negb (msum P =? 0)%Z) by (destruct (Z.ltb_spec 0 (msum P)), (Z.eqb_spec (msum P) 0); auto; lia).
  assert (H2 : (0 <? msum Q)%Z = negb (msum Q =? 0)%Z) by (destruct (Z.ltb_spec 0 (msum Q)), (Z.eqb_spec (msum Q) 0); auto; lia).
  rewrite H1, H2. f_equal. apply eq_iff_eq_true. rewrite !Z.eqb_eq, (msum_zero HP NP), (msum_zero HQ NQ).
  split; intros K i j; specialize (K i j); apply Z.eqb_eq; [rewrite <- sim_z|rewrite sim_z]; now apply Z.eqb_eq.
Qed.

Lemma sim_skeleton : skeleton P = skeleton Q.
Proof. unfold skeleton. rewrite sim_len. apply mk_ext. intros i j _ _. now rewrite sim_sum. Qed.
Lemma sim_degrees : degrees P = degrees Q.
Proof. unfold degrees. now rewrite sim_skeleton. Qed.
Lemma sim_complete : is_complete P = is_complete Q.
Proof. unfold is_complete. rewrite sim_len. now rewrite (where2_ext _ _ _ sim_sum). Qed.
Lemma sim_accessible i : accessible P i = accessible Q i.
Proof. unfold accessible. now rewrite sim_ch, sim_neighbors. Qed.
End Sim.

Lemma sim_nz p P Q i j : sim p P Q -> nz (get P i j) = nz (get Q i j). Proof. intros S. apply S. Qed.

Section Sim2.
Variables (h : hord) (p : nat) (P Q : mat).
Hypothesis S : sim p P Q.

Lemma sim_clique L : is_clique h L P = is_clique h L Q.
Proof. unfold is_clique. now rewrite (sim_skeleton _ _ _ (sim_sub _ _ _ S (h 0 L))). Qed.
Lemma sim_undirected_edges : undirected_edges P = undirected_edges Q.
Proof.
  unfold undirected_edges. rewrite (sim_len _ _ _ S). f_equal. apply where2_ext. intros i j.
  apply (sim_nz p). now apply sim_only_undirected.
Qed.
Lemma sim_directed_edges : directed_edges P = directed_edges Q.
Proof.
  unfold directed_edges. rewrite (sim_len _ _ _ S). apply where2_ext. intros i j. apply (sim_nz p). now apply sim_only_directed.
Qed.
Lemma sim_vstructures : vstructures h P = vstructures h Q.
Proof.
  unfold vstructures. rewrite (sim_len _ _ _ S).
  assert (C : forall c, (1 <? length (where1 (length Q) (fun i => nz (get (only_directed P) i c)))) =
                        (1 <? length (where1 (length Q) (fun i => nz (get (only_directed Q) i c))))).
  { intros c. do 2 f_equal. apply where1_ext. intros i. apply (sim_nz p). now apply sim_only_directed. }
  rewrite (where1_ext _ _ _ C). apply flat_map_eq. intros c. rewrite (sim_pa _ _ _ S).
  apply flat_map_eq. intros [i j]. now rewrite !(sim_z _ _ _ S).
Qed.
Lemma sim_moral : moral_graph h P = moral_graph h Q.
Proof. unfold moral_graph. now rewrite sim_vstructures, (sim_skeleton _ _ _ S). Qed.

Lemma sim_cc_for js st : cc_for P js st = cc_for Q js st.
Proof.
  unfold cc_for. revert st. induction js as [|j js IH]; intros [v t]; simpl; auto. now rewrite (sim_neighbors _ _ _ S), IH.
Qed.
Lemma sim_cc_loop fuel v t : cc_loop h fuel P v t = cc_loop h fuel Q v t.
Proof.
  revert v t. induction fuel as [|f IH]; intros v [|x t]; simpl; auto. rewrite sim_cc_for. destruct (cc_for _ _ _). apply IH.
Qed.
Lemma sim_sdp_loop fuel to stack paths : sdp_loop h fuel P to stack paths = sdp_loop h fuel Q to stack paths.
Proof.
  revert stack paths. induction fuel as [|f IH]; intros stack paths; simpl; auto.
  destruct stack as [|[[cur v] [|n r]] stack]; auto; destruct (cur =? to); auto. now rewrite IH, (sim_accessible _ _ _ S).
Qed.
Lemma sim_sdp fuel i j : semi_directed_paths h fuel i j P = semi_directed_paths h fuel i j Q.
Proof. unfold semi_directed_paths. now rewrite sim_sdp_loop, (sim_accessible _ _ _ S). Qed.
Lemma sim_separates fuel L A B : separates h fuel L A B P = separates h fuel L A B Q.
Proof.
  unfold separates. destruct (inter A B), (inter A L), (inter B L); auto. induction (list_prod _ _) as [|[a b] ab IH]; simpl; auto.
  rewrite sim_sdp. destruct (semi_directed_paths _ _ _ _ _); simpl; auto. destruct (existsb _ _); auto.
Qed.
End Sim2.

Lemma sim_chain_component h p P Q i : sim p P Q -> chain_component h i P = chain_component h i Q.
Proof.
  intros S. unfold chain_component. rewrite (sim_len _ _ _ S). apply (sim_cc_loop h p). now apply sim_only_undirected.
Qed.

Lemma sim_topo_children p i js : forall P Q s, sim p P Q ->
  sim p (fst (topo_children i js P s)) (fst (topo_children i js Q s)) /\
  snd (topo_children i js P s) = snd (topo_children i js Q s).
Proof.
  induction js as [|j js IH]; intros P Q s S; simpl; auto.
  assert (S' : sim p (upd P i j 0) (upd Q i j 0)) by (apply sim_upd; [exact S|lia]).
  rewrite (sim_pa _ _ _ S'). now apply IH.
Qed.
Lemma sim_topo_loop h p fuel : forall P Q s o, sim p P Q -> topo_loop h fuel P s o = topo_loop h fuel Q s o.
Proof.
  induction fuel as [|f IH]; intros P Q s o S; auto. cbn [topo_loop]. destruct s as [|i s].
  - now rewrite (sim_msum _ _ _ S).
  - rewrite (sim_ch _ _ _ S). destruct (sim_topo_children p i (h (Datatypes.S f) (ch i Q)) P Q s S) as [H1 H2].
    destruct (topo_children i _ P s), (topo_children i _ Q s). simpl in *. subst. now apply IH.
Qed.
Lemma sim_topo h p P Q : sim p P Q -> topological_ordering h P = topological_ordering h Q.
Proof.
  intros S. unfold topological_ordering. rewrite (sim_msum _ _ _ (sim_only_undirected _ _ _ S)), (sim_len _ _ _ S).
  destruct (0 <? _)%Z; auto. rewrite (where1_ext _ _ _ (sim_colsum _ _ _ S)). now apply (sim_topo_loop h p).
Qed.
Lemma sim_is_dag h p P Q : sim p P Q -> is_dag h P = is_dag h Q.
Proof. intros S. unfold is_dag. now rewrite (sim_topo h p P Q S). Qed.

Lemma sim_extension h p q G G' P Q : sim p G G' -> sim q P Q ->
  is_consistent_extension h G P = is_consistent_extension h G' Q.
Proof.
  intros S T. unfold is_consistent_extension. rewrite (sim_is_dag h p G G' S). destruct (is_dag h G') as [d|]; simpl; auto.
  destruct d; simpl; auto. rewrite (sim_vstructures h p G G' S), (sim_vstructures h q P Q T), (sim_skeleton _ _ _ S), (sim_skeleton _ _ _ T).
  do 3 f_equal. rewrite (sim_len _ _ _ T).
  rewrite (where2_ext _ _ (fun i j => nz (get (only_directed Q) i j))).
  - apply forallb_eq. intros e. apply S.
  - intros i j. apply (sim_nz q). now apply sim_only_directed.
Qed.
Lemma sim_extension_left h p G G' P : sim p G G' -> is_consistent_extension h G P = is_consistent_extension h G' P.
Proof.
  intros S. unfold is_consistent_extension. rewrite (sim_is_dag h p G G' S). destruct (is_dag h G') as [d|]; simpl; auto.
  destruct d; simpl; auto. rewrite (sim_vstructures h p G G' S), (sim_skeleton _ _ _ S). do 3 f_equal. apply forallb_eq. intros e. apply S.
Qed.
Lemma sim_factorization h p P Q : sim p P Q -> to_factorization h P = to_factorization h Q.
Proof.
  intros S. unfold to_factorization. rewrite (sim_is_dag h p P Q S), (sim_len _ _ _ S). destruct (is_dag h Q) as [[|]|]; simpl; auto.
  f_equal. apply map_ext. intros j. apply (sim_pa _ _ _ S).
Qed.

Lemma sim_order_edges h p P Q : sim p P Q -> order_edges h P = order_edges h Q.
Proof.
  intros S. unfold order_edges. rewrite (sim_is_dag h p P Q S), (sim_topo h p P Q S), (sim_len _ _ _ S).
  destruct (is_dag h Q) as [[|]|]; simpl; auto. destruct (topological_ordering h Q); simpl; auto. f_equal.
  apply mk_ext. intros i j _ _. now rewrite (sim_nz _ _ _ i j S).
Qed.
Lemma sim_cpdag h p P Q : sim p P Q -> dag_to_cpdag h P = dag_to_cpdag h Q.
Proof. intros S. unfold dag_to_cpdag. now rewrite (sim_order_edges h p P Q S). Qed.

(** Results that are arrays *)
Definition sim_res (p : nat) (r s : res mat) : Prop :=
  match r, s with Ok P, Ok Q => sim p P Q | Err e, Err e' => e = e' | _, _ => False end.
Lemma sim_res_to p r s : sim_res p r s -> same_edges_res p r s.
Proof. destruct r, s; simpl; auto. apply sim_to. Qed.
Lemma sim_bind A p r s (f g : mat -> res A) : sim_res p r s -> (forall P Q, sim p P Q -> f P = g Q) -> bind r f = bind s g.
Proof. destruct r, s; simpl; intros H K; try contradiction; auto. now subst. Qed.

Lemma sim_dt_loop h ab p fuel : forall q P Q G G' idx, sim q P Q -> sim p G G' ->
  sim_res p (dt_loop h ab fuel P G idx) (dt_loop h ab fuel Q G' idx).
Proof.
  induction fuel as [|f IH]; intros q P Q G G' idx S T; cbn [dt_loop]; pose proof (sim_len _ _ _ S) as L;
    destruct P as [|r P], Q as [|r' Q]; try discriminate; try exact T; [simpl; reflexivity|].
  rewrite L. assert (C : forall i, dt_candidate (r :: P) i = dt_candidate (r' :: Q) i).
  { intros i. unfold dt_candidate. rewrite (sim_ch _ _ _ S), (sim_neighbors _ _ _ S), (sim_adj _ _ _ S).
    f_equal. apply forallb_eq. intros y. now rewrite (sim_adj _ _ _ S). }
  assert (F : find (dt_candidate (r :: P)) (seq 0 (length (r' :: Q))) = find (dt_candidate (r' :: Q)) (seq 0 (length (r' :: Q)))).
  { induction (seq 0 (length (r' :: Q))) as [|x l IHl]; auto. cbn [find]. now rewrite C, IHl. }
  rewrite F. clear F C. destruct (find _ _) as [i|]; [|simpl; reflexivity]. rewrite (sim_neighbors _ _ _ S). eapply IH.
  - apply (sim_sub _ _ _ S).
  - generalize (map (fun j => nth j idx 0) (h (Datatypes.S f) (neighbors i (r' :: Q)))). intros l. revert G G' T.
    induction l as [|j l IHl]; intros G G' T; simpl; auto. apply IHl. apply sim_upd; [exact T|lia].
Qed.
Lemma sim_pdag_to_dag h p P Q : sim p P Q -> sim_res p (pdag_to_dag h P) (pdag_to_dag h Q).
Proof.
  intros S. unfold pdag_to_dag, pdag_to_dag_gen. rewrite (sim_len _ _ _ S). apply (sim_dt_loop h _ p _ p); auto. now apply sim_only_directed.
Qed.
Lemma sim_pdag_to_cpdag h p P Q : sim p P Q -> pdag_to_cpdag h P = pdag_to_cpdag h Q.
Proof. intros S. unfold pdag_to_cpdag. apply (sim_bind _ p); [now apply sim_pdag_to_dag|]. intros. now apply (sim_cpdag h p). Qed.

Lemma sim_rules p P Q i j : sim p P Q -> rules i j P = rules i j Q.
Proof.
  intros S. unfold rules, rule_1, rule_2, rule_3, rule_4.
  rewrite !(sim_pa _ _ _ S), !(sim_ch _ _ _ S), !(sim_neighbors _ _ _ S), !(sim_adj _ _ _ S). f_equal; [f_equal|].
  - f_equal. apply existsb_eq. intros k. apply existsb_eq. intros l. now rewrite (sim_adj _ _ _ S).
  - f_equal.
    assert (F : forall l acc, fold_left (fun a k => union a (pa k P)) l acc = fold_left (fun a k => union a (pa k Q)) l acc).
    { induction l as [|k l IH]; intros acc; simpl; auto. now rewrite (sim_pa _ _ _ S), IH. }
    now rewrite F.
Qed.
Lemma sim_mo_for p es : forall P Q b, sim p P Q ->
  sim p (fst (mo_for es P b)) (fst (mo_for es Q b)) /\ snd (mo_for es P b) = snd (mo_for es Q b).
Proof.
  induction es as [|[i j] es IH]; intros P Q b S; simpl; auto. rewrite !(sim_rules _ _ _ _ _ S).
  destruct (rules i j Q); [apply IH, sim_upd; [exact S|lia]|]. destruct (rules j i Q); [apply IH, sim_upd; [exact S|lia]|]. now apply IH.
Qed.
Lemma sim_mo_loop p fuel : forall P Q, sim p P Q -> sim_res p (mo_loop fuel P) (mo_loop fuel Q).
Proof.
  induction fuel as [|f IH]; intros P Q S; simpl; auto. rewrite (sim_undirected_edges _ _ _ S).
  destruct (sim_mo_for p (undirected_edges Q) P Q false S) as [H1 H2].
  destruct (mo_for _ P false) as [P' b], (mo_for _ Q false) as [Q' b']. simpl in *. subst. destruct b'; auto.
Qed.
Lemma sim_maximally_orient h p P Q : sim p P Q -> sim_res p (maximally_orient h P) (maximally_orient h Q).
Proof.
  intros S. unfold maximally_orient. pose proof (sim_pdag_to_dag h p P Q S) as H.
  destruct (pdag_to_dag h P), (pdag_to_dag h Q); cbn [sim_res bind] in *; try contradiction; auto.
  rewrite (sim_undirected_edges _ _ _ S). now apply (sim_mo_loop p).
Qed.

Lemma sim_icpdag h p P Q I : sim p P Q -> dag_to_icpdag h P I = dag_to_icpdag h Q I.
Proof.
  intros S. unfold dag_to_icpdag. rewrite (sim_cpdag h p P Q S). destruct (dag_to_cpdag h Q) as [C|]; simpl; auto.
  assert (F : flat_map (fun i => map (fun j => (i, j)) (h i (ch i P)) ++ map (fun j => (j, i)) (h i (pa i P))) (h 0 I) =
              flat_map (fun i => map (fun j => (i, j)) (h i (ch i Q)) ++ map (fun j => (j, i)) (h i (pa i Q))) (h 0 I)).
  { apply flat_map_eq. intros i. now rewrite (sim_ch _ _ _ S), (sim_pa _ _ _ S). }
  rewrite F. destruct (ic_loop h _ C) as [M|]; simpl; auto. now rewrite (sim_extension_left h p P Q M S).
Qed.
Lemma sim_pdag_to_icpdag h p P Q I : sim p P Q -> pdag_to_icpdag h P I = pdag_to_icpdag h Q I.
Proof.
  intros S. unfold pdag_to_icpdag.
  rewrite (existsb_eq _ (fun i => 0 <? length (neighbors i P)) (fun i => 0 <? length (neighbors i Q)));
    [|intros i; now rewrite (sim_neighbors _ _ _ S)].
  destruct (existsb _ _); auto. apply (sim_bind _ p); [now apply sim_pdag_to_dag|]. intros. now apply (sim_icpdag h p).
Qed.

(** Without the shortcut for chains *)
Lemma sim_mec h p P Q : sim p P Q -> mec h P false = mec h Q false.
Proof. intros S. unfold mec. simpl. now rewrite (sim_is_dag h p P Q S), (sim_cpdag h p P Q S). Qed.
Lemma sim_imec h p P Q I : sim p P Q -> imec h P I false = imec h Q I false.
Proof. intros S. unfold imec. simpl. now rewrite (sim_is_dag h p P Q S), (sim_icpdag h p P Q I S), (sim_len _ _ _ S). Qed.

Lemma sim_to01 p P : square p P -> nonneg P -> sim p P (to01 P).
Proof.
  intros HP NP. pose proof (to01_square _ _ HP) as H1. pose proof (to01_binary _ _ HP) as H2.
  split; [exact HP|]. split; [exact H1|]. split; [exact NP|]. split; [now apply binary_nonneg|].
  intros i j. rewrite (to01_get _ _ i j HP). destruct (nz (get P i j)); reflexivity.
Qed.

(** all_dags counts weights instead of edges. *)
Lemma sumZ_le l (f g : nat * nat -> Z) : (forall e, (f e <= g e)%Z) -> (sumZ (map f l) <= sumZ (map g l))%Z.
Proof. intros H. induction l as [|e l IH]; cbn [map sumZ fold_right]; [lia|]. specialize (H e). unfold sumZ in IH. lia. Qed.
Lemma sumZ_lt l (f g : nat * nat -> Z) e : (forall e, (f e <= g e)%Z) -> In e l -> (f e < g e)%Z ->
  (sumZ (map f l) < sumZ (map g l))%Z.
Proof.
  intros H. induction l as [|x l IH]; intros Hin Hl; [destruct Hin|]. cbn [map sumZ fold_right].
  pose proof (sumZ_le l f g H) as K. unfold sumZ in *. pose proof (H x). destruct Hin as [->|Hin]; [lia|]. specialize (IH Hin Hl). lia.
Qed.
Lemma all_dags_weights (h : hord) p P i j : square p P -> nonneg P -> loopless P -> und P i j -> get P i j <> 1%Z ->
  all_dags h P = Err AssertionError.
Proof.
  intros HP NP LP HU HW. unfold all_dags. pose proof (sim_to01 p P HP NP) as S.
  rewrite (sim_undirected_edges _ _ _ S). pose proof (to01_square _ _ HP) as SQ. pose proof (to01_binary _ _ HP) as BQ.
  assert (LQ : loopless (to01 P)). { intros k Hk. apply (LP k). now apply (to01_edge _ _ k k HP). }
  rewrite (undirected_count p (to01 P) SQ BQ LQ).
  assert (L : (msum (only_undirected (to01 P)) < msum (only_undirected P))%Z).
  { unfold msum. rewrite (square_length (only_undirected_square p P HP)), (square_length (only_undirected_square p _ SQ)).
    pose proof (edge_lt _ _ _ _ HP (proj1 HU)).
    apply (sumZ_lt _ _ _ (i, j)); [|now apply pairs_In|].
    - intros [a b]. simpl. rewrite (only_undirected_get _ _ _ _ HP), (only_undirected_get _ _ _ _ SQ), !(to01_get _ _ _ _ HP).
      pose proof (NP a b). destruct (nz (get P a b)) eqn:E1, (nz (get P b a)) eqn:E2; simpl; try lia.
      apply nz_true in E1. lia.
    - simpl. rewrite (only_undirected_get _ _ _ _ HP), (only_undirected_get _ _ _ _ SQ), !(to01_get _ _ _ _ HP).
      destruct HU as [U1 U2]. unfold edge in *. pose proof (NP i j). apply nz_true in U1, U2. rewrite U1, U2. simpl.
      apply nz_true in U1. lia. }
  destruct (Z.eqb_spec (msum (only_undirected (to01 P))) (msum (only_undirected P))); [lia|reflexivity].
Qed.

Lemma supergraph_weights p sup A i j : square p A -> edge A i j -> get A i j <> 1%Z -> is_supergraph sup A = false.
Proof.
  intros HA HE HW. unfold is_supergraph. rewrite (square_length HA). destruct (forallb _ _) eqn:F; auto. exfalso.
  rewrite forallb_forall in F. specialize (F (i, j)). simpl in F. rewrite Z.eqb_eq, pairs_In in F.
  pose proof (F (edge_lt _ _ _ _ HA HE)) as Q. unfold edge in HE. destruct (_ && _) in Q; congruence.
Qed.

(** Theorems of PropWeight.v *)
Lemma weights_sets p P Q : same_edges p P Q -> forall (h : hord) i j L,
  neighbors i P = neighbors i Q /\ adj i P = adj i Q /\ pa i P = pa i Q /\ ch i P = ch i Q /\ na i j P = na i j Q /\
  undirected_edges P = undirected_edges Q /\ directed_edges P = directed_edges Q /\
  skeleton P = skeleton Q /\ degrees P = degrees Q /\ is_complete P = is_complete Q /\ is_clique h L P = is_clique h L Q /\
  vstructures h P = vstructures h Q /\ moral_graph h P = moral_graph h Q /\ chain_component h i P = chain_component h i Q.
Proof.
  intros H h i j L. apply sim_of in H.
  repeat split; eauto using sim_neighbors, sim_adj, sim_pa, sim_ch, sim_na, sim_undirected_edges, sim_directed_edges, sim_skeleton,
    sim_degrees, sim_complete, sim_clique, sim_vstructures, sim_moral, sim_chain_component.
Qed.
Lemma weights_orders p P Q : same_edges p P Q -> forall (h : hord) fuel i j L A B,
  topological_ordering h P = topological_ordering h Q /\ is_dag h P = is_dag h Q /\
  semi_directed_paths h fuel i j P = semi_directed_paths h fuel i j Q /\
  separates h fuel L A B P = separates h fuel L A B Q /\
  to_factorization h P = to_factorization h Q /\ order_edges h P = order_edges h Q.
Proof.
  intros H h fuel i j L A B. apply sim_of in H.
  repeat split; eauto using sim_topo, sim_is_dag, sim_sdp, sim_separates, sim_factorization, sim_order_edges.
Qed.
Lemma weights_classes p P Q : same_edges p P Q -> forall (h : hord) I,
  dag_to_cpdag h P = dag_to_cpdag h Q /\ pdag_to_cpdag h P = pdag_to_cpdag h Q /\
  dag_to_icpdag h P I = dag_to_icpdag h Q I /\ pdag_to_icpdag h P I = pdag_to_icpdag h Q I /\
  mec h P false = mec h Q false /\ imec h P I false = imec h Q I false /\
  same_edges_res p (pdag_to_dag h P) (pdag_to_dag h Q) /\ same_edges_res p (maximally_orient h P) (maximally_orient h Q).
Proof.
  intros H h I. apply sim_of in H.
  repeat split; eauto using sim_cpdag, sim_pdag_to_cpdag, sim_icpdag, sim_pdag_to_icpdag, sim_mec, sim_imec, sim_res_to, sim_pdag_to_dag,
    sim_maximally_orient.
Qed.
Lemma weights_extension p G G' P Q : same_edges p G G' -> same_edges p P Q -> forall h : hord,
  is_consistent_extension h G P = is_consistent_extension h G' Q.
Proof. intros H K h. apply sim_of in H, K. eauto using sim_extension. Qed.
Lemma weights_binary p P : square p P -> nonneg P -> exists Q, binary Q /\ same_edges p P Q.
Proof. intros H N. exists (to01 P). split; [eapply to01_binary; eassumption|]. now apply sim_to, sim_to01. Qed.
