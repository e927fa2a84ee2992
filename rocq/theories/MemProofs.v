(** Proofs of the properties of the graph functions on a memory. *)
From Coq Require Import List Arith ZArith Bool Lia.
Import ListNotations.
From Verif Require Import Base GraphModel MemModel MemSpec.

Lemma set_cell_length H a A : length (set_cell H a A) = length H.
Proof. revert a; induction H as [|B H IH]; destruct a; simpl; auto. Qed.
Lemma set_cell_same H a A : a < length H -> cell (set_cell H a A) a = A.
Proof. revert a; induction H as [|B H IH]; destruct a; simpl; intros L; try lia; auto. apply IH; lia. Qed.
Lemma set_cell_other H a b A : a <> b -> cell (set_cell H a A) b = cell H b.
Proof.
  revert a b; induction H as [|B H IH]; destruct a, b; simpl; intros N; auto; try congruence.
  apply IH; congruence.
Qed.

(** Only the arrays in W can have changed. *)
Definition frame (W : list nat) (H H' : heap) : Prop :=
  length H <= length H' /\ forall a, a < length H -> ~ In a W -> cell H' a = cell H a.
Lemma frame_refl W H : frame W H H.
Proof. split; auto. Qed.
Lemma frame_trans W H H1 H2 : frame W H H1 -> frame W H1 H2 -> frame W H H2.
Proof.
  intros [L1 F1] [L2 F2]; split; [lia|]. intros a La N. rewrite F2, F1; auto. lia.
Qed.
Lemma frame_incl W W' H H' : (forall a, In a W -> a < length H -> In a W') -> frame W H H' -> frame W' H H'.
Proof. intros I [L F]; split; auto. Qed.

(** m, started on H, only changes W and agrees with r. *)
Definition runs {T U} (m : prog T) (H : heap) (W : list nat) (r : res U) (R : heap -> T -> U -> Prop) : Prop :=
  frame W H (fst (m H)) /\ agree (R (fst (m H))) (snd (m H)) r.

Lemma runs_ret {T U} (x : T) (u : U) H W (R : heap -> T -> U -> Prop) : R H x u -> runs (ret x) H W (Ok u) R.
Proof. intros; split; [apply frame_refl|]; simpl; auto. Qed.
Lemma runs_raise {T U} e H W (R : heap -> T -> U -> Prop) : runs (raise e) H W (Err e) R.
Proof. split; [apply frame_refl|]; simpl; auto. Qed.
Lemma runs_bind {T U V X} (m : prog T) (k : T -> prog V) H W (r : res U) (kr : U -> res X) (R : heap -> T -> U -> Prop) R' :
  runs m H W r R -> (forall H1 t u, frame W H H1 -> R H1 t u -> runs (k t) H1 W (kr u) R') -> runs (pbind m k) H W (bind r kr) R'.
Proof.
  unfold runs, pbind; intros [F A] K. destruct (m H) as [H1 [t|e]]; simpl in *.
  - destruct r as [u|e]; simpl in *; [|tauto]. destruct (K H1 t u F A) as [F' A'].
    split; auto. eapply frame_trans; eauto.
  - destruct r as [u|e']; simpl in *; [tauto|]. subst; auto.
Qed.
(** A program whose value is known *)
Lemma runs_seq {T U V} (m : prog T) (k : T -> prog V) H W (u : U) (R : heap -> T -> U -> Prop) (X : Type) (r : res X) R' :
  runs m H W (Ok u) R -> (forall H1 t, frame W H H1 -> R H1 t u -> runs (k t) H1 W r R') -> runs (pbind m k) H W r R'.
Proof.
  unfold runs, pbind; intros [F A] K. destruct (m H) as [H1 [t|e]]; simpl in *; [|tauto].
  destruct (K H1 t F A) as [F' A']. split; auto. eapply frame_trans; eauto.
Qed.
Lemma runs_load {V X} a (k : mat -> prog V) H W (r : res X) R : runs (k (cell H a)) H W r R -> runs (pbind (load a) k) H W r R.
Proof. exact (fun K => K). Qed.
Lemma frame_new W H A : frame W H (H ++ [A]).
Proof. split; [rewrite app_length; lia|]. intros a L _; unfold cell; apply app_nth1; auto. Qed.
Lemma cell_new H A : cell (H ++ [A]) (length H) = A.
Proof. unfold cell. rewrite app_nth2, Nat.sub_diag; auto. Qed.
Lemma length_new (H : heap) A : length (H ++ [A]) = S (length H).
Proof. rewrite app_length; simpl; lia. Qed.
(** The new array may be changed *)
Lemma runs_new {V X} A (k : nat -> prog V) H W W' (r : res X) R :
  (forall a, In a W' -> a < length H -> In a W) -> runs (k (length H)) (H ++ [A]) W' r R -> runs (pbind (new A) k) H W r R.
Proof.
  unfold runs, pbind; simpl; intros I [F A']. split; auto.
  destruct F as [L F]. rewrite length_new in L. split; [lia|]. intros a La N.
  rewrite F; [apply (frame_new [] H A); auto|rewrite length_new; lia|auto].
Qed.
Lemma runs_put a i j v H : a < length H -> runs (put a i j v) H [a] (Ok (upd (cell H a) i j v)) (fun H' _ A => cell H' a = A).
Proof.
  intros L; split; simpl.
  - split; [rewrite set_cell_length; lia|]. intros b Lb N. apply set_cell_other. intros E; apply N; simpl; auto.
  - apply set_cell_same; auto.
Qed.
Lemma runs_weaken {T U} (m : prog T) H W W' (r : res U) (R R' : heap -> T -> U -> Prop) :
  runs m H W r R -> (forall a, In a W -> a < length H -> In a W') -> (forall H' t u, frame W H H' -> R H' t u -> R' H' t u) -> runs m H W' r R'.
Proof.
  intros [F A] I K; split; [eapply frame_incl; eauto|]. destruct (snd (m H)), r; simpl in *; auto.
Qed.
(** What was made after H0 counts as unchanged *)
Lemma frame_length W H H' a : frame W H H' -> a < length H -> a < length H'.
Proof. intros [L _] La; lia. Qed.
Lemma frame_cell W H H' a : frame W H H' -> a < length H -> ~ In a W -> cell H' a = cell H a.
Proof. intros [_ F]; auto. Qed.

Lemma each_fold {T} (l : list T) body c (f : mat -> T -> mat) H : c < length H ->
  (forall H x, c < length H -> runs (body x) H [c] (Ok (f (cell H c) x)) (fun H' _ A => cell H' c = A)) ->
  runs (each l body) H [c] (Ok (fold_left f l (cell H c))) (fun H' _ A => cell H' c = A).
Proof.
  intros L B; revert H L; induction l as [|x l IH]; intros H L; simpl.
  - apply runs_ret; auto.
  - eapply runs_seq; [apply B; auto|]. simpl; intros H1 _ F E. rewrite <- E. apply IH. eapply frame_length; eauto.
Qed.
Lemma each_put {T} (l : list T) c (x y : T -> nat) (v : T -> Z) H : c < length H ->
  runs (each l (fun t => put c (x t) (y t) (v t))) H [c] (Ok (fold_left (fun A t => upd A (x t) (y t) (v t)) l (cell H c))) (fun H' _ A => cell H' c = A).
Proof. intros L. apply (each_fold l _ c (fun A t => upd A (x t) (y t) (v t))); auto. intros; apply runs_put; auto. Qed.

(** topological_ordering and is_dag *)
Lemma topo_children_runs i js c sinks H : c < length H ->
  runs (m_topo_children i js c sinks) H [c] (Ok (topo_children i js (cell H c) sinks)) (fun H' s u => cell H' c = fst u /\ s = snd u).
Proof.
  revert sinks H; induction js as [|j js IH]; intros sinks H L; simpl.
  - apply runs_ret; auto.
  - eapply runs_seq; [apply runs_put; auto|]. simpl; intros H1 _ F E. apply runs_load. rewrite <- E.
    apply IH. eapply frame_length; eauto.
Qed.
Lemma topo_loop_runs h fuel c sinks ord H : c < length H ->
  runs (m_topo_loop h fuel c sinks ord) H [c] (topo_loop h fuel (cell H c) sinks ord) (fun _ => eq).
Proof.
  revert sinks ord H; induction fuel as [|f IH]; intros sinks ord H L; simpl; [apply runs_raise|].
  apply runs_load. destruct sinks as [|i sinks].
  - destruct (_ <? _)%Z; [apply runs_raise|apply runs_ret; auto].
  - eapply runs_seq; [apply topo_children_runs; auto|]. intros H1 s F E.
    destruct (topo_children _ _ _ _) as [A' s']; simpl in E. destruct E as [E ->]. rewrite <- E. apply IH. eapply frame_length; eauto.
Qed.
Lemma topological_ordering_runs h a H : runs (m_topological_ordering h a) H [] (topological_ordering h (cell H a)) (fun _ => eq).
Proof.
  unfold m_topological_ordering, topological_ordering. apply runs_load. destruct (_ <? _)%Z; [apply runs_raise|].
  eapply (runs_new _ _ _ _ [length H]).
  - simpl; intros b [<-|[]] Lb; lia.
  - apply runs_load. rewrite cell_new.
    pose proof (topo_loop_runs h (length (cell H a) + length (cell H a) * length (cell H a) + 1) (length H)
      (rev (where1 (length (cell H a)) (fun j => (colsum (cell H a) j =? 0)%Z))) [] (H ++ [cell H a])) as P.
    rewrite cell_new in P. apply P. rewrite length_new; lia.
Qed.
Lemma is_dag_runs h a H : runs (m_is_dag h a) H [] (is_dag h (cell H a)) (fun _ => eq).
Proof.
  destruct (topological_ordering_runs h a H) as [F A]. unfold runs, m_is_dag, is_dag.
  destruct (m_topological_ordering h a H) as [H1 [x|e]]; simpl in *.
  - destruct (topological_ordering h (cell H a)); simpl in *; [auto|tauto].
  - destruct (topological_ordering h (cell H a)) as [x|e']; simpl in *; [tauto|]. subst e'. destruct e; simpl; auto.
Qed.

(** A function that makes an array, changes it and returns it *)
Lemma runs_make {X} A (body : nat -> prog X) H (r : res mat) :
  runs (body (length H)) (H ++ [A]) [length H] r (fun H' _ B => cell H' (length H) = B) ->
  runs (let! c := new A in let! _ := body c in ret c) H [] r (made H).
Proof.
  intros B. apply (runs_new _ _ _ _ [length H]); [simpl; intros b [<-|[]] Lb; lia|].
  replace r with (bind r (fun B => Ok B)) by (destruct r; auto).
  eapply runs_bind; [exact B|]. simpl; intros H1 _ C F E. apply runs_ret. split; [lia|]. split; auto.
  eapply frame_length; [exact F|]. rewrite length_new; lia.
Qed.
Lemma moral_graph_runs h a H : runs (m_moral_graph h a) H [] (Ok (moral_graph h (cell H a))) (made H).
Proof.
  unfold m_moral_graph, moral_graph. apply runs_load. apply runs_make.
  pose proof (each_fold (vstructures h (cell H a)) (fun t => let '(i, _, j) := t in let! _ := put (length H) i j 1 in put (length H) j i 1)
    (length H) (fun m t => let '(i, _, j) := t in upd (upd m i j 1) j i 1) (H ++ [skeleton (cell H a)])) as P.
  rewrite cell_new in P. apply P; [rewrite length_new; lia|].
  intros H1 [[i x] j] L. eapply runs_seq; [apply runs_put; auto|]. simpl; intros H2 _ F <-. apply runs_put. eapply frame_length; eauto.
Qed.
Lemma is_consistent_extension_runs h g q H : g < length H -> q < length H ->
  runs (m_is_consistent_extension h g q) H [] (is_consistent_extension h (cell H g) (cell H q)) (fun _ => eq).
Proof.
  intros Lg Lq. unfold m_is_consistent_extension, is_consistent_extension.
  eapply runs_bind; [apply is_dag_runs|]. simpl; intros H1 d ? F <-. destruct d; simpl; [|apply runs_raise].
  apply runs_load, runs_load. rewrite (frame_cell _ _ _ g F), (frame_cell _ _ _ q F); auto. apply runs_ret; auto.
Qed.
Lemma remove_edges_runs choice a n H : runs (m_remove_edges choice a n) H [] (remove_edges choice (cell H a) n) (made H).
Proof.
  unfold m_remove_edges, remove_edges. apply runs_load. apply (runs_new _ _ _ _ []); [simpl; tauto|].
  apply runs_load. rewrite cell_new. destruct (_ <? _); [apply runs_raise|].
  eapply runs_weaken; [apply runs_make|simpl; tauto|].
  - pose proof (each_put (choice (directed_edges (to01 (cell H a))) n) (length (H ++ [to01 (cell H a)])) fst snd (fun _ => 0%Z)
      ((H ++ [to01 (cell H a)]) ++ [to01 (cell H a)])) as P.
    rewrite cell_new in P. apply P. rewrite !length_new; lia.
  - simpl; intros H' t u _ (L & M & E). rewrite length_new in L. repeat split; auto; lia.
Qed.

Lemma add_loop_runs h b n edges sup H0 H : length H0 <= sup -> sup < length H -> b < length H ->
  runs (m_add_loop h b n edges sup) H [] (add_loop h (cell H b) n edges (cell H sup)) (made H0).
Proof.
  revert sup H; induction edges as [|[i j] edges IH]; intros sup H L0 L Lb; simpl; apply runs_load, runs_load.
  - destruct (_ <? _)%Z; apply runs_ret; repeat split; auto.
  - destruct (_ <? _)%Z; [|apply runs_ret; repeat split; auto].
    apply (runs_new _ _ _ _ [length H]); [simpl; intros c [<-|[]] Lc; lia|].
    eapply runs_seq; [apply runs_put; rewrite length_new; lia|]. rewrite cell_new. intros H1 ? F E; cbn beta in E.
    rewrite <- E. eapply (runs_weaken _ _ []); [|intros c []|intros ? ? ? _ X; exact X].
    pose proof F as [LF _]. rewrite length_new in LF.
    assert (C : forall c, c < length H -> cell H1 c = cell H c).
    { intros c Lc. rewrite (frame_cell _ _ _ c F); [apply (frame_new [] H); auto|rewrite length_new; lia|simpl; lia]. }
    eapply runs_bind; [apply is_dag_runs|]. simpl; intros H2 d ? F2 <-. pose proof F2 as [LF2 _].
    rewrite <- (C b Lb), <- (frame_cell _ _ _ b F2); auto; [|lia].
    assert (E2 : (if d then cell H1 (length H) else cell H sup) = cell H2 (if d then length H else sup)).
    { destruct d; rewrite (frame_cell _ _ _ _ F2); auto; try lia. rewrite C; auto. }
    rewrite E2. pose proof (frame_length _ _ _ b F2). apply IH; destruct d; lia.
Qed.
Lemma add_edges_runs h shuffle a n H : runs (m_add_edges h shuffle a n) H [] (add_edges h shuffle (cell H a) n) (made H).
Proof.
  unfold m_add_edges, add_edges. apply runs_load. apply (runs_new _ _ _ _ []); [simpl; tauto|].
  apply runs_load. rewrite cell_new. destruct (_ <? _)%Z; [apply runs_raise|].
  apply (runs_new _ _ _ _ []); [simpl; tauto|]. set (B := to01 (cell H a)).
  assert (CB : cell ((H ++ [B]) ++ [B]) (length H) = B).
  { rewrite (frame_cell _ _ _ _ (frame_new [] (H ++ [B]) B)); [apply cell_new|rewrite length_new; lia|auto]. }
  eapply runs_bind.
  - pose proof (add_loop_runs h (length H) n (shuffle (where2 (length B) (fun i j => (get B i j + get B j i + (if (i =? j)%nat then 1 else 0) =? 0)%Z)))
      (length (H ++ [B])) H ((H ++ [B]) ++ [B])) as P.
    rewrite cell_new, CB in P. apply P; rewrite !length_new; lia.
  - intros H1 t u F (L & M & E). apply runs_load, runs_load.
    rewrite (frame_cell _ _ _ (length H) F), CB, E; [|rewrite !length_new; lia|auto].
    destruct (_ =? _)%Z; [apply runs_ret; repeat split; auto|apply runs_raise].
Qed.

(** pdag_to_dag *)
Lemma dt_loop_runs h ab fuel q g indexes H : q < length H -> g < length H -> q <> g ->
  runs (m_dt_loop h ab fuel q g indexes) H [g] (dt_loop h ab fuel (cell H q) (cell H g) indexes) (fun H' c A => c = g /\ cell H' g = A).
Proof.
  revert q indexes H; induction fuel as [|f IH]; intros q indexes H Lq Lg N; simpl; apply runs_load.
  - destruct (cell H q); [apply runs_ret; auto|apply runs_raise].
  - destruct (cell H q) as [|row rows] eqn:EQ; [apply runs_ret; auto|]. rewrite <- EQ.
    destruct (find _ _) as [i|]; [|apply runs_raise].
    eapply runs_seq; [apply (each_put (map (fun j => nth j indexes 0) (h (S f) (neighbors i (cell H q)))) g (fun j => j) (fun _ => nth i indexes 0) (fun _ => 1%Z)); auto|].
    intros H1 ? F E; cbn beta in E. pose proof F as [LF _].
    apply (runs_new _ _ _ _ [g]); [auto|].
    pose proof (IH (length H1) (remove1 (nth i indexes 0) indexes) (H1 ++ [sub (cell H q) (ab (length (cell H q)) i)])) as P.
    rewrite cell_new in P. rewrite (frame_cell _ _ _ g (frame_new [] H1 _)) in P; [|lia|auto]. rewrite E in P.
    apply P; rewrite ?length_new; lia.
Qed.
Lemma pdag_to_dag_gen_runs h ab a H : a < length H -> runs (m_pdag_to_dag_gen h ab a) H [] (pdag_to_dag_gen h ab (cell H a)) (made H).
Proof.
  intros La. unfold m_pdag_to_dag_gen, pdag_to_dag_gen. apply runs_load.
  apply (runs_new _ _ _ _ []); [simpl; tauto|]. set (H1 := H ++ [cell H a]).
  apply (runs_new _ _ _ _ [length H1]); [simpl; intros c [<-|[]] Lc; lia|].
  assert (L1 : length H1 = S (length H)) by apply length_new.
  assert (CA : cell (H1 ++ [only_directed (cell H a)]) a = cell H a).
  { rewrite (frame_cell _ _ _ a (frame_new [] H1 _)); [apply (frame_new [] H); auto|lia|auto]. }
  pose proof (dt_loop_runs h ab (length (cell H a)) a (length H1) (seq 0 (length (cell H a))) (H1 ++ [only_directed (cell H a)])) as P.
  rewrite cell_new, CA, length_new in P.
  eapply runs_weaken; [apply P; lia|auto|].
  simpl; intros H' t u F (-> & E). split; [lia|]. split; auto. eapply frame_length; [exact F|]. rewrite length_new; lia.
Qed.
Lemma pdag_to_dag_runs h a H : a < length H -> runs (m_pdag_to_dag h a) H [] (pdag_to_dag h (cell H a)) (made H).
Proof. apply pdag_to_dag_gen_runs. Qed.

(** order_edges *)
Lemma runs_lift {T V X} (r : res T) (k : T -> prog V) H W (kr : T -> res X) (R : heap -> V -> X -> Prop) :
  (forall t, r = Ok t -> runs (k t) H W (kr t) R) -> runs (pbind (lift r) k) H W (bind r kr) R.
Proof. destruct r as [t|e]; intros K; [apply K; auto|]. apply (runs_raise e). Qed.
Lemma oe_loop_runs fuel order o i H : o < length H ->
  runs (m_oe_loop fuel order o i) H [o] (oe_loop fuel order (cell H o) i) (fun H' _ A => cell H' o = A).
Proof.
  revert i H; induction fuel as [|f IH]; intros i H L; simpl; apply runs_load.
  - destruct (where2 _ _); [apply runs_ret; auto|apply runs_raise].
  - destruct (where2 _ _) as [|e es] eqn:EW; [apply runs_ret; auto|]. rewrite <- EW.
    apply runs_lift; intros ys _. apply runs_lift; intros y _. apply runs_lift; intros xs _. apply runs_lift; intros x _.
    eapply runs_seq; [apply runs_put; auto|]. simpl; intros H1 _ F <-. apply IH. eapply frame_length; eauto.
Qed.
Lemma order_edges_runs h a H : a < length H -> runs (m_order_edges h a) H [] (order_edges h (cell H a)) (made H).
Proof.
  intros La. unfold m_order_edges, order_edges. eapply runs_bind; [apply is_dag_runs|]. simpl; intros H1 d ? F <-.
  destruct d; simpl; [|apply runs_raise]. rewrite <- (frame_cell _ _ _ a F); auto.
  eapply runs_bind; [apply topological_ordering_runs|]. simpl; intros H2 order ? F2 <-. apply runs_load.
  pose proof (frame_length _ _ _ a F La). rewrite <- (frame_cell _ _ _ a F2); auto.
  pose proof F as [L1 _]; pose proof F2 as [L2 _].
  eapply runs_weaken; [apply runs_make|auto|].
  - set (B := mk _ _). pose proof (oe_loop_runs (length (cell H2 a) * length (cell H2 a)) order (length H2) 1 (H2 ++ [B])) as P.
    rewrite cell_new in P. apply P. rewrite length_new; lia.
  - intros H' t u _ (L & M & E). repeat split; auto; lia.
Qed.

(** label_edges *)
Lemma le_for_runs Ws y l H : l < length H ->
  runs (m_le_for Ws y l) H [l] (Ok (le_for Ws y (cell H l))) (fun H' b u => cell H' l = fst u /\ b = snd u).
Proof.
  revert H; induction Ws as [|w Ws IH]; intros H L; simpl; [apply runs_ret; auto|]. apply runs_load.
  destruct (_ =? _)%Z.
  - eapply runs_seq; [apply (each_put (pa y (cell H l)) l (fun a => a) (fun _ => y) (fun _ => COM)); auto|].
    intros H1 ? F E; cbn beta in E. apply runs_ret; auto.
  - eapply runs_seq; [apply runs_put; auto|]. simpl; intros H1 _ F <-. apply IH. eapply frame_length; eauto.
Qed.
Lemma le_pass_runs o l H : o < length H -> l < length H -> o <> l ->
  runs (m_le_pass o l) H [l] (le_pass (cell H o) (cell H l)) (fun H' _ A => cell H' l = A).
Proof.
  intros Lo Ll N. unfold m_le_pass, le_pass. apply runs_load, runs_load. destruct (le_pick _ _) as [x y].
  eapply runs_seq; [apply le_for_runs; auto|]. intros H1 b F E. pose proof (frame_length _ _ _ l F Ll) as L1.
  destruct (le_for _ _ _) as [lab fin]; simpl in E; destruct E as [E ->].
  destruct fin; [apply runs_ret; auto|]. apply runs_load. rewrite E.
  destruct (memb _ _); [|apply runs_raise]. rewrite <- E.
  apply (each_put _ l (fun a => a) (fun _ => y)); auto.
Qed.
Lemma le_loop_runs fuel o l H : o < length H -> l < length H -> o <> l ->
  runs (m_le_loop fuel o l) H [l] (le_loop fuel (cell H o) (cell H l)) (fun H' _ A => cell H' l = A).
Proof.
  revert H; induction fuel as [|f IH]; intros H Lo Ll N; simpl; apply runs_load.
  - destruct (where2 _ _); [apply runs_ret; auto|apply runs_raise].
  - destruct (where2 _ _) as [|e es]; [apply runs_ret; auto|].
    eapply runs_bind; [apply le_pass_runs; auto|]. simpl; intros H1 _ A F <-.
    rewrite <- (frame_cell _ _ _ o F); auto; [|simpl; lia]. apply IH; auto; eapply frame_length; eauto.
Qed.
Lemma label_edges_runs h o H : o < length H -> runs (m_label_edges h o) H [] (label_edges h (cell H o)) (made H).
Proof.
  intros Lo. unfold m_label_edges, label_edges. eapply runs_bind; [apply is_dag_runs|]. simpl; intros H1 d ? F <-.
  destruct d; simpl; [|apply runs_raise]. apply runs_load. rewrite (frame_cell _ _ _ o F); auto.
  destruct (negb _); [apply runs_raise|]. pose proof F as [L1 _].
  eapply runs_weaken; [apply runs_make|auto|].
  - set (B := mk _ _). pose proof (le_loop_runs (length (cell H o) * length (cell H o)) o (length H1) (H1 ++ [B])) as P.
    rewrite cell_new, (frame_cell _ _ _ o (frame_new [] H1 B)), (frame_cell _ _ _ o F) in P; auto; [|lia].
    apply P; rewrite ?length_new; lia.
  - intros H' t u _ (L & M & E). repeat split; auto; lia.
Qed.

(** dag_to_cpdag, pdag_to_cpdag *)
Lemma made_later H H1 H' c A : length H <= length H1 -> made H1 H' c A -> made H H' c A.
Proof. intros L (L' & M & E); repeat split; auto; lia. Qed.
Lemma dag_to_cpdag_runs h g H : g < length H -> runs (m_dag_to_cpdag h g) H [] (dag_to_cpdag h (cell H g)) (made H).
Proof.
  intros Lg. unfold m_dag_to_cpdag, dag_to_cpdag.
  eapply runs_bind; [apply order_edges_runs; auto|]. intros H1 o O [L1 _] (_ & Lo & <-).
  eapply runs_bind; [apply label_edges_runs; auto|]. intros H2 l L [L2 _] (_ & Ll & <-). apply runs_load.
  eapply runs_weaken; [apply runs_make|auto|intros; eapply (made_later H H2); eauto; lia].
  set (B := mk _ _). set (es := where2 _ _).
  pose proof (each_fold es (fun e => let '(x, y) := e in let! _ := put (length H2) x y 1 in put (length H2) y x 1) (length H2)
    (fun c e => let '(x, y) := e in upd (upd c x y 1) y x 1) (H2 ++ [B])) as P.
  rewrite cell_new in P. apply P; [rewrite length_new; lia|].
  intros H3 [x y] L3. eapply runs_seq; [apply runs_put; auto|]. simpl; intros H4 _ F <-. apply runs_put. eapply frame_length; eauto.
Qed.
Lemma pdag_to_cpdag_runs h a H : a < length H -> runs (m_pdag_to_cpdag h a) H [] (pdag_to_cpdag h (cell H a)) (made H).
Proof.
  intros La. unfold m_pdag_to_cpdag, pdag_to_cpdag. eapply runs_bind; [apply pdag_to_dag_runs; auto|].
  intros H1 g G [L1 _] (_ & Lg & <-). eapply runs_weaken; [apply dag_to_cpdag_runs; auto|auto|intros; eapply (made_later H H1); eauto].
Qed.

(** maximally_orient *)
Lemma mo_for_runs es q b H : q < length H ->
  runs (m_mo_for es q b) H [q] (Ok (mo_for es (cell H q) b)) (fun H' b u => cell H' q = fst u /\ b = snd u).
Proof.
  revert b H; induction es as [|[i j] es IH]; intros b H L; simpl; [apply runs_ret; auto|]. apply runs_load.
  destruct (rules i j _); [|destruct (rules j i _); [|apply IH; auto]];
  (eapply runs_seq; [apply runs_put; auto|]; simpl; intros H1 _ F <-; apply IH; eapply frame_length; eauto).
Qed.
Lemma mo_loop_runs fuel q H : q < length H -> runs (m_mo_loop fuel q) H [q] (mo_loop fuel (cell H q)) (fun H' _ A => cell H' q = A).
Proof.
  revert H; induction fuel as [|f IH]; intros H L; simpl; [apply runs_raise|]. apply runs_load.
  eapply runs_seq; [apply mo_for_runs; auto|]. intros H1 b F E. destruct (mo_for _ _ _) as [P b']; simpl in E; destruct E as [E ->].
  rewrite <- E. destruct b'; [apply IH; eapply frame_length; eauto|apply runs_ret; auto].
Qed.
Lemma maximally_orient_runs h a H : a < length H -> runs (m_maximally_orient h a) H [] (maximally_orient h (cell H a)) (made H).
Proof.
  intros La. unfold m_maximally_orient, maximally_orient. eapply runs_bind; [apply pdag_to_dag_runs; auto|].
  intros H1 g G F _. pose proof F as [L1 _]. apply runs_load. rewrite (frame_cell _ _ _ a F); auto.
  eapply runs_weaken; [apply runs_make|auto|intros; eapply (made_later H H1); eauto].
  pose proof (mo_loop_runs (S (length (undirected_edges (cell H a)))) (length H1) (H1 ++ [cell H a])) as P.
  rewrite cell_new in P. apply P. rewrite length_new; lia.
Qed.

(** dag_to_icpdag, pdag_to_icpdag *)
Lemma runs_bind_new {T U V X} (m : prog T) (k : T -> prog V) H W (r : res U) (kr : U -> res X) (R : heap -> T -> U -> Prop) R' :
  runs m H W r R -> (forall H1 t u, frame W H H1 -> R H1 t u -> exists W', (forall a, In a W' -> a < length H -> In a W) /\ runs (k t) H1 W' (kr u) R') ->
  runs (pbind m k) H W (bind r kr) R'.
Proof.
  unfold runs, pbind; intros [F A] K. destruct (m H) as [H1 [t|e]]; simpl in *.
  - destruct r as [u|e]; simpl in *; [|tauto]. destruct (K H1 t u F A) as (W' & I & F' & A').
    split; auto. destruct F as [L1 F], F' as [L2 F']. split; [lia|]. intros a La N. rewrite F', F; auto; try lia.
  - destruct r as [u|e']; simpl in *; [tauto|]. subst; auto.
Qed.
(** The same, with the arrays that the first program may change and the second one may not *)
Lemma runs_bind_two {T U V X} (m : prog T) (k : T -> prog V) H W W1 (r : res U) (kr : U -> res X) (R : heap -> T -> U -> Prop) R' :
  (forall a, In a W1 -> In a W) -> runs m H W1 r R ->
  (forall H1 t u, frame W1 H H1 -> R H1 t u -> runs (k t) H1 W (kr u) R') -> runs (pbind m k) H W (bind r kr) R'.
Proof.
  intros I M K. unfold runs, pbind in *. destruct M as [F A]. destruct (m H) as [H1 [t|e]]; simpl in *.
  - destruct r as [u|e]; simpl in *; [|tauto]. destruct (K H1 t u F A) as [F' A'].
    split; auto. eapply frame_trans; [eapply frame_incl; [|exact F]|exact F']; auto.
  - destruct r as [u|e']; simpl in *; [tauto|]. split; auto. eapply frame_incl; [|exact F]; auto.
Qed.
Lemma ic_loop_runs h es q H0 H : length H0 <= q -> q < length H ->
  runs (m_ic_loop h es q) H [q] (ic_loop h es (cell H q)) (made H0).
Proof.
  revert q H; induction es as [|[x y] es IH]; intros q H L0 L; simpl; [apply runs_ret; repeat split; auto|].
  eapply runs_seq; [apply runs_put; auto|]. simpl; intros H1 _ F <-. pose proof (frame_length _ _ _ q F L) as L1.
  eapply runs_bind_new.
  - eapply runs_weaken; [apply maximally_orient_runs; auto|intros a []|intros ? ? ? _ X; exact X].
  - intros H2 q' Q F2 (Lq & Lq' & <-). exists [q']. split; [|apply IH; auto; lia].
    intros a [<-|[]] La. lia.
Qed.
Lemma dag_to_icpdag_runs h g I H : g < length H -> runs (m_dag_to_icpdag h g I) H [] (dag_to_icpdag h (cell H g) I) (made H).
Proof.
  intros Lg. unfold m_dag_to_icpdag, dag_to_icpdag. eapply runs_bind_new; [apply dag_to_cpdag_runs; auto|].
  intros H1 q Q F (L1 & L1' & <-). exists [q]. split; [intros b [<-|[]] Lb; lia|].
  apply runs_load. rewrite (frame_cell _ _ _ g F); auto. pose proof F as [LF _].
  eapply runs_bind; [apply (ic_loop_runs h _ q H H1); auto|].
  intros H2 q2 Q2 F2 (L2 & L2' & <-). pose proof F2 as [LF2 _].
  assert (E : cell H2 g = cell H g).
  { rewrite (frame_cell _ _ _ g F2), (frame_cell _ _ _ g F); auto; [lia|]. simpl; intros [<-|[]]; lia. }
  rewrite <- E. eapply (runs_bind_two _ _ _ _ []); [intros b []|apply is_consistent_extension_runs; lia|].
  simpl; intros H3 c ? F3 <-. destruct c; [|apply runs_raise]. apply runs_ret. split; auto. split.
  - eapply frame_length; eauto.
  - apply (frame_cell _ _ _ _ F3); auto.
Qed.
Lemma pdag_to_icpdag_runs h a I H : a < length H -> runs (m_pdag_to_icpdag h a I) H [] (pdag_to_icpdag h (cell H a) I) (made H).
Proof.
  intros La. unfold m_pdag_to_icpdag, pdag_to_icpdag. apply runs_load. destruct (existsb _ _); [apply runs_raise|].
  eapply runs_bind; [apply pdag_to_dag_runs; auto|]. intros H1 g G [L1 _] (_ & Lg & <-).
  eapply runs_weaken; [apply dag_to_icpdag_runs; auto|auto|intros; eapply (made_later H H1); eauto].
Qed.

(** Lists of arrays *)
Definition arrays (H H' : heap) (cs : list nat) (As : list mat) : Prop := NoDup cs /\ Forall2 (made H H') cs As.
Definition holds (H : heap) (c : nat) (A : mat) : Prop := c < length H /\ cell H c = A.
Lemma holds_frame H H' c A : frame [] H H' -> holds H c A -> holds H' c A.
Proof. intros F [L E]; split; [eapply frame_length; eauto|]. rewrite (frame_cell _ _ _ _ F); auto. Qed.
Lemma made_holds H H' c A : made H H' c A -> holds H' c A.
Proof. intros (_ & L & E); split; auto. Qed.
Lemma Forall2_map_l {T U} (f : T -> U) (Q : T -> U -> Prop) l : (forall x, In x l -> Q x (f x)) -> Forall2 Q l (map f l).
Proof. induction l; simpl; intros K; constructor; auto. Qed.
Lemma Forall2_impl_in {T U} (Q Q' : T -> U -> Prop) l m : (forall x y, Q x y -> Q' x y) -> Forall2 Q l m -> Forall2 Q' l m.
Proof. intros K; induction 1; constructor; auto. Qed.

Lemma map_runs {T} (f : T -> prog nat) (Q : heap -> T -> mat -> Prop) l As H :
  (forall H H' x A, frame [] H H' -> Q H x A -> Q H' x A) ->
  (forall H x A, Q H x A -> runs (f x) H [] (Ok A) (made H)) ->
  Forall2 (Q H) l As -> runs (m_map f l) H [] (Ok As) (arrays H).
Proof.
  intros St B F. revert H F. revert As; induction l as [|x l IH]; intros As H F; inversion F as [|? A ? As' Qx Fl]; subst; simpl.
  - apply runs_ret. split; constructor.
  - eapply runs_seq; [apply B; eauto|]. intros H1 c F1 (Lc & Lc' & E). pose proof F1 as [L1 _].
    eapply runs_seq; [apply (IH As'); eapply Forall2_impl_in; [|eauto]; eauto|].
    intros H2 cs F2 [N M]. pose proof F2 as [L2 _]. apply runs_ret. split.
    + constructor; auto. intros I.
      assert (K : forall m, Forall2 (made H1 H2) cs m -> length H1 <= c); [|specialize (K _ M); lia].
      clear - I. intros m Fm. revert I; induction Fm as [|d D cs' m' (Ld & _) _ IHm]; intros I; [contradiction|].
      destruct I as [->|I]; auto.
    + constructor.
      * split; auto. split; [lia|]. rewrite (frame_cell _ _ _ c F2); auto.
      * eapply Forall2_impl_in; [|exact M]. intros; eapply (made_later H H1); eauto.
Qed.
Lemma array_runs cs As H : Forall2 (holds H) cs As -> runs (m_array cs) H [] (Ok As) (arrays H).
Proof.
  apply map_runs; [intros; eapply holds_frame; eauto|]. intros H1 c A [L E]. apply runs_load. split; simpl.
  - apply frame_new.
  - split; auto. split; [rewrite length_new; lia|]. rewrite cell_new; auto.
Qed.
Lemma load_runs cs As H : Forall2 (holds H) cs As -> m_map load cs H = (H, Ok As).
Proof.
  induction 1 as [|c A cs As [L E] F IH]; simpl; auto. unfold pbind at 1; simpl. unfold pbind. rewrite IH, E; auto.
Qed.
Lemma arrays_later H H1 H' cs As : length H <= length H1 -> arrays H1 H' cs As -> arrays H H' cs As.
Proof. intros L [N A]; split; auto. eapply Forall2_impl_in; [|exact A]. intros; eapply made_later; eauto. Qed.
Lemma arrays_holds H H' cs As : arrays H H' cs As -> Forall2 (holds H') cs As.
Proof. intros [_ A]. eapply Forall2_impl_in; [|exact A]. intros; eapply made_holds; eauto. Qed.

(** all_dags *)
Lemma orient_runs a edges fl H : runs (m_orient a edges fl) H [] (Ok (orient (cell H a) edges fl)) (made H).
Proof.
  unfold m_orient, orient. apply runs_load, runs_make.
  pose proof (each_fold (combine edges fl) (fun ef => let '((i, j), f) := ef in if (f : bool) then put (length H) i j 0 else put (length H) j i 0)
    (length H) (fun A ef => let '((i, j), f) := ef in if (f : bool) then upd A i j 0 else upd A j i 0) (H ++ [cell H a])) as P.
  rewrite cell_new in P. apply P; [rewrite length_new; lia|].
  intros H1 [[i j] f] L. destruct f; apply runs_put; auto.
Qed.
Lemma keep_ext_runs h a cs As H : a < length H -> Forall2 (holds H) cs As ->
  runs (m_keep_ext h a cs) H [] (keep_ext h (cell H a) As) (fun H' => Forall2 (holds H')).
Proof.
  intros La F. revert H La F. revert As; induction cs as [|c cs IH]; intros As H La F; inversion F as [|? A ? As' [Lc <-] F']; subst; simpl.
  - apply runs_ret. constructor.
  - eapply runs_bind; [apply is_dag_runs|]. simpl; intros H1 d ? F1 <-.
    assert (C1 : forall b, b < length H -> cell H1 b = cell H b) by (intros; apply (frame_cell _ _ _ _ F1); auto).
    pose proof F1 as [L1 _].
    apply runs_bind with (R := fun _ => eq).
    { destruct d; [|apply runs_ret; auto]. rewrite <- (C1 c), <- (C1 a); auto. apply is_consistent_extension_runs; lia. }
    simpl; intros H2 keep ? F2 <-.
    assert (F02 : frame [] H H2) by (eapply frame_trans; eauto). pose proof F02 as [L2 _].
    rewrite <- (frame_cell _ _ _ a F02); auto.
    eapply runs_bind; [apply IH; [lia|eapply Forall2_impl_in; [|eauto]; intros; eapply holds_frame; eauto]|].
    intros H3 ks Ks F3 K. apply runs_ret. destruct keep; auto. constructor; auto.
    eapply holds_frame; [eapply frame_trans; [exact F02|exact F3]|]. split; auto.
Qed.
Lemma all_dags_runs h a H : a < length H -> runs (m_all_dags h a) H [] (all_dags h (cell H a)) (arrays H).
Proof.
  intros La. unfold m_all_dags, all_dags. apply runs_load. destruct (negb _); [apply runs_raise|].
  destruct (undirected_edges (cell H a)) as [|e0 es0] eqn:EE.
  - apply (runs_new _ _ _ _ []); [auto|]. eapply runs_weaken; [apply array_runs|auto|intros; eapply (arrays_later H); [|eauto]; rewrite length_new; lia].
    constructor; [|constructor]. split; [rewrite length_new; lia|apply cell_new].
  - rewrite <- EE. apply runs_lift; intros combos _. destruct (negb _); [apply runs_raise|].
    eapply runs_seq.
    + apply (map_runs _ (fun H1 x A => a < length H1 /\ cell H1 a = cell H a /\ A = orient (cell H a) (undirected_edges (cell H a)) x)).
      * intros H1 H2 x A F (L & E & EA). split; [eapply frame_length; eauto|]. split; auto. rewrite (frame_cell _ _ _ a F); auto.
      * intros H1 x A (L & E & ->). rewrite <- E at 2. apply orient_runs.
      * apply Forall2_map_l with (f := orient (cell H a) (undirected_edges (cell H a))). auto.
    + intros H1 cs F M. pose proof (arrays_holds _ _ _ _ M) as Hs. pose proof F as [L1 _].
      apply runs_seq with (u := map (orient (cell H a) (undirected_edges (cell H a))) combos) (R := fun H' t u => H' = H1 /\ t = u).
      { unfold runs. rewrite (load_runs _ _ _ Hs); split; [apply frame_refl|simpl; auto]. }
      intros ? ? _ [-> ->]. destruct (negb _); [apply runs_raise|].
      rewrite <- (frame_cell _ _ _ a F); auto.
      apply runs_weaken with (W := []) (R := arrays H1); [|auto|intros; eapply arrays_later; eauto].
      match goal with |- runs _ _ _ ?x _ => replace x with (bind x (fun l => Ok l)) by (destruct x; auto) end.
      rewrite (frame_cell _ _ _ a F); auto. rewrite <- (frame_cell _ _ _ a F) at 1; auto.
      eapply runs_bind; [apply keep_ext_runs; [lia|exact Hs]|].
      intros H2 ks Ks F2 K. pose proof F2 as [L2 _].
      eapply runs_weaken; [apply array_runs; exact K|auto|intros; eapply arrays_later; eauto].
Qed.

(** chain_graph_MEC, chain_graph_IMEC *)
Lemma chain_member_runs p i H : runs (m_chain_member p i) H [] (Ok (chain_member p i)) (made H).
Proof.
  unfold m_chain_member, chain_member. set (B := mk p _).
  apply (runs_new _ _ _ _ [length H]); [simpl; intros b [<-|[]] Lb; lia|].
  eapply runs_seq; [apply (each_put (rev (seq 1 i)) (length H) (fun j => j) (fun j => j - 1) (fun _ => 1%Z)); rewrite length_new; lia|].
  rewrite cell_new. intros H1 ? F E; cbn beta in E. pose proof F as [L1 _]; rewrite length_new in L1.
  eapply runs_seq; [apply (each_put (seq i (p - 1 - i)) (length H) (fun j => j) (fun j => S j) (fun _ => 1%Z)); lia|].
  rewrite E. intros H2 ? F2 E2; cbn beta in E2. pose proof F2 as [L2 _]. apply runs_ret. split; [lia|]. split; auto; lia.
Qed.
Lemma chain_graph_MEC_runs p H : runs (m_chain_graph_MEC p) H [] (Ok (chain_graph_MEC p)) (arrays H).
Proof.
  unfold m_chain_graph_MEC, chain_graph_MEC. eapply runs_seq.
  - apply (map_runs _ (fun _ i A => A = chain_member p i)); auto.
    + intros H1 i A ->. apply chain_member_runs.
    + apply Forall2_map_l with (f := chain_member p); auto.
  - intros H1 cs [L1 _] M. eapply runs_weaken; [apply array_runs; eapply arrays_holds; eauto|auto|intros; eapply arrays_later; eauto].
Qed.
Lemma filter_runs f cs As H : Forall2 (holds H) cs As -> runs (m_filter f cs) H [] (Ok (filter f As)) (fun H' => Forall2 (holds H')).
Proof.
  revert H As; induction cs as [|c cs IH]; intros H As F; inversion F as [|? A ? As' [Lc <-] F']; subst; simpl.
  - apply runs_ret; constructor.
  - apply runs_load. eapply runs_seq; [apply (IH H As'); auto|]. intros H1 ks F1 K. apply runs_ret.
    destruct (f (cell H c)); auto. constructor; auto. eapply holds_frame; [exact F1|]. split; auto.
Qed.
Lemma chain_graph_IMEC_runs a I H : runs (m_chain_graph_IMEC a I) H [] (chain_graph_IMEC (cell H a) I) (arrays H).
Proof.
  unfold m_chain_graph_IMEC, chain_graph_IMEC. apply runs_load. destruct (negb _); [apply runs_raise|].
  eapply runs_seq; [apply chain_graph_MEC_runs|]. intros H1 cs [L1 _] M.
  eapply runs_seq; [apply filter_runs; eapply arrays_holds; eauto|]. intros H2 ks [L2 _] K.
  eapply runs_weaken; [apply array_runs; exact K|auto|]. intros; eapply (arrays_later H H2); eauto; lia.
Qed.

(** mec, imec *)
Lemma mec_runs h a chk H : a < length H -> runs (m_mec h a chk) H [] (mec h (cell H a) chk) (arrays H).
Proof.
  intros La. unfold m_mec, mec. eapply runs_bind; [apply is_dag_runs|]. simpl; intros H1 d ? F <-.
  destruct d; simpl; [|apply runs_raise]. apply runs_load. rewrite <- (frame_cell _ _ _ a F); auto. pose proof F as [L1 _].
  apply runs_weaken with (W := []) (R := arrays H1); [|auto|intros; eapply arrays_later; eauto].
  destruct (_ && _); [apply chain_graph_MEC_runs|].
  eapply runs_bind; [apply dag_to_cpdag_runs; lia|]. intros H2 c C [L2 _] (_ & Lc & <-).
  eapply runs_weaken; [apply all_dags_runs; auto|auto|intros; eapply arrays_later; eauto].
Qed.
Lemma imec_runs h a I chk H : a < length H -> runs (m_imec h a I chk) H [] (imec h (cell H a) I chk) (arrays H).
Proof.
  intros La. unfold m_imec, imec. eapply runs_bind; [apply is_dag_runs|]. simpl; intros H1 d ? F <-.
  destruct d; simpl; [|apply runs_raise]. apply runs_load. rewrite <- (frame_cell _ _ _ a F); auto. pose proof F as [L1 _].
  apply runs_weaken with (W := []) (R := arrays H1); [|auto|intros; eapply arrays_later; eauto].
  destruct (negb _); [apply runs_raise|]. destruct (_ && _); [apply chain_graph_IMEC_runs|].
  eapply runs_bind; [apply dag_to_icpdag_runs; lia|]. intros H2 c C [L2 _] (_ & Lc & <-).
  eapply runs_weaken; [apply all_dags_runs; auto|auto|intros; eapply arrays_later; eauto].
Qed.

(** From runs to the statements of PropMem.v *)
Lemma frame_keeps H H' : frame [] H H' -> keeps H H'.
Proof. intros [L F] a La; split; [lia|auto]. Qed.
Lemma runs_value {T} (m : prog T) H r : runs m H [] r (fun _ => eq) -> returns_value m H r.
Proof. intros [F A]; split; auto. apply frame_keeps; auto. Qed.
Lemma runs_array m H r : runs m H [] r (made H) -> returns_array m H r.
Proof. intros [F A]; split; auto. apply frame_keeps; auto. Qed.
Lemma runs_arrays m H r : runs m H [] r (arrays H) -> returns_arrays m H r.
Proof. intros [F A]; split; auto. apply frame_keeps; auto. Qed.

Lemma mem_orders : forall (h : hord) (H : heap) (a b : nat), a < length H -> b < length H ->
  returns_value (m_topological_ordering h a) H (topological_ordering h (cell H a)) /\
  returns_value (m_is_dag h a) H (is_dag h (cell H a)) /\
  returns_value (m_is_consistent_extension h a b) H (is_consistent_extension h (cell H a) (cell H b)).
Proof.
  intros; split; [|split]; apply runs_value.
  - apply topological_ordering_runs.
  - apply is_dag_runs.
  - apply is_consistent_extension_runs; auto.
Qed.
Lemma mem_edges : forall (h : hord) (H : heap) (a : nat), a < length H ->
  returns_array (m_moral_graph h a) H (Ok (moral_graph h (cell H a))) /\
  (forall choice n, returns_array (m_remove_edges choice a n) H (remove_edges choice (cell H a) n)) /\
  (forall shuffle n, returns_array (m_add_edges h shuffle a n) H (add_edges h shuffle (cell H a) n)).
Proof.
  intros; split; [|split]; intros; apply runs_array.
  - apply moral_graph_runs.
  - apply remove_edges_runs.
  - apply add_edges_runs.
Qed.
Lemma mem_cpdags : forall (h : hord) (H : heap) (a : nat), a < length H ->
  (forall ab, returns_array (m_pdag_to_dag_gen h ab a) H (pdag_to_dag_gen h ab (cell H a))) /\
  returns_array (m_pdag_to_dag h a) H (pdag_to_dag h (cell H a)) /\
  returns_array (m_order_edges h a) H (order_edges h (cell H a)) /\
  returns_array (m_label_edges h a) H (label_edges h (cell H a)) /\
  returns_array (m_dag_to_cpdag h a) H (dag_to_cpdag h (cell H a)) /\
  returns_array (m_pdag_to_cpdag h a) H (pdag_to_cpdag h (cell H a)).
Proof.
  intros h H a La. split; [intros; apply runs_array, pdag_to_dag_gen_runs; auto|].
  split; [|split; [|split; [|split]]]; apply runs_array; auto using pdag_to_dag_runs, order_edges_runs, label_edges_runs, dag_to_cpdag_runs, pdag_to_cpdag_runs.
Qed.
Lemma mem_icpdags : forall (h : hord) (H : heap) (a : nat) (I : list nat), a < length H ->
  returns_array (m_maximally_orient h a) H (maximally_orient h (cell H a)) /\
  returns_array (m_dag_to_icpdag h a I) H (dag_to_icpdag h (cell H a) I) /\
  returns_array (m_pdag_to_icpdag h a I) H (pdag_to_icpdag h (cell H a) I).
Proof.
  intros; split; [|split]; apply runs_array; auto using maximally_orient_runs, dag_to_icpdag_runs, pdag_to_icpdag_runs.
Qed.
Lemma mem_classes : forall (h : hord) (H : heap) (a : nat) (I : list nat) (check_chain : bool), a < length H ->
  returns_arrays (m_all_dags h a) H (all_dags h (cell H a)) /\
  (forall p, returns_arrays (m_chain_graph_MEC p) H (Ok (chain_graph_MEC p))) /\
  returns_arrays (m_chain_graph_IMEC a I) H (chain_graph_IMEC (cell H a) I) /\
  returns_arrays (m_mec h a check_chain) H (mec h (cell H a) check_chain) /\
  returns_arrays (m_imec h a I check_chain) H (imec h (cell H a) I check_chain).
Proof.
  intros h H a I chk La. split; [apply runs_arrays, all_dags_runs; auto|]. split; [intros p; apply runs_arrays, chain_graph_MEC_runs|].
  split; [apply runs_arrays, chain_graph_IMEC_runs|]. split; apply runs_arrays; auto using mec_runs, imec_runs.
Qed.
