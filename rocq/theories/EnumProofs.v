(** all_dags, mec and the chain graph shortcut. *)
From Coq Require Import List Arith ZArith Lia Bool Permutation Sorted Relations.
Import ListNotations.
From Verif Require Import Base GraphModel GraphSpec TopoProofs BasicProofs DTProofs SortProofs OrderProofs
  LabelProofs CompelledProofs CpdagProofs.

(** ** Rows of the Cartesian product *)
Lemma combine_app_eq (A B : Type) (a1 a2 : list A) (b1 b2 : list B) : length a1 = length b1 ->
  combine (a1 ++ a2) (b1 ++ b2) = combine a1 b1 ++ combine a2 b2.
Proof.
  revert b1. induction a1 as [|x a1 IH]; intros [|y b1] E; try discriminate; auto.
  simpl. f_equal. apply IH. simpl in E. lia.
Qed.

Lemma combine_repeat (A B : Type) (x : A) (l : list B) : combine (repeat x (length l)) l = map (pair x) l.
Proof. induction l; simpl; congruence. Qed.

Lemma cart_rows_single (A : Type) (a : list A) : cart_rows [a] = map (fun x => [x]) a.
Proof. unfold cart_rows, repeat_each. f_equal. induction a; simpl in *; congruence. Qed.

Lemma cart_rows_blocks (A : Type) (rows : list (list A)) a :
  map (fun xr => fst xr :: snd xr) (combine (repeat_each (length rows) a) (concat (repeat rows (length a)))) =
  flat_map (fun x => map (cons x) rows) a.
Proof.
  induction a as [|x a IH]; [reflexivity|]. unfold repeat_each. cbn [flat_map length repeat concat].
  rewrite combine_app_eq by apply repeat_length. rewrite map_app, combine_repeat, map_map. cbn [fst snd].
  f_equal. exact IH.
Qed.

Lemma cart_rows_len_cons (A : Type) (arrays : list (list A)) : arrays <> [] ->
  length (cart_rows arrays) = prod_sizes arrays /\
  forall a, cart_rows (a :: arrays) = flat_map (fun x => map (cons x) (cart_rows arrays)) a.
Proof.
  induction arrays as [|b arrays IH]; [easy|]. intros _.
  assert (HL : length (cart_rows (b :: arrays)) = prod_sizes (b :: arrays)).
  { destruct arrays as [|c arrays].
    - rewrite cart_rows_single, map_length. simpl. lia.
    - destruct IH as (E1 & E2); [discriminate|]. rewrite E2.
      change (prod_sizes (b :: c :: arrays)) with (length b * prod_sizes (c :: arrays)).
      rewrite <- E1. induction b as [|x b IHb]; [reflexivity|]. cbn [flat_map length].
      rewrite app_length, map_length, IHb. lia. }
  split; auto. intros a. rewrite <- cart_rows_blocks, HL. reflexivity.
Qed.

Lemma cart_rows_cons (A : Type) (a b : list A) arrays :
  cart_rows (a :: b :: arrays) = flat_map (fun x => map (cons x) (cart_rows (b :: arrays))) a.
Proof. apply cart_rows_len_cons. discriminate. Qed.

Lemma cart_rows_In (A : Type) (arrays : list (list A)) : arrays <> [] -> forall v,
  In v (cart_rows arrays) <-> Forall2 (fun x a => In x a) v arrays.
Proof.
  induction arrays as [|a arrays IH]; [easy|]. intros _ v. destruct arrays as [|b arrays].
  - rewrite cart_rows_single, in_map_iff. split.
    + intros (x & <- & Hx). repeat constructor; auto.
    + intros H. inversion H as [|x ? v' ? Hx H']; subst. inversion H'; subst. exists x. auto.
  - rewrite cart_rows_cons.
    rewrite in_flat_map. split.
    + intros (x & Hx & Hv). apply in_map_iff in Hv. destruct Hv as (v' & <- & Hv').
      constructor; auto. apply IH; auto. discriminate.
    + intros H. inversion H as [|x ? v' ? Hx H']; subst. exists x. split; auto.
      apply in_map_iff. exists v'. split; auto. apply IH; auto. discriminate.
Qed.

Lemma NoDup_flat_map_cons (A : Type) (a : list A) (rows : list (list A)) :
  NoDup a -> NoDup rows -> NoDup (flat_map (fun x => map (cons x) rows) a).
Proof.
  intros Ha Hr. induction a as [|x a IH]; simpl; [constructor|]. inversion Ha; subst.
  apply NoDup_app; auto.
  - apply NoDup_map_inj_in; auto. intros u v _ _ E. now inversion E.
  - intros v Hv Hv'. apply in_map_iff in Hv. destruct Hv as (u & <- & _).
    apply in_flat_map in Hv'. destruct Hv' as (y & Hy & Hv'). apply in_map_iff in Hv'.
    destruct Hv' as (u' & E & _). inversion E; subst. contradiction.
Qed.

Lemma cart_rows_NoDup (A : Type) (arrays : list (list A)) :
  (forall a, In a arrays -> NoDup a) -> NoDup (cart_rows arrays).
Proof.
  induction arrays as [|a arrays IH]; intros H; [constructor|]. destruct arrays as [|b arrays].
  - rewrite cart_rows_single. apply NoDup_map_inj_in; [|apply H; simpl; auto]. intros u v _ _ E. now inversion E.
  - rewrite cart_rows_cons. apply NoDup_flat_map_cons; [apply H; simpl; auto|]. apply IH. intros c Hc. apply H. simpl in *. tauto.
Qed.

Lemma flat_map_const_length (A B : Type) (f : A -> list B) n l :
  (forall x, In x l -> length (f x) = n) -> length (flat_map f l) = length l * n.
Proof.
  induction l as [|x l IH]; intros H; simpl; auto. rewrite app_length, IH, H; simpl; auto.
  intros y Hy. apply H. simpl; auto.
Qed.

Lemma Forall2_len (A B : Type) (R : A -> B -> Prop) l l' : Forall2 R l l' -> length l = length l'.
Proof. induction 1; simpl; auto. Qed.

Lemma cart_rows_bool m : 0 < m ->
  (forall v, In v (cart_rows (repeat [true; false] m)) <-> length v = m) /\
  NoDup (cart_rows (repeat [true; false] m)) /\
  length (cart_rows (repeat [true; false] m)) = 2 ^ m.
Proof.
  intros Hm. split; [|split].
  - intros v. rewrite cart_rows_In by (destruct m; [lia | discriminate]). split.
    + intros H. apply Forall2_len in H. now rewrite repeat_length in H.
    + intros <-. clear Hm. induction v as [|x v IH]; simpl; constructor; auto. destruct x; simpl; auto.
  - apply cart_rows_NoDup. intros a Ha. apply repeat_spec in Ha. subst.
    repeat constructor; simpl; intuition discriminate.
  - destruct m as [|m]; [lia|]. clear Hm. induction m as [|m IH]; [reflexivity|].
    change (repeat [true; false] (S (S m))) with ([true; false] :: [true; false] :: repeat [true; false] m).
    rewrite cart_rows_cons. change ([true; false] :: repeat [true; false] m) with (repeat [true; false] (S m)).
    rewrite (flat_map_const_length _ _ _ (2 ^ S m)); [simpl; lia|].
    intros x _. now rewrite map_length.
Qed.

(** ** Orientations *)
Definition removes (a b : nat) (ef : (nat * nat) * bool) : bool :=
  let '((i, j), f) := ef in if f then (a =? i) && (b =? j) else (a =? j) && (b =? i).

Lemma orient_get p : forall es fl P, square p P ->
  (forall i j, In (i, j) es -> i < p /\ j < p) ->
  square p (orient P es fl) /\
  forall a b, get (orient P es fl) a b = if existsb (removes a b) (combine es fl) then 0%Z else get P a b.
Proof.
  unfold orient. intros es fl. revert es.
  induction fl as [|f fl IH]; intros es P HP He; destruct es as [|(i & j) es]; simpl; auto.
  assert (Hij : i < p /\ j < p) by (apply He; simpl; auto).
  destruct (IH es (if f then upd P i j 0 else upd P j i 0)) as (H1 & H2).
  { destruct f; now apply upd_square. }
  { intros x y Hxy. apply He. simpl; auto. }
  split; auto. intros a b. rewrite H2.
  destruct (existsb (removes a b) (combine es fl)); [now rewrite orb_true_r|]. rewrite orb_false_r.
  destruct f; rewrite (get_upd _ _ _ HP) by tauto; auto.
Qed.

Lemma combine_flag (A B : Type) (es : list A) : forall (fl : list B) e b b', NoDup es ->
  In (e, b) (combine es fl) -> In (e, b') (combine es fl) -> b = b'.
Proof.
  induction es as [|x es IH]; intros fl e b b' ND H1 H2; simpl in *; [easy|].
  destruct fl as [|f fl]; [easy|]. inversion ND; subst. simpl in *.
  destruct H1 as [H1|H1], H2 as [H2|H2].
  - congruence.
  - inversion H1; subst. apply in_combine_l in H2. contradiction.
  - inversion H2; subst. apply in_combine_l in H1. contradiction.
  - now apply (IH fl e).
Qed.

Lemma combine_diff (es : list (nat * nat)) : forall fl fl' : list bool,
  length fl = length es -> length fl' = length es -> fl <> fl' ->
  exists e b, In (e, b) (combine es fl) /\ In (e, negb b) (combine es fl').
Proof.
  induction es as [|e es IH]; intros fl fl' H1 H2 N; destruct fl as [|f fl], fl' as [|f' fl'];
    simpl in *; try discriminate; try congruence.
  destruct (bool_dec f f') as [->|Nf].
  - destruct (IH fl fl') as (e' & b & Ha & Hb); try lia; [congruence|]. exists e', b. auto.
  - exists e, f. split; auto. left. f_equal. destruct f, f'; auto; congruence.
Qed.

Section AllDags.
  Variables (p : nat) (P : mat).
  Hypothesis HP : square p P.
  Hypothesis HB : binary P.
  Hypothesis HL : loopless P.

  Let es := undirected_edges P.

  Lemma es_In i j : In (i, j) es <-> und P i j /\ j < i.
  Proof. apply (undirected_edges_In p); auto. Qed.
  Lemma es_lt i j : In (i, j) es -> i < p /\ j < p.
  Proof. intros H. apply es_In in H. apply (edge_lt _ _ _ _ HP (proj1 (proj1 H))). Qed.

  Lemma orient_edge fl a b : length fl = length es ->
    (edge (orient P es fl) a b <->
     dir P a b \/ (und P a b /\ ((b < a /\ In ((a, b), false) (combine es fl)) \/
                                 (a < b /\ In ((b, a), true) (combine es fl))))).
  Proof.
    intros Hlen. destruct (orient_get p es fl P HP es_lt) as (_ & Hg). unfold edge at 1. rewrite Hg.
    assert (Hflag : forall e, In e es -> In (e, true) (combine es fl) \/ In (e, false) (combine es fl)).
    { intros e He. clear - He Hlen. revert fl Hlen He. generalize es as l.
      induction l as [|x l IH]; intros fl Hlen He; [easy|]. destruct fl as [|f fl]; [discriminate|].
      simpl in *. destruct He as [->|He]; [destruct f; auto|].
      destruct (IH fl) as [H|H]; auto; lia. }
    destruct (existsb (removes a b) (combine es fl)) eqn:E.
    - split; [intros; easy|]. apply existsb_exists in E. destruct E as (((i & j) & f) & Hin & Hr).
      simpl in Hr. pose proof (in_combine_l _ _ _ _ Hin) as Hij. apply es_In in Hij.
      destruct Hij as (Hu & Hlt). intros HH _.
      destruct f; apply andb_true_iff in Hr; rewrite !Nat.eqb_eq in Hr; destruct Hr as (-> & ->).
      + destruct HH as [HH|(_ & [(_ & HH)|(HH & _)])]; [|  |lia].
        * unfold dir, und in *. tauto.
        * pose proof (combine_flag _ _ _ _ _ _ _ (undirected_edges_NoDup P) Hin HH). discriminate.
      + destruct HH as [HH|(_ & [(HH & _)|(_ & HH)])]; [| lia |].
        * unfold dir, und in *. tauto.
        * pose proof (combine_flag _ _ _ _ _ _ _ (undirected_edges_NoDup P) Hin HH). discriminate.
    - rewrite existsb_false in E. fold (edge P a b). split.
      + intros Ea. destruct (edge_dec P b a) as [Eb|Nb]; [right|left; split; auto].
        split; [split; auto|].
        assert (a <> b) by (intros ->; now apply (HL b)).
        destruct (lt_dec b a) as [Hlt|Hge].
        * left. split; auto. destruct (Hflag (a, b)) as [Q|Q]; auto.
          { apply es_In. split; auto. split; auto. }
          exfalso. specialize (E _ Q). simpl in E. rewrite !Nat.eqb_refl in E. discriminate.
        * right. split; [lia|]. destruct (Hflag (b, a)) as [Q|Q]; auto.
          { apply es_In. split; [split; auto | lia]. }
          exfalso. specialize (E _ Q). simpl in E. rewrite !Nat.eqb_refl in E. discriminate.
      + unfold dir, und. tauto.
  Qed.

  Lemma orient_inj fl fl' : length fl = length es -> length fl' = length es ->
    orient P es fl = orient P es fl' -> fl = fl'.
  Proof.
    intros H1 H2 E. destruct (list_eq_dec bool_dec fl fl') as [|N]; auto. exfalso.
    assert (F : forall g g' e, length g = length es -> length g' = length es ->
      In (e, true) (combine es g) -> In (e, false) (combine es g') ->
      orient P es g <> orient P es g').
    { intros g g' (i & j) L1 L2 Ht Hf Q.
      pose proof (in_combine_l _ _ _ _ Ht) as Hij. apply es_In in Hij. destruct Hij as (Hu & Hlt).
      assert (edge (orient P es g') i j) as Ej.
      { apply orient_edge; auto 10. }
      rewrite <- Q in Ej. apply orient_edge in Ej; auto.
      destruct Ej as [D|(_ & [(_ & D)|(D & _)])]; [| |lia].
      - unfold dir, und in *. tauto.
      - pose proof (combine_flag _ _ _ _ _ _ _ (undirected_edges_NoDup P) Ht D). discriminate. }
    destruct (combine_diff es fl fl') as (e & b & Ha & Hb); auto.
    destruct b; simpl in Hb; [now apply (F fl fl' e) | symmetry in E; now apply (F fl' fl e)].
  Qed.

  Lemma orient_binary fl : binary (orient P es fl).
  Proof.
    intros a b. destruct (orient_get p es fl P HP es_lt) as (_ & Hg). rewrite Hg.
    destruct (existsb _ _); auto.
  Qed.

  Lemma orient_surj D : dag01 p D -> consistent_ext D P ->
    exists fl, length fl = length es /\ orient P es fl = D.
  Proof.
    intros (SD & BD & AD) (_ & HS & _ & HD).
    exists (map (fun e => nz (get D (snd e) (fst e))) es).
    assert (Hlen : length (map (fun e => nz (get D (snd e) (fst e))) es) = length es) by apply map_length.
    split; auto. apply (binary_edge_eq p); auto using orient_binary.
    { apply (orient_get p es _ P HP es_lt). }
    intros a b. rewrite orient_edge by auto. rewrite combine_map, !in_map_iff. split.
    - intros [E|(Hu & [(Hlt & (e & Q & He))|(Hlt & (e & Q & He))])]; auto.
      + inversion Q; subst. simpl in *. apply nz_false in H1.
        assert (adjacent D a b) as [|N] by (apply (HS a b); left; apply Hu); auto. exfalso. now apply N.
      + inversion Q; subst. simpl in *. apply nz_true in H1. auto.
    - intros E. assert (N : ~ edge D b a) by (now apply acyclic_asym).
      assert (adjacent P a b) as HAd by (apply (HS a b); now left).
      destruct (edge_dec P a b) as [Ea|Na], (edge_dec P b a) as [Eb|Nb].
      + right. split; [split; auto|]. assert (a <> b) by (intros ->; now apply (HL b)).
        destruct (lt_dec b a).
        * left. split; auto. exists (a, b). split; [|apply es_In; split; [split; auto | auto]].
          simpl. f_equal. now apply nz_false, eqz_nedge.
        * right. split; [lia|]. exists (b, a). split; [|apply es_In; split; [split; auto | lia]].
          simpl. f_equal. now apply nz_true.
      + left. split; auto.
      + exfalso. apply N, HD. split; auto.
      + exfalso. destruct HAd; contradiction.
  Qed.

  (** The sum over the undirected part counts each edge twice. *)
  Lemma msum_count A : square p A -> binary A ->
    msum A = Z.of_nat (length (where2 p (fun i j => nz (get A i j)))).
  Proof.
    intros SA BA. unfold msum, where2. rewrite (square_length SA).
    induction (pairs p) as [|(i & j) l IH]; auto. simpl map. simpl filter. cbn [sumZ fold_right fst snd].
    change (fold_right Z.add 0%Z) with sumZ. rewrite IH.
    destruct (BA i j) as [E|E]; rewrite E; [reflexivity|]. change (nz 1) with true. cbn [length]. lia.
  Qed.

  Lemma only_undirected_binary : binary (only_undirected P).
  Proof.
    intros i j. rewrite (only_undirected_get p) by auto. destruct (_ && _); auto.
  Qed.

  Lemma undirected_count : (2 * Z.of_nat (length es))%Z = msum (only_undirected P).
  Proof.
    rewrite (msum_count _ (only_undirected_square p P HP) only_undirected_binary).
    set (l := where2 p (fun i j => nz (get (only_undirected P) i j))).
    assert (Hl : forall i j, In (i, j) l <-> und P i j).
    { intros i j. unfold l. rewrite where2_In, nz_true.
      fold (edge (only_undirected P) i j). rewrite (only_undirected_edge p) by auto.
      split; [tauto|]. intros H. pose proof (edge_lt _ _ _ _ HP (proj1 H)). tauto. }
    assert (E : length l = length es + length (filter (fun e => negb (snd e <? fst e)) l)).
    { unfold es, undirected_edges. rewrite (square_length HP). fold l. symmetry.
      apply filter_split_length. }
    assert (length (filter (fun e => negb (snd e <? fst e)) l) = length es) as E2.
    { transitivity (length (map (fun e : nat * nat => (snd e, fst e)) es)); [|apply map_length].
      apply Permutation_length, NoDup_Permutation.
      - apply NoDup_filter, NoDup_where2.
      - apply NoDup_map_inj_in; [|apply undirected_edges_NoDup].
        intros (a & b) (c & d) _ _ Q. inversion Q. auto.
      - intros (i & j). rewrite filter_In, Hl, in_map_iff, negb_true_iff, Nat.ltb_ge. simpl. split.
        + intros (Hu & Hle). exists (j, i). split; auto. apply es_In. split; [split; apply Hu|].
          assert (i <> j) by (intros ->; apply (HL j), Hu). lia.
        + intros ((a & b) & Q & Hin). inversion Q; subst. apply es_In in Hin. destruct Hin as (Hu & Hlt).
          split; [split; apply Hu | simpl; lia]. }
    rewrite E, E2. lia.
  Qed.

  Lemma keep_ext_spec (h : hord) : forall ds, (forall A, In A ds -> square p A /\ binary A) ->
    exists l, keep_ext h P ds = Ok l /\ (NoDup ds -> NoDup l) /\
      forall A, In A l <-> In A ds /\ consistent_ext A P.
  Proof.
    induction ds as [|A ds IH]; intros H; simpl.
    - exists []. split; auto. split; auto. intros A. split; [intros [] | intros ([] & _)].
    - destruct (H A) as (SA & BA); [simpl; auto|].
      destruct IH as (l & E & ND & Hl); [intros; apply H; simpl; auto|]. rewrite E.
      destruct (is_dag_spec h p A SA (binary_nonneg BA)) as (d & Ed & Hd). rewrite Ed. cbn [bind].
      assert (exists keep, (if d then is_consistent_extension h A P else Ok false) = Ok keep /\
                (keep = true <-> consistent_ext A P)) as (keep & Ek & Hk).
      { destruct d.
        - destruct (is_consistent_extension_spec h p A P) as [(N & _)|(_ & b & Eb & Hb)]; auto.
          + now apply binary_nonneg.
          + now apply nonneg_nocancel, binary_nonneg.
          + exfalso. now apply N, Hd.
          + exists b. auto.
        - exists false. split; auto. split; [discriminate|]. intros (AA & _). now apply Hd. }
      rewrite Ek. cbn [bind]. eexists. split; [reflexivity|]. split.
      + intros HN. inversion HN; subst. destruct keep; auto. constructor; auto.
        rewrite Hl. tauto.
      + intros B. destruct keep; simpl; rewrite Hl; split.
        * intros [<-|(H1 & H2)]; [|tauto]. split; auto. now apply Hk.
        * intros ([<-|H1] & H2); tauto.
        * tauto.
        * intros ([<-|H1] & H2); [|tauto]. apply Hk in H2. discriminate.
  Qed.

  Lemma all_dags_exact (h : hord) : (exists i j, und P i j) \/ acyclic P ->
    exists l, all_dags h P = Ok l /\ NoDup l /\
      forall D, In D l <-> dag01 p D /\ consistent_ext D P.
  Proof.
    intros Hor. unfold all_dags. fold es. rewrite undirected_count, Z.eqb_refl. cbn [negb].
    assert (forall e l, es = e :: l -> exists l', 
       (let* combos := cartesian (fun b : bool => b) (repeat [true; false] (length es)) in
        if negb (length combos =? 2 ^ length es) then Err AssertionError
        else if negb (length (nodup mat_eq_dec (map (orient P es) combos)) =? length combos)
             then Err AssertionError else keep_ext h P (map (orient P es) combos)) = Ok l' /\
       NoDup l' /\ forall D, In D l' <-> dag01 p D /\ consistent_ext D P) as HX.
    { intros e l E.
      assert (Hm : 0 < length es) by (rewrite E; simpl; lia).
      destruct (cart_rows_bool (length es) Hm) as (C1 & C2 & C3).
      unfold cartesian. destruct (repeat [true; false] (length es)) as [|r rs] eqn:ER.
      { destruct (length es); [lia | discriminate]. }
      assert (existsb (fun a : list bool => match a with [] => true | _ => false end) (r :: rs) = false) as ->.
      { apply existsb_false. intros x Hx. rewrite <- ER in Hx. apply repeat_spec in Hx. now subst. }
      cbn [bind]. set (combos := cart_rows (r :: rs)) in *.
      assert (map (map (fun b : bool => b)) combos = combos) as ->.
      { rewrite <- (map_id combos) at 2. apply map_ext. intros v. apply map_id. }
      rewrite C3, Nat.eqb_refl. cbn [negb].
      assert (ND : NoDup (map (orient P es) combos)).
      { apply NoDup_map_inj_in; auto. intros f f' Hf Hf' Q. apply orient_inj; auto; now apply C1. }
      rewrite (nodup_fixed_point mat_eq_dec ND), map_length, C3, Nat.eqb_refl. cbn [negb].
      destruct (keep_ext_spec h (map (orient P es) combos)) as (l' & E' & ND' & Hl').
      { intros A HA. apply in_map_iff in HA. destruct HA as (f & <- & _).
        split; [apply (orient_get p es f P HP es_lt) | apply orient_binary]. }
      exists l'. split; auto. split; auto. intros D. rewrite Hl'. split.
      - intros (Hin & CE). split; auto. apply in_map_iff in Hin. destruct Hin as (f & <- & _).
        split; [apply (orient_get p es f P HP es_lt)|]. split; [apply orient_binary | apply CE].
      - intros (HD & CE). split; auto. destruct (orient_surj D HD CE) as (f & Hf & <-).
        apply in_map_iff. exists f. split; auto. now apply C1. }
    destruct es as [|e l] eqn:E; [|now apply (HX e l)].
    assert (NU : forall i j, ~ und P i j).
    { intros i j (E1 & E2). assert (i <> j) by (intros ->; now apply (HL j)).
      destruct (lt_dec j i).
      - assert (In (i, j) es) as Hin by (apply es_In; split; [split; auto | auto]). rewrite E in Hin. easy.
      - assert (In (j, i) es) as Hin by (apply es_In; split; [split; auto | lia]). rewrite E in Hin. easy. }
    assert (AP : acyclic P) by (destruct Hor as [(i & j & H)|]; auto; exfalso; now apply (NU i j)).
    exists [P]. split; auto. split; [repeat constructor; simpl; tauto|].
    intros D. split.
    - intros [<-|[]]. split; [split; auto|]. split; auto.
      split; [intros i j; tauto|]. split; [intros i c j; tauto|]. intros i j H. apply H.
    - intros ((SD & BD & AD) & (_ & HS & _ & HD)). left. apply (binary_edge_eq p); auto.
      assert (HDE : forall i j, edge P i j -> edge D i j).
      { intros i j Ei. apply HD. split; auto. now apply acyclic_asym. }
      intros i j. split; auto. intros Ed.
      assert (adjacent P i j) as [|Q] by (apply (HS i j); now left); auto.
      exfalso. apply HDE in Q. now apply (acyclic_asym _ _ _ AD Ed).
  Qed.
End AllDags.

(** ** mec *)
Lemma cpdag_loopless p G C : is_cpdag p G C -> loopless C.
Proof.
  intros (_ & _ & HC) i E. apply HC in E. destruct E as (D & (_ & _ & AD) & _ & E).
  now apply (acyclic_loopless _ AD i).
Qed.

Lemma und_or_acyclic p P : square p P -> loopless P ->
  (exists D, acyclic D /\ forall i j, dir P i j -> edge D i j) ->
  (exists i j, und P i j) \/ acyclic P.
Proof.
  intros HP HL (D & AD & HD). destruct (undirected_edges P) as [|(i & j) l] eqn:E.
  - right. apply (acyclic_sub P D); auto. intros a b Ea. apply HD. split; auto. intros Eb.
    assert (Hab : In (a, b) (undirected_edges P) \/ In (b, a) (undirected_edges P) \/ a = b).
    { destruct (lt_eq_lt_dec a b) as [[Hlt|]|Hlt]; auto.
      - right. left. apply (undirected_edges_In p); auto. split; [split; auto | auto].
      - left. apply (undirected_edges_In p); auto. split; [split; auto | auto]. }
    rewrite E in Hab. destruct Hab as [[]|[[]| -> ]]. now apply (HL b).
  - left. exists i, j. assert (In (i, j) (undirected_edges P)) as Hin by (rewrite E; simpl; auto).
    apply (undirected_edges_In p) in Hin; tauto.
Qed.

Lemma mec_generic (h : hord) p A : square p A -> nonneg A -> acyclic A ->
  exists l, (let* cpdag := dag_to_cpdag h A in all_dags h cpdag) = Ok l /\ NoDup l /\
    forall D, In D l <-> dag01 p D /\ markov_equiv A D.
Proof.
  intros HA Hn AA. destruct (dag_to_cpdag_is h p A HA Hn AA) as (C & E & HC). rewrite E. cbn [bind].
  pose proof HC as (SC & BC & _). pose proof (cpdag_loopless p A C HC) as LC.
  destruct (all_dags_exact p C SC BC LC h) as (l & El & ND & Hl).
  { apply (und_or_acyclic p); auto. exists (to01 A).
    destruct (to01_dag p A HA AA) as (D1 & D2 & D3). split; [apply D1|].
    intros i j Hd. apply (cpdag_dir p A C) in Hd; auto. now apply Hd. }
  exists l. split; auto. split; auto. intros D. rewrite Hl. split.
  - intros (HD & CE). split; auto. apply (cpdag_extensions p A C D) in CE; auto; [tauto|apply HD].
  - intros (HD & HM). split; auto. apply (cpdag_extensions p A C D); auto; [apply HD|].
    split; auto. apply HD.
Qed.

(** ** Chains *)
Lemma chain_graph_edge p i j : edge (chain_graph p) i j <-> j = S i /\ j < p.
Proof.
  unfold edge, chain_graph. rewrite get_mk'.
  destruct (Nat.ltb_spec i p), (Nat.ltb_spec j p), (Nat.eqb_spec j (S i)); simpl; split; intros; try lia.
Qed.

Lemma chain_graph_binary p : binary (chain_graph p).
Proof.
  intros i j. unfold chain_graph. rewrite get_mk'. destruct (_ && _); auto. destruct (_ =? _); auto.
Qed.

Lemma fold_back p : forall l A, square p A -> (forall j, In j l -> 1 <= j < p) ->
  let A' := fold_left (fun A j => upd A j (j - 1) 1) l A in
  square p A' /\ forall a b, get A' a b = if memb a l && (S b =? a) then 1%Z else get A a b.
Proof.
  induction l as [|j l IH]; intros A HA Hl; cbv zeta; cbn [fold_left]; [split; auto|].
  assert (1 <= j < p) by (apply Hl; simpl; auto).
  destruct (IH (upd A j (j - 1) 1)) as (H1 & H2); [now apply upd_square | intros; apply Hl; simpl; auto|].
  split; auto. intros a b. rewrite H2, (get_upd _ _ _ HA) by lia. unfold memb. cbn [existsb]. fold (memb a l).
  destruct (memb a l), (Nat.eqb_spec a j), (Nat.eqb_spec (S b) a), (Nat.eqb_spec b (j - 1));
    cbn [andb orb]; auto; lia.
Qed.

Lemma fold_fwd p : forall l A, square p A -> (forall j, In j l -> S j < p) ->
  let A' := fold_left (fun A j => upd A j (S j) 1) l A in
  square p A' /\ forall a b, get A' a b = if memb a l && (b =? S a) then 1%Z else get A a b.
Proof.
  induction l as [|j l IH]; intros A HA Hl; cbv zeta; cbn [fold_left]; [split; auto|].
  assert (S j < p) by (apply Hl; simpl; auto).
  destruct (IH (upd A j (S j) 1)) as (H1 & H2); [now apply upd_square | intros; apply Hl; simpl; auto|].
  split; auto. intros a b. rewrite H2, (get_upd _ _ _ HA) by lia. unfold memb. cbn [existsb]. fold (memb a l).
  destruct (Nat.eqb_spec a j) as [->|]; cbn [orb andb]; auto.
  destruct (memb j l), (b =? S j); auto.
Qed.

Lemma chain_member_spec p i : i < p ->
  square p (chain_member p i) /\ binary (chain_member p i) /\
  forall a b, edge (chain_member p i) a b <-> (a = S b /\ a <= i) \/ (b = S a /\ i <= a /\ b < p).
Proof.
  intros Hi. unfold chain_member.
  destruct (fold_back p (rev (seq 1 i)) (mk p (fun _ _ => 0%Z))) as (S1 & G1); [apply mk_square| |].
  { intros j Hj. apply in_rev, in_seq in Hj. lia. }
  destruct (fold_fwd p (seq i (p - 1 - i)) _ S1) as (S2 & G2).
  { intros j Hj. apply in_seq in Hj. lia. }
  split; auto. split.
  - intros a b. rewrite G2, G1, get_mk'. destruct (_ && _); auto. destruct (_ && _); auto.
    destruct (_ && _); auto.
  - intros a b. unfold edge. rewrite G2, G1, get_mk'.
    assert (M1 : memb a (seq i (p - 1 - i)) = true <-> i <= a /\ S a < p).
    { rewrite memb_In, in_seq. lia. }
    assert (M2 : memb a (rev (seq 1 i)) = true <-> 1 <= a <= i).
    { rewrite memb_In, <- in_rev, in_seq. lia. }
    destruct (memb a (seq i (p - 1 - i))), (memb a (rev (seq 1 i))), (Nat.eqb_spec b (S a)),
      (Nat.eqb_spec (S b) a), ((a <? p) && (b <? p)); simpl; split; intros HH; try discriminate;
      try (left; lia); try (right; lia); try (exfalso; lia); exfalso;
      destruct M1 as (M1 & M1'), M2 as (M2 & M2');
      try (specialize (M1 eq_refl)); try (specialize (M2 eq_refl)); try lia;
      destruct HH as [HH|HH]; 
      try (assert (false = true) by (apply M1'; lia); discriminate);
      try (assert (false = true) by (apply M2'; lia); discriminate); lia.
Qed.

Lemma chain_adjacent p i j : adjacent (chain_graph p) i j <-> (j = S i /\ j < p) \/ (i = S j /\ i < p).
Proof. unfold adjacent. rewrite !chain_graph_edge. tauto. Qed.

Lemma chain_acyclic p : acyclic (chain_graph p).
Proof.
  apply (acyclic_measure _ (fun v => v)). intros i j E. apply chain_graph_edge in E. lia.
Qed.

Lemma chain_member_equiv p i : i < p ->
  dag01 p (chain_member p i) /\ markov_equiv (chain_graph p) (chain_member p i).
Proof.
  intros Hi. destruct (chain_member_spec p i Hi) as (S1 & B1 & E1).
  assert (AC : acyclic (chain_member p i)).
  { apply (acyclic_measure _ (fun v => if v <=? i then i - v else v - i)).
    intros a b E. apply E1 in E. destruct (Nat.leb_spec a i), (Nat.leb_spec b i); lia. }
  split; [split; auto|]. split.
  - intros a b. rewrite chain_adjacent. unfold adjacent. rewrite !E1. lia.
  - intros a c b. rewrite !vstruct_dag by (auto using chain_acyclic). rewrite !E1, !chain_graph_edge.
    unfold adjacent. rewrite !E1, !chain_graph_edge. split; lia.
Qed.

Lemma chain_class p D : 0 < p -> dag01 p D -> markov_equiv (chain_graph p) D ->
  exists i, i < p /\ D = chain_member p i.
Proof.
  intros Hp (SD & BD & AD) (HS & HV).
  (* the first i with i -> i+1, or p - 1 *)
  assert (HE : forall i, S i < p -> edge D i (S i) \/ edge D (S i) i).
  { intros i Hi. apply (HS i (S i)). apply chain_adjacent. lia. }
  assert (exists i, i < p /\ (forall j, j < i -> edge D (S j) j) /\ (S i < p -> edge D i (S i))) as (i & Hi & H1 & H2).
  { assert (forall n, n < p -> (exists i, i < p /\ (forall j, j < i -> edge D (S j) j) /\
        (S i < p -> edge D i (S i))) \/ (forall j, j < n -> edge D (S j) j)) as F.
    { induction n as [|n IH]; intros Hn; [right; lia|].
      destruct IH as [|IH]; auto; [lia|]. destruct (HE n Hn) as [E|E].
      - left. exists n. split; [lia|]. auto.
      - right. intros j Hj. destruct (Nat.eq_dec j n) as [->|]; auto. apply IH. lia. }
    destruct (F (p - 1)) as [|F']; auto; [lia|]. exists (p - 1). split; [lia|]. split; auto. lia. }
  exists i. split; auto. destruct (chain_member_spec p i Hi) as (S1 & B1 & E1).
  assert (H3 : forall k, S (i + k) < p -> edge D (i + k) (S (i + k))).
  { induction k as [|k IH]; intros Hk; [rewrite Nat.add_0_r in *; auto|].
    rewrite Nat.add_succ_r in *. destruct (HE (S (i + k)) Hk) as [|E]; auto. exfalso.
    assert (vstruct D (i + k) (S (i + k)) (S (S (i + k)))) as V.
    { apply vstruct_dag; auto. split; [apply IH; lia|]. split; auto. split; [lia|].
      rewrite <- (HS (i + k) (S (S (i + k)))). rewrite chain_adjacent. lia. }
    apply HV in V. apply vstruct_dag in V; auto using chain_acyclic.
    rewrite !chain_graph_edge in V. lia. }
  assert (HF : forall j, i <= j -> S j < p -> edge D j (S j)).
  { intros j Hj Hjp. replace j with (i + (j - i)) by lia. apply H3. lia. }
  apply (binary_edge_eq p); auto. intros a b. rewrite E1. split.
  - intros E. assert (adjacent (chain_graph p) a b) as HAd by (apply (HS a b); now left).
    apply chain_adjacent in HAd. destruct HAd as [(-> & Hb)|(-> & Ha)].
    + right. split; auto. split; auto. destruct (le_lt_dec i a) as [|Hlt]; auto. exfalso.
      apply H1 in Hlt. now apply (acyclic_asym _ _ _ AD E).
    + left. split; auto. destruct (le_lt_dec (S b) i) as [|Hlt]; auto. exfalso.
      apply (acyclic_asym _ _ _ AD E). apply HF; lia.
  - intros [(-> & H)|(-> & H & H')]; [apply H1; lia | now apply HF].
Qed.

Lemma chain_member_inj p i j : i < p -> j < p -> chain_member p i = chain_member p j -> i = j.
Proof.
  assert (F : forall i j, i < p -> j < p -> i < j -> chain_member p i <> chain_member p j).
  { intros a b Ha Hb Hlt Q. destruct (chain_member_spec p a Ha) as (_ & _ & Ea).
    destruct (chain_member_spec p b Hb) as (_ & _ & Eb). rewrite Q in Ea.
    assert (edge (chain_member p b) (S a) a) as E by (apply Eb; lia). apply Ea in E. lia. }
  intros Hi Hj Q. destruct (lt_eq_lt_dec i j) as [[Hlt|]|Hlt]; auto; exfalso.
  - now apply (F i j).
  - symmetry in Q. now apply (F j i).
Qed.

Lemma chain_graph_MEC_spec p : 0 < p ->
  length (chain_graph_MEC p) = p /\ NoDup (chain_graph_MEC p) /\
  forall D, In D (chain_graph_MEC p) <-> dag01 p D /\ markov_equiv (chain_graph p) D.
Proof.
  intros Hp. unfold chain_graph_MEC. split; [now rewrite map_length, seq_length|]. split.
  - apply NoDup_map_inj_in; [|apply seq_NoDup]. intros i j Hi Hj. apply in_seq in Hi, Hj.
    apply chain_member_inj; lia.
  - intros D. rewrite in_map_iff. split.
    + intros (i & <- & Hi). apply in_seq in Hi. apply chain_member_equiv. lia.
    + intros (HD & HM). destruct (chain_class p D Hp HD HM) as (i & Hi & ->). exists i. split; auto.
      apply in_seq. lia.
Qed.

Lemma is_chain_graph_spec p A : square p A ->
  (is_chain_graph A = true <-> A = chain_graph p).
Proof.
  intros HA. unfold is_chain_graph. rewrite (square_length HA).
  rewrite (mateqb_eq (p:=p)); auto; [reflexivity|apply mk_square].
Qed.

Lemma mec_spec (h : hord) p A check : square p A -> nonneg A -> 0 < p ->
  (~ acyclic A /\ mec h A check = Err ValueError) \/
  (acyclic A /\ exists l, mec h A check = Ok l /\ NoDup l /\
     forall D, In D l <-> dag01 p D /\ markov_equiv A D).
Proof.
  intros HA Hn Hp. unfold mec. destruct (acyclic_dec p A HA Hn) as [AA|NA].
  - right. split; auto. rewrite (is_dag_true h p A HA Hn AA). cbn [bind negb].
    destruct (check && is_chain_graph A) eqn:E.
    + apply andb_true_iff in E. destruct E as (_ & E). apply (is_chain_graph_spec p) in E; auto.
      rewrite (square_length HA). destruct (chain_graph_MEC_spec p Hp) as (_ & ND & H). subst A.
      exists (chain_graph_MEC p). auto.
    + now apply mec_generic.
  - left. split; auto. now rewrite (is_dag_false h p A HA Hn NA).
Qed.

(** The empty graph: the shortcut returns no graph at all. *)
Lemma mec_empty_refuted : exists p A, dag01 p A /\
  (forall h : hord, mec h A true = Ok [] /\ mec h A false = Ok [A]).
Proof.
  exists 0, []. split.
  - split; [split; auto|]. split; [intros i j; unfold get; destruct i, j; auto|].
    apply (acyclic_measure _ (fun v => v)). intros i j E. exfalso. apply E. unfold get. destruct i, j; auto.
  - intros h. split; reflexivity.
Qed.

(** all_dags on a directed cycle *)
Lemma all_dags_cycle_refuted : exists p P, square p P /\ binary P /\ loopless P /\
  exists D, (forall h : hord, all_dags h P = Ok [D]) /\ ~ acyclic D.
Proof.
  exists 3, [[0; 1; 0]; [0; 0; 1]; [1; 0; 0]]%Z.
  split; [split; [reflexivity | repeat constructor]|].
  assert (HH : forall i j, 3 <= i -> get [[0; 1; 0]; [0; 0; 1]; [1; 0; 0]]%Z i j = 0%Z).
  { intros i j Hi. unfold get. destruct i as [|[|[|[|i]]]]; try lia; destruct j; reflexivity. }
  split; [|split].
  - intros i j. destruct (le_lt_dec 3 i); [left; auto|].
    unfold get. destruct i as [|[|[|i]]]; try lia; destruct j as [|[|[|[|j]]]]; simpl; auto.
  - intros i E. destruct (le_lt_dec 3 i); [apply E; auto|].
    destruct i as [|[|[|i]]]; try lia; apply E; reflexivity.
  - exists [[0; 1; 0]; [0; 0; 1]; [1; 0; 0]]%Z. split; [intros h; vm_compute; reflexivity|].
    intros H. apply (H 0). apply t_trans with 1; [apply t_step; discriminate|].
    apply t_trans with 2; apply t_step; discriminate.
Qed.
