(** Models own their arrays. *)
From Coq Require Import List PeanoNat Lia.
From Verif Require Import Base HeapModel HeapSpec.
Import ListNotations.

Lemma upd_nth_length T (l : list T) i x : length (upd_nth l i x) = length l.
Proof. revert i; induction l as [|y l IH]; intros [|i]; simpl; auto. Qed.

Lemma upd_nth_nth T (l : list T) i x j d : nth j (upd_nth l i x) d = if andb (j =? i) (i <? length l) then x else nth j l d.
Proof.
  revert i j; induction l as [|y l IH]; intros [|i] [|j]; simpl; auto.
  - now rewrite Bool.andb_false_r.
  - rewrite IH. reflexivity.
Qed.

Section HeapProofs.
Variables (V : Type) (d : V) (valid : V -> V -> V -> V -> V -> res unit) (ib : V -> V).
Local Notation store := (store V).
Local Notation exec := (exec V d valid ib).
Local Notation view := (view V d).

(** Every reference in the store: those of the caller and those in the attributes of the objects *)
Inductive slot := SArr (i : nat) | SObj (k : nat) (a : attr).
Definition has_slot (s : store) (x : slot) : Prop :=
  match x with SArr i => i < length (arrs V s) | SObj k _ => k < length (objs V s) end.
Definition ref (s : store) (x : slot) : nat :=
  match x with SArr i => nth i (arrs V s) 0 | SObj k a => sget a (obj V s k) end.

(** No two references are to the same array *)
Definition owned (s : store) : Prop :=
  (forall x, has_slot s x -> ref s x < length (cells V s)) /\
  (forall x y, has_slot s x -> has_slot s y -> ref s x = ref s y -> x = y) /\
  Forall (fun k => k < length (objs V s)) (cached V s).

Lemma view_get s k a : sget a (view s k) = deref V d s (sget a (obj V s k)).
Proof. destruct a; reflexivity. Qed.

Lemma six_ext T (x y : six T) : (forall a, sget a x = sget a y) -> x = y.
Proof.
  intros H. destruct x, y. pose proof (H aA). pose proof (H aB). pose proof (H agamma). pose proof (H aomegas).
  pose proof (H apsis). pose proof (H aI_B). simpl in *. congruence.
Qed.

Lemma sget_sset T a b (x : T) o : sget a (sset b x o) = if (match a, b with
  | aA, aA | aB, aB | agamma, agamma | aomegas, aomegas | apsis, apsis | aI_B, aI_B => true | _, _ => false end) then x else sget a o.
Proof. destruct o, a, b; reflexivity. Qed.

Lemma attr_dec (a b : attr) : {a = b} + {a <> b}.
Proof. decide equality. Qed.
Lemma sget_sset_same T a (x : T) o : sget a (sset a x o) = x.
Proof. destruct o, a; reflexivity. Qed.
Lemma sget_sset_other T a b (x : T) o : a <> b -> sget a (sset b x o) = sget a o.
Proof. destruct o, a, b; intros H; congruence || reflexivity. Qed.

Lemma start_owned : owned (start V).
Proof.
  split; [|split].
  - intros [i|k a] H; simpl in H; lia.
  - intros [i|k a] y H; simpl in H; lia.
  - constructor.
Qed.

Lemma deref_app (s : store) v r : r < length (cells V s) ->
  nth r (cells V s ++ v) d = deref V d s r.
Proof. intros H. unfold deref. now rewrite app_nth1. Qed.

(** Effect of the constructor *)
Lemma construct_ok s rA rB rg rw rp s' k :
  rA < length (cells V s) -> rB < length (cells V s) -> rg < length (cells V s) -> rw < length (cells V s) -> rp < length (cells V s) ->
  construct V d valid ib s rA rB rg rw rp = (s', Ok k) ->
  let n := length (cells V s) in
  k = length (objs V s) /\
  cells V s' = cells V s ++ [deref V d s rA; deref V d s rB; deref V d s rg; deref V d s rw; deref V d s rp; ib (deref V d s rB)] /\
  arrs V s' = arrs V s /\ cached V s' = cached V s /\
  objs V s' = objs V s ++ [Six n (S n) (S (S n)) (S (S (S n))) (S (S (S (S n)))) (S (S (S (S (S n)))))].
Proof.
  intros HA HB Hg Hw Hp. unfold construct.
  destruct (valid _ _ _ _ _); [|discriminate]. unfold alloc, deref. simpl. intros E. inversion E; subst; clear E. simpl.
  rewrite !app_length. simpl.
  repeat rewrite <- app_assoc. simpl.
  repeat (rewrite app_nth1 by (repeat rewrite app_length; simpl; lia)).
  repeat split; auto.
  f_equal. f_equal. f_equal; lia.
Qed.

Lemma construct_err s rA rB rg rw rp s' x :
  construct V d valid ib s rA rB rg rw rp = (s', Err x) -> s' = s.
Proof.
  unfold construct. destruct (valid _ _ _ _ _); intros E; inversion E; auto.
Qed.

Lemma copy_obj_ok s k s' q : owned s -> k < length (objs V s) -> copy_obj V d valid ib s k = (s', Ok q) ->
  let n := 5 + length (cells V s) in
  exists tmp, length tmp = 5 /\
  q = length (objs V s) /\
  cells V s' = cells V s ++ tmp ++ [s_A _ (view s k); s_B _ (view s k); s_gamma _ (view s k); s_omegas _ (view s k);
                                    s_psis _ (view s k); ib (s_B _ (view s k))] /\
  arrs V s' = arrs V s /\ cached V s' = cached V s /\
  objs V s' = objs V s ++ [Six n (S n) (S (S n)) (S (S (S n))) (S (S (S (S n)))) (S (S (S (S (S n)))))].
Proof.
  intros [Hlt _] Hk. pose proof (fun a => Hlt (SObj k a) Hk) as R. simpl in R.
  pose proof (R aA) as RA. pose proof (R aB) as RB. pose proof (R agamma) as Rg. pose proof (R aomegas) as Rw.
  pose proof (R apsis) as Rp. simpl in *. clear R.
  unfold copy_obj. simpl. unfold view. simpl.
  set (o := obj V s k) in *. unfold alloc. simpl. intros E.
  apply construct_ok in E; simpl in *; try (repeat rewrite app_length; simpl; lia).
  destruct E as (E1 & E2 & E3 & E4 & E5).
  exists [deref V d s (s_A _ o); deref V d s (s_B _ o); deref V d s (s_gamma _ o); deref V d s (s_omegas _ o); deref V d s (s_psis _ o)].
  split; auto. split; auto. 
  assert (N : forall c (l : list V) i, nth (length c + i) (c ++ l) d = nth i l d)
    by (intros c l i; rewrite app_nth2 by lia; f_equal; lia).
  unfold deref in *; simpl in *.
  repeat rewrite <- app_assoc in E2. simpl in E2.
  repeat rewrite app_length in *. simpl in *.
  repeat (rewrite (app_nth1 (cells V s)) in E2 by lia).
  replace (length (cells V s) + 1 + 1 + 1 + 1) with (length (cells V s) + 4) in * by lia.
  replace (length (cells V s) + 1 + 1 + 1) with (length (cells V s) + 3) in * by lia.
  replace (length (cells V s) + 1 + 1) with (length (cells V s) + 2) in * by lia.
  replace (length (cells V s)) with (length (cells V s) + 0) in E2 at 1 by lia.
  repeat rewrite N in E2. simpl in E2.
  split; [exact E2|]. split; [exact E3|]. split; [exact E4|].
  rewrite E5. repeat f_equal; lia.
Qed.

Lemma copy_obj_valid s k : owned s -> k < length (objs V s) ->
  valid (s_A _ (view s k)) (s_B _ (view s k)) (s_gamma _ (view s k)) (s_omegas _ (view s k)) (s_psis _ (view s k)) =
  match snd (copy_obj V d valid ib s k) with Ok _ => Ok tt | Err x => Err x end.
Proof.
  intros [Hlt _] Hk. pose proof (fun a => Hlt (SObj k a) Hk) as R. simpl in R.
  pose proof (R aA) as RA. pose proof (R aB) as RB. pose proof (R agamma) as Rg. pose proof (R aomegas) as Rw.
  pose proof (R apsis) as Rp. simpl in *. clear R.
  unfold copy_obj. simpl. unfold view. simpl.
  set (o := obj V s k) in *. unfold alloc. simpl.
  assert (N : forall c (l : list V) i, nth (length c + i) (c ++ l) d = nth i l d)
    by (intros c l i; rewrite app_nth2 by lia; f_equal; lia).
  unfold construct, deref. simpl.
  repeat rewrite <- app_assoc. simpl.
  repeat rewrite app_length in *. simpl in *.
  repeat (rewrite (app_nth1 (cells V s)) by lia).
  replace (length (cells V s) + 1 + 1 + 1 + 1) with (length (cells V s) + 4) in * by lia.
  replace (length (cells V s) + 1 + 1 + 1) with (length (cells V s) + 3) in * by lia.
  replace (length (cells V s) + 1 + 1) with (length (cells V s) + 2) in * by lia.
  replace (nth (length (cells V s))) with (nth (A:=V) (length (cells V s) + 0)) by (f_equal; lia).
  repeat rewrite N. simpl.
  repeat (rewrite (app_nth1 (cells V s)) by lia).
  destruct (valid _ _ _ _ _) as [[]|x]; reflexivity.
Qed.

Lemma copy_obj_err s k s' x : owned s -> k < length (objs V s) -> copy_obj V d valid ib s k = (s', Err x) ->
  exists tmp, s' = Store V (cells V s ++ tmp) (arrs V s) (objs V s) (cached V s).
Proof.
  intros _ _ E. unfold copy_obj, alloc in E. simpl in E. apply construct_err in E. subst s'. simpl.
  repeat rewrite <- app_assoc. eexists. reflexivity.
Qed.

(** New cells do not change anything. *)
Lemma pad_owned s tmp : owned s -> owned (Store V (cells V s ++ tmp) (arrs V s) (objs V s) (cached V s)).
Proof.
  intros (H1 & H2 & H3). split; [|split]; auto.
  - intros x Hx. pose proof (H1 x Hx). destruct x; simpl in *; rewrite app_length; unfold obj in *; simpl in *; lia.
Qed.

Lemma pad_view s s' k tmp : owned s -> k < length (objs V s) -> cells V s' = cells V s ++ tmp ->
  obj V s' k = obj V s k -> view s' k = view s k.
Proof.
  intros (H1 & _) Hk Hc Ho. apply six_ext. intros a. rewrite !view_get, Ho. unfold deref. rewrite Hc.
  apply app_nth1. exact (H1 (SObj k a) Hk).
Qed.

Lemma pad_arr s s' i tmp : owned s -> i < length (arrs V s) -> cells V s' = cells V s ++ tmp ->
  deref V d s' (nth i (arrs V s) 0) = deref V d s (nth i (arrs V s) 0).
Proof. intros (H1 & _) Hi Hc. unfold deref. rewrite Hc. apply app_nth1. exact (H1 (SArr i) Hi). Qed.

(** A new object on new cells *)
Lemma newobj_owned s s' tmp vals n :
  owned s -> n = length (cells V s ++ tmp) -> length vals = 6 ->
  cells V s' = cells V s ++ tmp ++ vals -> arrs V s' = arrs V s ->
  (exists more, cached V s' = cached V s ++ more /\ Forall (fun k => k <= length (objs V s)) more) ->
  objs V s' = objs V s ++ [Six n (S n) (S (S n)) (S (S (S n))) (S (S (S (S n)))) (S (S (S (S (S n)))))] ->
  owned s'.
Proof.
  intros (H1 & H2 & H3) Hn Hv Hc Ha (more & Hm & Hf) Ho.
  assert (R : forall x, has_slot s' x ->
    (has_slot s x /\ ref s' x = ref s x) \/
    exists a, x = SObj (length (objs V s)) a /\ ref s' x = n + match a with aA => 0 | aB => 1 | agamma => 2 | aomegas => 3 | apsis => 4 | aI_B => 5 end).
  { intros [i|k a] Hx; simpl in *.
    - left. rewrite Ha in *. auto.
    - rewrite Ho, app_length in Hx. simpl in Hx. unfold obj. rewrite Ho.
      destruct (Nat.eq_dec k (length (objs V s))) as [->|N].
      + right. exists a. split; auto. rewrite app_nth2, Nat.sub_diag by lia. destruct a; simpl; lia.
      + left. rewrite app_nth1 by lia. split; auto. lia. }
  rewrite app_length in Hn.
  split; [|split].
  - intros x Hx. rewrite Hc, !app_length, Hv. destruct (R x Hx) as [[Hs ->]|(a & -> & ->)].
    + pose proof (H1 x Hs). lia.
    + destruct a; lia.
  - intros x y Hx Hy E. destruct (R x Hx) as [[Hs Ex]|(a & -> & Ex)], (R y Hy) as [[Ht Ey]|(b & -> & Ey)]; rewrite Ex, Ey in E.
    + auto.
    + pose proof (H1 x Hs). lia.
    + pose proof (H1 y Ht). lia.
    + f_equal. destruct a, b; try reflexivity; lia.
  - rewrite Hm, Ho, app_length. simpl. apply Forall_app. split.
    + eapply Forall_impl; [|exact H3]. simpl. intros. lia.
    + eapply Forall_impl; [|exact Hf]. simpl. intros. lia.
Qed.

Lemma newobj_view s s' tmp vA vB vg vw vp vi n :
  n = length (cells V s ++ tmp) ->
  cells V s' = cells V s ++ tmp ++ [vA; vB; vg; vw; vp; vi] ->
  objs V s' = objs V s ++ [Six n (S n) (S (S n)) (S (S (S n))) (S (S (S (S n)))) (S (S (S (S (S n)))))] ->
  view s' (length (objs V s)) = Six vA vB vg vw vp vi.
Proof.
  intros Hn Hc Ho. rewrite app_assoc in Hc. unfold HeapModel.view, obj, deref. rewrite Ho, Hc, (app_nth2 (objs V s)), Nat.sub_diag by lia.
  simpl. rewrite Hn.
  repeat (rewrite app_nth2 by lia).
  repeat match goal with |- context [?a - length (cells V s ++ tmp)] =>
    first [replace (a - length (cells V s ++ tmp)) with 0 by lia | replace (a - length (cells V s ++ tmp)) with 1 by lia
          | replace (a - length (cells V s ++ tmp)) with 2 by lia | replace (a - length (cells V s ++ tmp)) with 3 by lia
          | replace (a - length (cells V s ++ tmp)) with 4 by lia | replace (a - length (cells V s ++ tmp)) with 5 by lia] end.
  reflexivity.
Qed.

(** In-place changes *)
Lemma poke_owned s r f : owned s -> owned (poke V d s r f).
Proof.
  intros (H1 & H2 & H3). split; [|split]; auto.
  intros x Hx. simpl. rewrite upd_nth_length. exact (H1 x Hx).
Qed.
Lemma poke_slot s x y f : owned s -> has_slot s x -> has_slot s y ->
  (x = y -> deref V d (poke V d s (ref s x) f) (ref s y) = f (deref V d s (ref s y))) /\
  (x <> y -> deref V d (poke V d s (ref s x) f) (ref s y) = deref V d s (ref s y)).
Proof.
  intros (H1 & H2 & H3) Hx Hy. unfold deref at 1 3. simpl. rewrite !upd_nth_nth. split.
  - intros ->. rewrite Nat.eqb_refl. pose proof (H1 y Hy). apply Nat.ltb_lt in H. rewrite H. reflexivity.
  - intros N. destruct (Nat.eqb_spec (ref s y) (ref s x)) as [E|]; [|reflexivity].
    exfalso. apply N. apply H2; auto.
Qed.

(** * Refinement *)
Definition abs (s : store) : vstore V :=
  VStore V (map (deref V d s) (arrs V s)) (map (view s) (seq 0 (length (objs V s)))) (cached V s).

Lemma abs_arr s i : i < length (arrs V s) -> nth i (varrs V (abs s)) d = deref V d s (nth i (arrs V s) 0).
Proof. intros H. simpl. rewrite (nth_indep _ d (deref V d s 0)) by now rewrite map_length. apply map_nth. Qed.
Lemma abs_arrs_length s : length (varrs V (abs s)) = length (arrs V s).
Proof. simpl. apply map_length. Qed.
Lemma abs_obj s k : k < length (objs V s) -> vobj V d (abs s) k = view s k.
Proof.
  intros H. unfold vobj. simpl. rewrite (nth_indep _ _ (view s 0)) by now rewrite map_length, seq_length.
  rewrite map_nth, seq_nth; auto.
Qed.
Lemma abs_objs_length s : length (vobjs V (abs s)) = length (objs V s).
Proof. simpl. now rewrite map_length, seq_length. Qed.

Lemma map_views_ext s s' n : (forall k, k < n -> view s' k = view s k) -> map (view s') (seq 0 n) = map (view s) (seq 0 n).
Proof. intros H. apply map_ext_in. intros k Hk. apply in_seq in Hk. apply H. lia. Qed.
Lemma map_arrs_ext s s' l : (forall i, i < length l -> deref V d s' (nth i l 0) = deref V d s (nth i l 0)) ->
  map (deref V d s') l = map (deref V d s) l.
Proof.
  intros H. apply map_ext_in. intros r Hr. destruct (In_nth _ _ 0 Hr) as (i & Hi & <-). auto.
Qed.

Lemma abs_newobj s s' tmp vA vB vg vw vp vi n :
  owned s -> n = length (cells V s ++ tmp) ->
  cells V s' = cells V s ++ tmp ++ [vA; vB; vg; vw; vp; vi] -> arrs V s' = arrs V s ->
  objs V s' = objs V s ++ [Six n (S n) (S (S n)) (S (S (S n))) (S (S (S (S n)))) (S (S (S (S (S n)))))] ->
  abs s' = VStore V (varrs V (abs s)) (vobjs V (abs s) ++ [Six vA vB vg vw vp vi]) (cached V s').
Proof.
  intros Hw Hn Hc Ha Ho. unfold abs. f_equal.
  - rewrite Ha. apply map_arrs_ext. intros i Hi. eapply pad_arr; eauto.
  - rewrite Ho, app_length. simpl. rewrite Nat.add_1_r, seq_S, map_app. simpl. f_equal.
    + apply map_views_ext. intros k Hk. eapply pad_view; eauto. unfold obj. rewrite Ho. apply app_nth1. exact Hk.
    + f_equal. eapply newobj_view; eauto.
Qed.

Lemma abs_pad s tmp : owned s -> abs (Store V (cells V s ++ tmp) (arrs V s) (objs V s) (cached V s)) = abs s.
Proof.
  intros Hw. unfold abs. simpl. f_equal.
  - apply map_arrs_ext. intros i Hi. eapply pad_arr; eauto. simpl. eauto.
  - apply map_views_ext. intros k Hk. eapply pad_view; eauto. simpl. eauto.
Qed.

Lemma map_upd_nth A B (f g : A -> B) l i x b0 : i < length l -> 
  (forall j, j < length l -> nth j (map g l) b0 = if j =? i then x else nth j (map f l) b0) ->
  map g l = upd_nth (map f l) i x.
Proof.
  intros Hi H. apply nth_ext with (d := b0) (d' := b0).
  - now rewrite upd_nth_length, !map_length.
  - intros j Hj. rewrite map_length in Hj. rewrite upd_nth_nth, map_length.
    rewrite H by auto. apply Nat.ltb_lt in Hi. rewrite Hi, Bool.andb_true_r. reflexivity.
Qed.

Lemma nth_map_views s n k b0 : k < n -> nth k (map (view s) (seq 0 n)) b0 = view s k.
Proof.
  intros H. rewrite (nth_indep _ _ (view s 0)) by now rewrite map_length, seq_length.
  rewrite map_nth, seq_nth; auto.
Qed.
Lemma nth_map_arrs s i b0 : i < length (arrs V s) -> nth i (map (deref V d s) (arrs V s)) b0 = deref V d s (nth i (arrs V s) 0).
Proof. intros H. rewrite (nth_indep _ b0 (deref V d s 0)) by now rewrite map_length. apply map_nth. Qed.

Local Opaque sset sget HeapModel.view.
Lemma exec_refines c s : owned s -> owned (exec c s) /\ abs (exec c s) = vexec V d valid ib c (abs s).
Proof.
  intros Hw. pose proof Hw as (H1 & H2 & H3). destruct c as [v|i1 i2 i3 i4 i5|k|i f|k a f|k a v|k].
  - (* CArr *)
    simpl. split.
    + split; [|split].
      * intros [i|k a] Hx; simpl in *; rewrite app_length; simpl.
        -- rewrite app_length in Hx. simpl in Hx. destruct (Nat.eq_dec i (length (arrs V s))) as [->|N].
           ++ rewrite app_nth2, Nat.sub_diag by lia. simpl. lia.
           ++ rewrite app_nth1 by lia. pose proof (H1 (SArr i) ltac:(simpl; lia)). simpl in *. lia.
        -- pose proof (H1 (SObj k a) Hx). simpl in *. unfold obj in *. simpl in *. lia.
      * assert (R : forall x, has_slot (Store V (cells V s ++ [v]) (arrs V s ++ [length (cells V s)]) (objs V s) (cached V s)) x ->
          (has_slot s x /\ ref (Store V (cells V s ++ [v]) (arrs V s ++ [length (cells V s)]) (objs V s) (cached V s)) x = ref s x) \/
          (x = SArr (length (arrs V s)) /\ ref (Store V (cells V s ++ [v]) (arrs V s ++ [length (cells V s)]) (objs V s) (cached V s)) x = length (cells V s))).
        { intros [i|k a] Hx; simpl in *; auto. rewrite app_length in Hx. simpl in Hx.
          destruct (Nat.eq_dec i (length (arrs V s))) as [->|N].
          - right. rewrite app_nth2, Nat.sub_diag by lia. auto.
          - left. rewrite app_nth1 by lia. split; auto. lia. }
        intros x y Hx Hy E. destruct (R x Hx) as [[Hx' Ex]|[Ex0 Ex]], (R y Hy) as [[Hy' Ey]|[Ey0 Ey]];
          simpl in Ex, Ey; rewrite Ex, Ey in E.
        -- auto.
        -- pose proof (H1 x Hx'). lia.
        -- pose proof (H1 y Hy'). lia.
        -- congruence.
      * exact H3.
    + unfold abs. simpl. f_equal.
      * rewrite map_app. simpl. f_equal.
        -- apply map_arrs_ext. intros i Hi. eapply pad_arr; eauto. simpl. eauto.
        -- unfold deref. simpl. rewrite app_nth2, Nat.sub_diag by lia. reflexivity.
      * apply map_views_ext. intros k Hk. eapply pad_view; eauto. simpl. eauto.
  - (* CNew *)
    unfold exec, vexec. rewrite abs_arrs_length. simpl forallb.
    destruct (Nat.ltb_spec i1 (length (arrs V s))) as [L1|]; [|split; auto].
    destruct (Nat.ltb_spec i2 (length (arrs V s))) as [L2|]; [|split; auto].
    destruct (Nat.ltb_spec i3 (length (arrs V s))) as [L3|]; [|split; auto].
    destruct (Nat.ltb_spec i4 (length (arrs V s))) as [L4|]; [|split; auto].
    destruct (Nat.ltb_spec i5 (length (arrs V s))) as [L5|]; [|split; auto].
    rewrite !abs_arr by assumption. unfold add, ok5. simpl andb.
    pose proof (H1 (SArr i1) L1). pose proof (H1 (SArr i2) L2). pose proof (H1 (SArr i3) L3).
    pose proof (H1 (SArr i4) L4). pose proof (H1 (SArr i5) L5). simpl ref in *.
    destruct (construct _ _ _ _ _ _ _ _ _ _) as [s' r] eqn:E.
    pose proof E as E0. unfold construct in E0.
    destruct (valid _ _ _ _ _) as [u|x] eqn:Ev; simpl is_ok.
    + destruct r as [q|x]; [|inversion E0]. apply construct_ok in E; auto.
      destruct E as (E1 & E2 & E3 & E4 & E5). simpl fst.
      assert (Hn : length (cells V s) = length (cells V s ++ [])) by now rewrite app_nil_r.
      split.
      * refine (newobj_owned s s' [] _ _ Hw Hn _ E2 E3 _ E5); [reflexivity|].
        exists []. rewrite app_nil_r. auto.
      * rewrite (abs_newobj s s' [] _ _ _ _ _ _ _ Hw Hn E2 E3 E5). rewrite E4. reflexivity.
    + destruct r as [q|y]; inversion E0; subst. simpl. split; auto.
  - (* CCopy *)
    unfold exec, vexec. rewrite abs_objs_length.
    destruct (Nat.ltb_spec k (length (objs V s))) as [Lk|]; [|split; auto].
    rewrite abs_obj by assumption. unfold add, ok5.
    rewrite copy_obj_valid by assumption.
    destruct (copy_obj V d valid ib s k) as [s' [q|x]] eqn:E; simpl is_ok; cbv iota; simpl fst.
    + apply copy_obj_ok in E; auto. destruct E as (tmp & Et & Eq & E2 & E3 & E4 & E5).
      assert (Hn : 5 + length (cells V s) = length (cells V s ++ tmp)) by (rewrite app_length; lia).
      split.
      * refine (newobj_owned s s' tmp _ _ Hw Hn _ E2 E3 _ E5); [reflexivity|].
        exists []. rewrite app_nil_r. auto.
      * rewrite (abs_newobj s s' tmp _ _ _ _ _ _ _ Hw Hn E2 E3 E5), E4. reflexivity.
    + apply copy_obj_err in E; auto. destruct E as (tmp & ->). split; [apply pad_owned | apply abs_pad]; auto.
  - (* CPokeArr *)
    unfold exec, vexec. rewrite abs_arrs_length.
    destruct (Nat.ltb_spec i (length (arrs V s))) as [Li|]; [|split; auto].
    split; [now apply poke_owned|]. unfold abs. simpl. f_equal.
    + apply map_upd_nth with (b0 := d); auto. intros j Hj.
      change (nth j (map (deref V d (poke V d s (nth i (arrs V s) 0) f)) (arrs V (poke V d s (nth i (arrs V s) 0) f))) d =
              if j =? i then f (nth i (map (deref V d s) (arrs V s)) d) else nth j (map (deref V d s) (arrs V s)) d).
      rewrite !nth_map_arrs by auto. simpl arrs.
      pose proof (poke_slot s (SArr i) (SArr j) f Hw Li Hj) as [P1 P2]. simpl ref in *.
      destruct (Nat.eqb_spec j i) as [->|N]; [now apply P1|]. apply P2. congruence.
    + apply map_views_ext. intros k Hk. apply six_ext. intros a. rewrite !view_get.
      pose proof (poke_slot s (SArr i) (SObj k a) f Hw Li Hk) as [_ P2]. apply P2. discriminate.
  - (* CPoke *)
    unfold exec, vexec. rewrite abs_objs_length.
    destruct (Nat.ltb_spec k (length (objs V s))) as [Lk|]; [|split; auto].
    split; [now apply poke_owned|]. rewrite abs_obj by assumption. unfold abs. simpl. f_equal.
    + apply map_arrs_ext. intros j Hj.
      pose proof (poke_slot s (SObj k a) (SArr j) f Hw Lk Hj) as [_ P2]. apply P2. discriminate.
    + apply map_upd_nth with (b0 := view s 0); [now rewrite seq_length|]. rewrite seq_length. intros j Hj.
      rewrite !nth_map_views by auto. apply six_ext. intros b.
      pose proof (poke_slot s (SObj k a) (SObj j b) f Hw Lk Hj) as [P1 P2]. simpl ref in *.
      destruct (Nat.eqb_spec j k) as [->|N].
      * rewrite view_get. destruct (attr_dec b a) as [->|M].
        -- rewrite sget_sset_same. rewrite view_get. now apply P1.
        -- rewrite sget_sset_other by auto. rewrite view_get. apply P2. congruence.
      * rewrite !view_get. apply P2. congruence.
  - (* CBind *)
    unfold exec, vexec. rewrite abs_objs_length.
    destruct (Nat.ltb_spec k (length (objs V s))) as [Lk|]; [|split; auto].
    rewrite abs_obj by assumption. simpl.
    set (o := sset a (length (cells V s)) (obj V {| cells := cells V s ++ [v]; arrs := arrs V s; objs := objs V s; cached := cached V s |} k)).
    set (s' := Store V (cells V s ++ [v]) (arrs V s) (upd_nth (objs V s) k o) (cached V s)).
    assert (OB : forall j, obj V s' j = if j =? k then o else obj V s j).
    { intros j. unfold obj, s'. simpl. rewrite upd_nth_nth. apply Nat.ltb_lt in Lk. rewrite Lk, Bool.andb_true_r. reflexivity. }
    assert (R : forall x, has_slot s' x -> has_slot s x /\
      ((x = SObj k a /\ ref s' x = length (cells V s)) \/ (x <> SObj k a /\ ref s' x = ref s x))).
    { intros [j|j b] Hx; simpl in *.
      - split; auto. right. split; auto. discriminate.
      - rewrite upd_nth_length in Hx. split; auto. rewrite OB. destruct (Nat.eqb_spec j k) as [->|N].
        + destruct (attr_dec b a) as [->|M].
          * left. split; auto. apply sget_sset_same.
          * right. split; [congruence|]. unfold o. now rewrite sget_sset_other.
        + right. split; auto. congruence. }
    split.
    + split; [|split].
      * intros x Hx. destruct (R x Hx) as [Hs [[_ ->]|[_ ->]]]; simpl; rewrite app_length; simpl; [lia|].
        pose proof (H1 x Hs). lia.
      * intros x y Hx Hy E. destruct (R x Hx) as [Hs [[Ex Ex']|[Nx Ex']]], (R y Hy) as [Ht [[Ey Ey']|[Ny Ey']]];
          rewrite Ex', Ey' in E.
        -- congruence.
        -- pose proof (H1 y Ht). lia.
        -- pose proof (H1 x Hs). lia.
        -- auto.
      * simpl. rewrite upd_nth_length. exact H3.
    + unfold abs. simpl. rewrite upd_nth_length. f_equal.
      * apply map_arrs_ext. intros j Hj. eapply pad_arr; eauto. simpl. eauto.
      * apply map_upd_nth with (b0 := view s 0); [now rewrite seq_length|]. rewrite seq_length. intros j Hj.
        rewrite !nth_map_views by auto. apply six_ext. intros b. rewrite view_get.
        assert (Hx : has_slot s' (SObj j b)) by (simpl; now rewrite upd_nth_length).
        destruct (R (SObj j b) Hx) as [Hs [[Ex Ex']|[Nx Ex']]]; simpl ref in Ex'; rewrite Ex'.
        -- inversion Ex; subst. rewrite Nat.eqb_refl, sget_sset_same. unfold deref. simpl.
           rewrite app_nth2, Nat.sub_diag by lia. reflexivity.
        -- assert (D : deref V d s' (sget b (obj V s j)) = sget b (view s j)).
           { rewrite view_get. unfold deref, s'. simpl. apply app_nth1. exact (H1 (SObj j b) Hs). }
           destruct (Nat.eqb_spec j k) as [->|N]; [|exact D]. rewrite sget_sset_other by congruence. exact D.
  - (* CWrite *)
    unfold exec, vexec. rewrite abs_objs_length.
    destruct (Nat.ltb_spec k (length (objs V s))) as [Lk|]; [|split; auto].
    rewrite abs_obj by assumption. unfold ok5.
    rewrite copy_obj_valid by assumption.
    destruct (copy_obj V d valid ib s k) as [s' [q|x]] eqn:E; simpl is_ok; simpl andb; cbv iota.
    + apply copy_obj_ok in E; auto. destruct E as (tmp & Et & Eq & E2 & E3 & E4 & E5).
      assert (Hn : 5 + length (cells V s) = length (cells V s ++ tmp)) by (rewrite app_length; lia).
      set (s2 := Store V (cells V s') (arrs V s') (objs V s') (cached V s' ++ [q])).
      split.
      * refine (newobj_owned s s2 tmp _ _ Hw Hn _ E2 E3 _ E5); [reflexivity|].
        exists [q]. simpl. rewrite E4. split; auto. constructor; [lia|constructor].
      * rewrite (abs_newobj s s2 tmp _ _ _ _ _ _ _ Hw Hn E2 E3 E5). simpl cached. rewrite E4, Eq. reflexivity.
    + apply copy_obj_err in E; auto. destruct E as (tmp & ->). split; [apply pad_owned | apply abs_pad]; auto.
Qed.

Lemma exec_all_refines cs s : owned s ->
  owned (exec_all V d valid ib cs s) /\
  abs (exec_all V d valid ib cs s) = fold_left (fun s c => vexec V d valid ib c s) cs (abs s).
Proof.
  revert s. induction cs as [|c cs IH]; intros s Hw; simpl; auto.
  destruct (exec_refines c s Hw) as [Hw' E]. destruct (IH _ Hw') as [A B]. split; auto. now rewrite B, E.
Qed.

Lemma exec_start cs : owned (exec_all V d valid ib cs (start V)) /\
  abs (exec_all V d valid ib cs (start V)) = vexec_all V d valid ib cs.
Proof. apply (exec_all_refines cs (start V) start_owned). Qed.

Lemma vexec_length c s : length (vobjs V s) <= length (vobjs V (vexec V d valid ib c s)).
Proof.
  destruct c; simpl; unfold add; repeat (destruct (_ : bool)); simpl; rewrite ?app_length, ?upd_nth_length; lia.
Qed.

Lemma vexec_frame k c s : k < length (vobjs V s) -> ~ changes V k c -> vobj V d (vexec V d valid ib c s) k = vobj V d s k.
Proof.
  intros Hk Hc. unfold vobj.
  assert (AP : forall l, nth k (vobjs V s ++ l) (Six d d d d d d) = nth k (vobjs V s) (Six d d d d d d))
    by (intros l; now apply app_nth1).
  destruct c; simpl in *; unfold add; auto.
  - destruct (_ && _)%bool; auto. destruct (ok5 _ _ _ _ _ _ _); simpl; auto.
  - destruct (_ <? _); auto. destruct (ok5 _ _ _ _ _ _ _); simpl; auto.
  - destruct (_ <? _); auto.
  - destruct (_ <? _); auto. simpl. rewrite upd_nth_nth. destruct (Nat.eqb_spec k k0); [congruence|]. reflexivity.
  - destruct (_ <? _); auto. simpl. rewrite upd_nth_nth. destruct (Nat.eqb_spec k k0); [congruence|]. reflexivity.
  - destruct (andb _ _); simpl; auto.
Qed.

Lemma vexec_all_frame k cs s : k < length (vobjs V s) -> Forall (fun c => ~ changes V k c) cs ->
  k < length (vobjs V (fold_left (fun s c => vexec V d valid ib c s) cs s)) /\
  vobj V d (fold_left (fun s c => vexec V d valid ib c s) cs s) k = vobj V d s k.
Proof.
  revert s. induction cs as [|c cs IH]; intros s Hk Hf; simpl; auto.
  inversion Hf; subst. destruct (IH (vexec V d valid ib c s)) as [A B]; auto.
  - pose proof (vexec_length c s). lia.
  - split; auto. rewrite B. now apply vexec_frame.
Qed.

(** Copy, then anything else *)
Lemma copy_independent cs k cs' :
  let s := exec_all V d valid ib cs (start V) in
  let o := view s k in let n := length (objs V s) in
  k < n -> valid (s_A V o) (s_B V o) (s_gamma V o) (s_omegas V o) (s_psis V o) = Ok tt ->
  let s1 := exec (CCopy V k) s in
  length (objs V s1) = S n /\
  view s1 n = Six (s_A V o) (s_B V o) (s_gamma V o) (s_omegas V o) (s_psis V o) (ib (s_B V o)) /\
  view s1 k = o /\
  (Forall (fun c => ~ changes V n c) cs' -> view (exec_all V d valid ib cs' s1) n = view s1 n) /\
  (Forall (fun c => ~ changes V k c) cs' -> view (exec_all V d valid ib cs' s1) k = view s1 k).
Proof.
  intros s o n Hk Hv s1.
  destruct (exec_start cs) as [Hw _]. fold s in Hw.
  destruct (exec_refines (CCopy V k) s Hw) as [Hw1 E1]. fold s1 in Hw1, E1.
  assert (EA : vexec V d valid ib (CCopy V k) (abs s) =
    VStore V (varrs V (abs s)) (vobjs V (abs s) ++ [Six (s_A V o) (s_B V o) (s_gamma V o) (s_omegas V o) (s_psis V o) (ib (s_B V o))]) (vcached V (abs s))).
  { unfold vexec. rewrite abs_objs_length. fold n. apply Nat.ltb_lt in Hk as Hk'. rewrite Hk'. rewrite abs_obj by exact Hk.
    fold o. unfold add, ok5. rewrite Hv. reflexivity. }
  rewrite EA in E1.
  assert (L1 : length (objs V s1) = S n).
  { rewrite <- abs_objs_length, E1. simpl. rewrite app_length, map_length, seq_length. simpl. fold n. lia. }
  assert (F : forall j, j < S n -> Forall (fun c => ~ changes V j c) cs' -> view (exec_all V d valid ib cs' s1) j = view s1 j).
  { intros j Hj Hf. destruct (exec_all_refines cs' s1 Hw1) as [_ Ec].
    destruct (vexec_all_frame j cs' (abs s1)) as [Lj Ej]; auto.
    - rewrite abs_objs_length. lia.
    - rewrite <- Ec in Lj, Ej. rewrite abs_objs_length in Lj. rewrite !abs_obj in Ej by lia. exact Ej. }
  split; [exact L1|]. split; [|split; [|split]].
  - rewrite <- abs_obj by lia. rewrite E1. unfold vobj. simpl vobjs.
    rewrite app_nth2; rewrite map_length, seq_length; fold n; [|lia]. now rewrite Nat.sub_diag.
  - rewrite <- abs_obj by lia. rewrite E1. unfold vobj. simpl vobjs.
    rewrite app_nth1 by (rewrite map_length, seq_length; exact Hk). now apply nth_map_views.
  - apply F. lia.
  - apply F. lia.
Qed.
End HeapProofs.

(** * The cache *)
Section CacheAlias.
Variables (V : Type) (d : V) (valid : V -> V -> V -> V -> V -> res unit) (ib : V -> V).

Lemma cache_frame cs cs' i q :
  let s := exec_all V d valid ib cs (start V) in
  nth_error (cached V s) i = Some q -> Forall (fun c => ~ changes V q c) cs' ->
  nth_error (cached V (exec_all V d valid ib cs' s)) i = Some q /\
  view V d (exec_all V d valid ib cs' s) q = view V d s q.
Proof.
  intros s Hi Hf. destruct (exec_start V d valid ib cs) as [Hw _]. fold s in Hw.
  assert (Lq : q < length (objs V s)).
  { destruct Hw as (_ & _ & H3). rewrite Forall_forall in H3. apply H3. eapply nth_error_In; eauto. }
  destruct (exec_all_refines V d valid ib cs' s Hw) as [Hw' E].
  destruct (vexec_all_frame V d valid ib q cs' (abs V d s)) as [L1 E1]; auto.
  { rewrite abs_objs_length. exact Lq. }
  rewrite <- E in L1, E1. rewrite abs_objs_length in L1. rewrite !abs_obj in E1 by assumption. split; auto.
  clear -Hi. assert (H : forall c s, nth_error (cached V s) i = Some q -> nth_error (cached V (exec V d valid ib c s)) i = Some q).
  { clear. intros c s H. 
    assert (K : forall s a b g w p, cached V (fst (construct V d valid ib s a b g w p)) = cached V s).
    { intros. unfold construct. destruct (valid _ _ _ _ _); reflexivity. }
    assert (K2 : forall s k, cached V (fst (copy_obj V d valid ib s k)) = cached V s).
    { intros. unfold copy_obj, alloc. simpl. rewrite K. reflexivity. }
    destruct c; simpl; auto.
    - destruct (andb _ _); auto. now rewrite K.
    - destruct (_ <? _); auto. now rewrite K2.
    - destruct (_ <? _); auto.
    - destruct (_ <? _); auto.
    - destruct (_ <? _); auto.
    - destruct (_ <? _); auto. destruct (copy_obj V d valid ib s k) as [s' [x|x]] eqn:E; simpl;
        pose proof (K2 s k) as K3; rewrite E in K3; simpl in K3; rewrite K3; auto.
      rewrite nth_error_app1; auto. apply nth_error_Some. congruence. }
  generalize dependent s. induction cs' as [|c cs' IH]; intros s Hi; simpl; [exact Hi|].
  apply (IH (exec V d valid ib c s)). apply H. exact Hi.
Qed.
End CacheAlias.

Lemma cache_alias (V : Type) (d x y : V) (ib : V -> V) : x <> y ->
  let valid := fun _ _ _ _ _ : V => Ok tt in
  let s := exec_all V d valid ib [CArr V x; CNew V 0 0 0 0 0; CWrite V 0] (start V) in
  exists q, nth_error (cached V s) 0 = Some q /\ s_B V (view V d s q) = x /\
    let s' := exec V d valid ib (CPoke V q aB (fun _ => y)) s in
    nth_error (cached V s') 0 = Some q /\ s_B V (view V d s' q) = y.
Proof. intros _. exists 1. repeat split. Qed.
