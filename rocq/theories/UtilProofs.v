(** utils.delete: the comparison of version numbers. *)
From Coq Require Import List Arith ZArith Lia Bool.
Import ListNotations.
From Verif Require Import Base UtilModel UtilSpec.

Definition limit : list nat := [49; 46; 49; 57; 46; 48].

Lemma digits_aux_step fuel n acc : n < fuel -> digits_aux fuel n acc = digits_aux (S n) n acc.
Proof.
  revert n acc. induction fuel as [fuel IH] using (well_founded_induction lt_wf). intros n acc H.
  destruct (Nat.eq_dec fuel (S n)) as [->|N]; auto. destruct fuel as [|k]; [lia|].
  cbn [digits_aux]. destruct (Nat.ltb_spec n 10); auto.
  assert (n / 10 < n) by (apply Nat.div_lt; lia).
  rewrite (IH k) by lia. symmetry. apply IH; lia.
Qed.
Lemma digits_aux_app fuel n acc : n < fuel -> digits_aux fuel n acc = digits_aux fuel n [] ++ acc.
Proof.
  revert n acc. induction fuel as [|k IH]; intros n acc H; [lia|]. cbn [digits_aux]. destruct (Nat.ltb_spec n 10); auto.
  assert (n / 10 < n) by (apply Nat.div_lt; lia).
  rewrite IH by lia. rewrite (IH (n / 10) [48 + n mod 10]) by lia. now rewrite <- app_assoc.
Qed.
Lemma digits_small n : n < 10 -> digits n = [48 + n].
Proof. intros H. unfold digits. simpl. now destruct (Nat.ltb_spec n 10); [|lia]. Qed.
Lemma digits_big n : 10 <= n -> digits n = digits (n / 10) ++ [48 + n mod 10].
Proof.
  intros H. unfold digits at 1. cbn [digits_aux]. destruct (Nat.ltb_spec n 10); [lia|].
  assert (n / 10 < n) by (apply Nat.div_lt; lia).
  rewrite digits_aux_step by lia. rewrite digits_aux_app by lia. reflexivity.
Qed.
(** The first digit; a second one if there are several *)
Lemma digits_head n : exists d r, digits n = d :: r /\ 48 <= d /\ (0 < n -> 49 <= d) /\
  (n < 10 -> d = 48 + n /\ r = []) /\ (10 <= n -> exists d' r', r = d' :: r' /\ 48 <= d').
Proof.
  induction n as [n IH] using (well_founded_induction lt_wf). destruct (lt_dec n 10) as [H|H].
  - rewrite digits_small by auto. exists (48 + n), []. repeat split; auto; try lia.
  - rewrite digits_big by lia. assert (Q : n / 10 < n) by (apply Nat.div_lt; lia).
    assert (0 < n / 10) by (apply Nat.div_str_pos; lia).
    destruct (IH _ Q) as (d & r & E & H1 & H2 & H3 & H4). exists d, (r ++ [48 + n mod 10]). rewrite E.
    repeat split; auto; try lia. intros _. destruct r as [|d' r']; cbn [app]; [exists (48 + n mod 10), []; split; [auto|lia]|].
    destruct (lt_dec (n / 10) 10) as [L|L]; [destruct (H3 L) as [_ C]; discriminate C|].
    destruct (H4 ltac:(lia)) as (d2 & r2 & E2 & H5). inversion E2; subst. exists d2, (r2 ++ [48 + n mod 10]). auto.
Qed.

(** The versions for which the comparison is right *)
Definition usual (v : version) : Prop := let '(a, b, c) := v in a <> 1 \/ b < 2 \/ 10 <= b < 100.


Lemma str_lt_cons x s y t : str_lt (x :: s) (y :: t) = (x <? y) || ((x =? y) && str_lt s t).
Proof. reflexivity. Qed.
Ltac cmp := repeat match goal with
  | |- context [?x <? ?y] => destruct (Nat.ltb_spec x y); try lia
  | |- context [?x =? ?y] => destruct (Nat.eqb_spec x y); try lia
  end; simpl; try reflexivity; try lia.
Lemma version_cmp v : usual v -> str_lt (version_string v) limit = older v.
Proof.
  destruct v as [[a b] c]. unfold usual, version_string, older, limit. intros H.
  destruct (le_lt_dec 2 a) as [A2|A2].
  - clear H. destruct (digits_head a) as (d & r & -> & H1 & H2 & H3 & H4).
    replace (a =? 0) with false by (symmetry; apply Nat.eqb_neq; lia).
    replace (a =? 1) with false by (symmetry; apply Nat.eqb_neq; lia).
    rewrite <- app_comm_cons, str_lt_cons. destruct (le_lt_dec 10 a) as [L|L].
    + destruct (H4 L) as (d' & r' & -> & H5). rewrite <- app_comm_cons, str_lt_cons.
      replace (d' <? 46) with false by (symmetry; apply Nat.ltb_ge; lia).
      replace (d' =? 46) with false by (symmetry; apply Nat.eqb_neq; lia).
      replace (d <? 49) with false by (symmetry; apply Nat.ltb_ge; lia). simpl. apply andb_false_r.
    + destruct (H3 L) as [-> ->]. replace (48 + a <? 49) with false by (symmetry; apply Nat.ltb_ge; lia).
      now replace (48 + a =? 49) with false by (symmetry; apply Nat.eqb_neq; lia).
  - destruct a as [|a]; [now rewrite (digits_small 0) by lia|]. replace a with 0 in * by lia. clear a A2.
    rewrite (digits_small 1) by lia. change (48 + 1) with 49. cbn [app]. rewrite !str_lt_cons.
    rewrite !Nat.eqb_refl, !Nat.ltb_irrefl. cbn [orb andb Nat.eqb].
    destruct H as [H|[H|H]]; [lia| |].
    + destruct b as [|b]; [now rewrite (digits_small 0) by lia|]. replace b with 0 by lia. now rewrite (digits_small 1) by lia.
    + rewrite digits_big by lia. assert (Q : b / 10 < 10) by (apply Nat.div_lt_upper_bound; lia).
      rewrite (digits_small (b / 10)) by auto.
      pose proof (Nat.div_mod b 10 ltac:(lia)) as E. pose proof (Nat.mod_upper_bound b 10 ltac:(lia)) as R.
      set (q := b / 10) in *. set (r := b mod 10) in *. cbn [app]. rewrite !str_lt_cons.
      destruct (digits_head c) as (d & s & -> & H1 & _). rewrite !str_lt_cons.
      replace (d <? 48) with false by (symmetry; apply Nat.ltb_ge; lia).
      replace (str_lt s []) with false by now destruct s. rewrite andb_false_r.
      change (46 <? 46) with false. change (46 =? 46) with true. cbn [orb andb]. rewrite andb_false_r, orb_false_r.
      assert (1 <= q) by lia. clearbody q r.
      destruct (Nat.ltb_spec (48 + q) 49); [lia|]. destruct (Nat.eqb_spec (48 + q) 49); cbn [orb andb].
      * destruct (Nat.ltb_spec (48 + r) 57); destruct (Nat.ltb_spec b 19); auto; lia.
      * destruct (Nat.ltb_spec b 19); auto; lia.
Qed.

(** Both ways remove the masked elements. *)
Lemma filter_unmasked V (l : list V) m : length m = length l ->
  unmasked l m (map fst (filter (fun xm => negb (snd xm)) (combine l m))).
Proof.
  revert m. induction l as [|x l IH]; intros [|b m] H; simpl in *; try discriminate; [constructor|].
  destruct b; simpl; constructor; apply IH; lia.
Qed.
Lemma np_where_in m i : In i (np_where m) <-> nth i m false = true.
Proof.
  unfold np_where. rewrite filter_In, in_seq. split; [tauto|]. intros H. split; auto.
  destruct (le_lt_dec (length m) i) as [L|L]; [rewrite nth_overflow in H; auto; discriminate|lia].
Qed.
Lemma without_unmasked V (l : list V) m i idx : length m = length l -> (forall k, In (i + k) idx <-> nth k m false = true) ->
  unmasked l m (without_idx i idx l).
Proof.
  revert m i. induction l as [|x l IH]; intros [|b m] i L H; simpl in *; try discriminate; [constructor|].
  assert (H' : forall k, In (S i + k) idx <-> nth k m false = true).
  { intros k. rewrite <- (H (S k)). now replace (S i + k) with (i + S k) by lia. }
  specialize (H 0). rewrite Nat.add_0_r in H. simpl in H. destruct (existsb (Nat.eqb i) idx) eqn:E.
  - apply existsb_exists in E as (j & J & Ej). apply Nat.eqb_eq in Ej. subst j. apply H in J. subst b.
    constructor. apply IH; auto.
  - destruct b; [|constructor; apply IH; auto]. exfalso. assert (existsb (Nat.eqb i) idx = true); [|congruence].
    apply existsb_exists. exists i. split; [now apply H|apply Nat.eqb_refl].
Qed.
Lemma unmasked_fun V (l : list V) m r r' : unmasked l m r -> unmasked l m r' -> r = r'.
Proof. intros H. revert r'. induction H; intros r' H'; inversion H'; subst; auto. f_equal; auto. Qed.

Lemma delete_unmasked V v (l : list V) m : usual v -> length m = length l -> exists r, delete v l m = Ok r /\ unmasked l m r.
Proof.
  intros U L. unfold delete. fold limit. rewrite version_cmp by auto. unfold np_delete_mask, np_delete_idx.
  destruct (older v); cbn [orb].
  - eexists. split; [reflexivity|]. apply without_unmasked; auto. intros k. apply np_where_in.
  - rewrite L, Nat.eqb_refl. eexists. split; [reflexivity|]. now apply filter_unmasked.
Qed.
(** The lengths differ: an error from 1.19.0 on *)
Lemma delete_length V v (l : list V) m : usual v -> older v = false -> length m <> length l -> delete v l m = Err ValueError.
Proof.
  intros U O L. unfold delete. fold limit. rewrite version_cmp, O by auto. unfold np_delete_mask. rewrite O.
  now destruct (Nat.eqb_spec (length m) (length l)).
Qed.
(** Versions 1.2 to 1.9 sort after 1.19.0. *)
Lemma delete_single b c : 2 <= b < 10 -> exists (l : list nat) m r,
  length m = length l /\ delete (1, b, c) l m = Ok r /\ ~ unmasked l m r.
Proof.
  intros H. exists [7; 8; 9], [true; false; false], [9]. split; auto.
  assert (E : str_lt (version_string (1, b, c)) limit = false).
  { unfold version_string, limit. rewrite (digits_small 1), (digits_small b) by lia. cbn [app]. rewrite !str_lt_cons.
    destruct (Nat.ltb_spec (48 + b) 49); [lia|]. destruct (Nat.eqb_spec (48 + b) 49); [lia|]. reflexivity. }
  unfold delete. fold limit. rewrite E. unfold np_delete_mask, np_delete_idx, older. destruct (Nat.ltb_spec b 19); [|lia].
  split; [reflexivity|]. intros U. inversion U; subst. match goal with H : unmasked _ _ _ |- _ => inversion H end.
Qed.
