(** Insertion sort, [sort] with an order, positions. *)
From Coq Require Import List Arith ZArith Lia Bool Permutation Sorted.
Import ListNotations.
From Verif Require Import Base GraphModel GraphSpec TopoProofs.

Section SortLemmas.
  Context {A : Type} (leb : A -> A -> bool).
  Let le a b := leb a b = true.
  Hypothesis total : forall a b, leb a b = true \/ leb b a = true.
  Hypothesis trans : forall a b c, leb a b = true -> leb b c = true -> leb a c = true.

  Lemma insert_perm x l : Permutation (insert leb x l) (x :: l).
  Proof.
    induction l as [|y l IH]; simpl; auto. destruct (leb x y); auto.
    rewrite IH. apply perm_swap.
  Qed.

  Lemma isort_perm l : Permutation (isort leb l) l.
  Proof. induction l; simpl; auto. rewrite insert_perm. auto. Qed.

  Lemma insert_sorted x l : StronglySorted le l -> StronglySorted le (insert leb x l).
  Proof.
    induction l as [|y l IH]; simpl; intros H.
    - constructor; constructor.
    - destruct (leb x y) eqn:E.
      + constructor; auto. inversion H; subst. constructor; auto.
        rewrite Forall_forall in *. intros z Hz. eapply trans; eauto. now apply H3.
      + inversion H; subst. constructor; auto. rewrite Forall_forall in *. intros z Hz.
        apply (Permutation_in z (insert_perm x l)) in Hz. destruct Hz as [<-|Hz]; auto.
        destruct (total x y); [congruence | auto].
  Qed.

  Lemma isort_sorted l : StronglySorted le (isort leb l).
  Proof. induction l; simpl; [constructor | now apply insert_sorted]. Qed.

  Hypothesis antisym : forall a b, leb a b = true -> leb b a = true -> a = b.

  Lemma sorted_perm_eq l m : StronglySorted le l -> StronglySorted le m -> Permutation l m -> l = m.
  Proof.
    revert m. induction l as [|a l IH]; intros m Hl Hm HP.
    - now apply Permutation_nil in HP.
    - destruct m as [|b m]; [apply Permutation_sym, Permutation_nil in HP; discriminate|].
      inversion Hl as [|? ? Sl Fl]; inversion Hm as [|? ? Sm Fm]; subst.
      rewrite Forall_forall in Fl, Fm.
      assert (a = b).
      { assert (In a (b :: m)) as Ha by (eapply Permutation_in; [exact HP | simpl; auto]).
        assert (In b (a :: l)) as Hb by (eapply Permutation_in; [apply Permutation_sym, HP | simpl; auto]).
        destruct Ha as [->|Ha]; auto. destruct Hb as [->|Hb]; auto.
        apply antisym; [now apply Fl | now apply Fm]. }
      subst b. f_equal. apply IH; auto. now apply Permutation_cons_inv in HP.
  Qed.
End SortLemmas.

Lemma lexleb_total a b : lexleb a b = true \/ lexleb b a = true.
Proof.
  destruct a as [a1 a2], b as [b1 b2]. unfold lexleb; simpl.
  rewrite !orb_true_iff, !andb_true_iff, !Nat.ltb_lt, !Nat.eqb_eq, !Nat.leb_le. lia.
Qed.

Lemma lexleb_trans a b c : lexleb a b = true -> lexleb b c = true -> lexleb a c = true.
Proof.
  destruct a as [a1 a2], b as [b1 b2], c as [c1 c2]. unfold lexleb; simpl.
  rewrite !orb_true_iff, !andb_true_iff, !Nat.ltb_lt, !Nat.eqb_eq, !Nat.leb_le. lia.
Qed.

Lemma lexleb_antisym a b : lexleb a b = true -> lexleb b a = true -> a = b.
Proof.
  destruct a as [a1 a2], b as [b1 b2]. unfold lexleb; simpl.
  rewrite !orb_true_iff, !andb_true_iff, !Nat.ltb_lt, !Nat.eqb_eq, !Nat.leb_le.
  intros. f_equal; lia.
Qed.

(** ** Positions *)

Lemma lastpos_notin x l k acc : ~ In x l -> lastpos x l k acc = acc.
Proof.
  revert k acc. induction l as [|y l IH]; simpl; intros k acc H; auto.
  rewrite IH by tauto. destruct (Nat.eqb_spec y x); auto. subst. tauto.
Qed.

Lemma lastpos_split x a b : ~ In x b -> forall k acc, lastpos x (a ++ x :: b) k acc = k + length a.
Proof.
  intros H. induction a as [|y a IH]; simpl; intros k acc.
  - rewrite Nat.eqb_refl, lastpos_notin by auto. lia.
  - rewrite IH. lia.
Qed.

Lemma pos_split x a b : NoDup (a ++ x :: b) -> pos (a ++ x :: b) x = length a.
Proof.
  intros H. unfold pos. rewrite lastpos_split; auto. apply NoDup_remove_2 in H.
  rewrite in_app_iff in H. tauto.
Qed.

Lemma pos_lt l x : NoDup l -> In x l -> pos l x < length l.
Proof.
  intros ND H. apply in_split in H. destruct H as (a & b & ->). rewrite pos_split by auto.
  rewrite app_length. simpl. lia.
Qed.

Lemma pos_rev l x : NoDup l -> In x l -> pos (rev l) x = length l - 1 - pos l x.
Proof.
  intros ND H. apply in_split in H. destruct H as (a & b & ->).
  assert (E : rev (a ++ x :: b) = rev b ++ x :: rev a) by
    (rewrite rev_app_distr; simpl; now rewrite <- app_assoc).
  rewrite E, !pos_split; auto.
  - rewrite rev_length, app_length. simpl. lia.
  - rewrite <- E. now apply NoDup_rev.
Qed.

Lemma pos_inj l x y : NoDup l -> In x l -> In y l -> pos l x = pos l y -> x = y.
Proof.
  intros ND Hx Hy E. assert (nth (pos l x) l 0 = x /\ nth (pos l y) l 0 = y) as (E1 & E2).
  { split.
    - apply in_split in Hx. destruct Hx as (a & b & ->). rewrite pos_split by auto.
      apply nth_middle.
    - apply in_split in Hy. destruct Hy as (a & b & ->). rewrite pos_split by auto.
      apply nth_middle. }
  congruence.
Qed.

Lemma precedes_pos l x y : NoDup l -> (precedes l x y <-> In x l /\ In y l /\ pos l x < pos l y).
Proof.
  intros ND.
  assert (F : forall u v, precedes l u v -> pos l u < pos l v).
  { intros u v (a & b & c & ->). rewrite pos_split by auto.
    assert (E : a ++ u :: b ++ v :: c = (a ++ u :: b) ++ v :: c) by (now rewrite <- app_assoc).
    rewrite E, pos_split by (now rewrite <- E). rewrite app_length. simpl. lia. }
  split.
  - intros H. pose proof (precedes_In _ _ _ H). specialize (F _ _ H). tauto.
  - intros (Hx & Hy & L). destruct (precedes_total l x y Hx Hy) as [->|[?|H]]; auto; [lia|].
    apply F in H. lia.
Qed.

(** ** sort *)

Lemma sort_by_spec order L : (forall x, In x L -> x < length order) ->
  exists R, sort_by order L = Ok R /\ Permutation R L /\
    StronglySorted (fun a b => pos order a < pos order b \/ (pos order a = pos order b /\ a <= b)) R.
Proof.
  intros H. unfold sort_by.
  assert (forallb (fun l => l <? length order) L = true) as ->.
  { apply forallb_forall. intros x Hx. apply Nat.ltb_lt. auto. }
  eexists. split; [reflexivity|].
  set (l := isort lexleb (map (fun l => (pos order l, l)) L)).
  pose proof (isort_perm lexleb (map (fun l => (pos order l, l)) L)) as HP.
  pose proof (isort_sorted lexleb lexleb_total lexleb_trans (map (fun l => (pos order l, l)) L)) as HS.
  fold l in HP, HS. split.
  - rewrite HP, map_map. simpl. now rewrite map_id.
  - assert (Hl : forall e, In e l -> fst e = pos order (snd e)).
    { intros e He. apply (Permutation_in e HP) in He. apply in_map_iff in He.
      destruct He as (x & <- & _). reflexivity. }
    clear HP. induction HS as [|e l' HS IH HF]; simpl; [constructor|].
    constructor; [apply IH; intros; apply Hl; simpl; auto|].
    rewrite Forall_forall in *. intros x Hx. apply in_map_iff in Hx. destruct Hx as (e' & <- & He').
    specialize (HF e' He'). unfold lexleb in HF.
    rewrite orb_true_iff, andb_true_iff, Nat.ltb_lt, Nat.eqb_eq, Nat.leb_le in HF.
    rewrite <- !Hl by (simpl; auto). exact HF.
Qed.

Lemma sort_by_head order L : (forall x, In x L -> x < length order) -> L <> [] ->
  exists x R, sort_by order L = Ok (x :: R) /\ In x L /\ forall y, In y L -> pos order x <= pos order y.
Proof.
  intros H HN. destruct (sort_by_spec order L H) as (R & E & HP & HS).
  destruct R as [|x R]; [apply Permutation_nil in HP; congruence|].
  exists x, R. split; auto. split; [eapply Permutation_in; [exact HP | simpl; auto]|].
  intros y Hy. apply (Permutation_in y (Permutation_sym HP)) in Hy. inversion HS; subst.
  destruct Hy as [->|Hy]; auto. rewrite Forall_forall in H3. specialize (H3 y Hy). lia.
Qed.
