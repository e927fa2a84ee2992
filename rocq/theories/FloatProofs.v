(** Proofs for C147. *)
From Coq Require Import List ZArith QArith Qround Qabs Qpower Lia Lqa.
Import ListNotations.
From Verif Require Import Base ListModel ListProofs FloatModel FloatSpec.
Local Open Scope Z_scope.

Lemma pow2_pos e : (0 < 2 ^ e)%Q.
Proof. apply Qpower_0_lt. reflexivity. Qed.
Lemma pow2_add a b : (2 ^ (a + b) == 2 ^ a * 2 ^ b)%Q.
Proof. apply Qpower_plus. discriminate. Qed.
Lemma pow2_Z n : 0 <= n -> (inject_Z (2 ^ n) == 2 ^ n)%Q.
Proof. intros H. rewrite Zpower_Qpower by auto. reflexivity. Qed.
Lemma pow2_le a b : a <= b -> (2 ^ a <= 2 ^ b)%Q.
Proof. intros H. apply Qpower_le_compat_l; auto. discriminate. Qed.
Lemma pow2_lt_inv a b : (2 ^ a < 2 ^ b)%Q -> a < b.
Proof. intros H. destruct (Z_lt_le_dec a b); auto. apply pow2_le in l. lra. Qed.

Lemma log2_Z n : 0 < n -> (2 ^ Z.log2 n <= inject_Z n /\ inject_Z n < 2 ^ (Z.log2 n + 1))%Q.
Proof.
  intros H. destruct (Z.log2_spec n H) as [H1 H2]. pose proof (Z.log2_nonneg n).
  rewrite <- !pow2_Z by lia. rewrite <- Zle_Qle, <- Zlt_Qlt. auto with zarith.
Qed.

Lemma log2_spec q : (0 < q)%Q -> (2 ^ log2 q <= q /\ q < 2 ^ (log2 q + 1))%Q.
Proof.
  intros H. unfold log2, pow2. set (l := Z.log2 (Qnum q) - Z.log2 (Zpos (Qden q))).
  assert (Hn : 0 < Qnum q) by (unfold Qlt in H; simpl in H; lia).
  destruct (log2_Z (Qnum q) Hn) as [N1 N2]. destruct (log2_Z (Zpos (Qden q)) eq_refl) as [D1 D2].
  assert (Eq : (q * inject_Z (Zpos (Qden q)) == inject_Z (Qnum q))%Q).
  { destruct q as [n d]. unfold Qeq, Qmult, inject_Z; simpl. lia. }
  set (a := Z.log2 (Qnum q)) in *. set (b := Z.log2 (Zpos (Qden q))) in *.
  set (d := inject_Z (Zpos (Qden q))) in *. set (n := inject_Z (Qnum q)) in *.
  assert (El : (2 ^ a == 2 ^ l * 2 ^ b)%Q) by (rewrite <- pow2_add; unfold l; now replace (a - b + b) with a by lia).
  pose proof (pow2_pos l) as Pl. pose proof (pow2_pos b) as Pb.
  assert (H1 : (2 ^ (a + 1) == 2 ^ a * 2)%Q) by (rewrite pow2_add; reflexivity).
  assert (H2 : (2 ^ (b + 1) == 2 ^ b * 2)%Q) by (rewrite pow2_add; reflexivity).
  assert (H3 : (2 ^ (l + 1) == 2 ^ l * 2)%Q) by (rewrite pow2_add; reflexivity).
  destruct (Qle_bool (2 ^ l) q) eqn:E.
  - apply Qle_bool_iff in E. split; auto. rewrite H3.
    apply Qnot_le_lt. intros C.
    assert (2 ^ l * 2 * 2 ^ b <= q * d)%Q by nra. lra.
  - assert (E' : (q < 2 ^ l)%Q).
    { apply Qnot_le_lt. intros C. apply Qle_bool_iff in C. congruence. }
    replace (l - 1 + 1) with l by lia. split; auto.
    assert (H4 : (2 ^ l == 2 ^ (l - 1) * 2)%Q).
    { replace l with (l - 1 + 1) at 1 by lia. rewrite pow2_add. reflexivity. }
    pose proof (pow2_pos (l - 1)). apply Qnot_lt_le. intros C.
    assert (q * d < 2 ^ (l - 1) * (2 ^ b * 2))%Q by nra. nra.
Qed.

Lemma log2_unique q l : (2 ^ l <= q)%Q -> (q < 2 ^ (l + 1))%Q -> log2 q = l.
Proof.
  intros H1 H2. pose proof (pow2_pos l). destruct (log2_spec q ltac:(lra)) as [H3 H4].
  assert (log2 q < l + 1) by (apply pow2_lt_inv; lra). assert (l < log2 q + 1) by (apply pow2_lt_inv; lra). lia.
Qed.

Lemma rhe_int q z : (q == inject_Z z)%Q -> round_half_even q = z.
Proof.
  intros H. destruct (round_half_even_spec q) as (H1 & _ & _).
  apply Qabs_Qle_condition in H1. destruct H1 as [H1 H2]. set (r := round_half_even q) in *.
  assert (HA : (inject_Z (2 * z - 2 * r) <= inject_Z 1)%Q).
  { unfold Z.sub. rewrite inject_Z_plus, inject_Z_opp, !inject_Z_mult. change (inject_Z 1) with 1%Q. change (inject_Z 2) with 2%Q. lra. }
  assert (HB : (inject_Z (-1) <= inject_Z (2 * z - 2 * r))%Q).
  { unfold Z.sub. rewrite inject_Z_plus, inject_Z_opp, !inject_Z_mult. change (inject_Z (-1)) with (-1)%Q. change (inject_Z 2) with 2%Q. lra. }
  rewrite <- Zle_Qle in HA, HB. lia.
Qed.

Lemma rhe_compat q q' : (q == q')%Q -> round_half_even q = round_half_even q'.
Proof.
  intros H. unfold round_half_even. rewrite <- (Qfloor_comp _ _ H). set (f := Qfloor q).
  destruct (Qlt_le_dec (q - inject_Z f) (1 # 2)), (Qlt_le_dec (q' - inject_Z f) (1 # 2)); try lra; auto.
  destruct (Qlt_le_dec (1 # 2) (q - inject_Z f)), (Qlt_le_dec (1 # 2) (q' - inject_Z f)); try lra; auto.
Qed.

Lemma fl_zero q : (q == 0)%Q -> (fl q == 0)%Q.
Proof. intros H. unfold fl. assert (E : Qle_bool q 0 = true) by (apply Qle_bool_iff; lra). now rewrite E. Qed.

Lemma fl_positive q : (0 < q)%Q -> fl q = (inject_Z (round_half_even (q * 2 ^ (- (log2 q - 52)))) * 2 ^ (log2 q - 52))%Q.
Proof.
  intros H. unfold fl, pow2. destruct (Qle_bool q 0) eqn:E; auto. apply Qle_bool_iff in E. lra.
Qed.

(** A number with at most 53 bits is not rounded *)
Lemma fl_exact k e q : 0 <= k <= 2 ^ 53 -> (q == inject_Z k * 2 ^ e)%Q -> (fl q == q)%Q.
Proof.
  intros Hk Hq. destruct (Z.eq_dec k 0) as [->|K0].
  { rewrite fl_zero; rewrite Hq; reflexivity. }
  assert (Kp : 0 < k) by lia. destruct (log2_Z k Kp) as [L1 L2]. pose proof (pow2_pos e) as Pe.
  assert (HL : log2 q = Z.log2 k + e).
  { apply log2_unique; rewrite Hq.
    - rewrite pow2_add. nra.
    - replace (Z.log2 k + e + 1) with (Z.log2 k + 1 + e) by lia. rewrite pow2_add. nra. }
  assert (Qp : (0 < q)%Q). { rewrite Hq. pose proof (pow2_pos (Z.log2 k)). nra. }
  rewrite fl_positive by auto. rewrite HL. set (x := Z.log2 k + e - 52).
  assert (HI : exists z, (q * 2 ^ (- x) == inject_Z z)%Q).
  { assert (Hx : (q * 2 ^ (- x) == inject_Z k * 2 ^ (e - x))%Q).
    { rewrite Hq. unfold Z.sub. rewrite pow2_add. ring. }
    assert (Hl : Z.log2 k <= 53) by (exact (Z.log2_le_mono k (2 ^ 53) (proj2 Hk))).
    destruct (Z_le_gt_dec (Z.log2 k) 52) as [Hl'|Hl'].
    - exists (k * 2 ^ (e - x)). rewrite Hx, inject_Z_mult, pow2_Z by (unfold x; lia). reflexivity.
    - assert (k = 2 ^ 53). { destruct (Z.log2_spec k Kp) as [A _]. replace (Z.log2 k) with 53 in A by lia. lia. }
      exists (2 ^ 52). rewrite Hx. unfold x. replace (e - (Z.log2 k + e - 52)) with (-1) by lia. subst k. reflexivity. }
  destruct HI as [z Hz]. rewrite (rhe_int _ z Hz), <- Hz.
  rewrite <- Qmult_assoc, <- pow2_add. replace (- x + x) with 0 by lia. simpl. ring.
Qed.

(** fl rounds to a nearest number of 53 bits: it is at most half the distance of neighbours away *)
Lemma fl_near q : (0 < q)%Q -> (Qabs (q - fl q) <= 2 ^ (log2 q - 53))%Q /\
  exists k, 2 ^ 52 <= k <= 2 ^ 53 /\ (fl q == inject_Z k * 2 ^ (log2 q - 52))%Q.
Proof.
  intros H. rewrite fl_positive by auto. set (x := log2 q - 52).
  destruct (log2_spec q H) as [L1 L2]. pose proof (pow2_pos x) as Px. pose proof (pow2_pos (- x)) as Pm.
  assert (E1 : (2 ^ (- x) * 2 ^ x == 1)%Q) by (rewrite <- pow2_add; replace (- x + x) with 0 by lia; reflexivity).
  destruct (round_half_even_spec (q * 2 ^ (- x))) as (H1 & _ & _). set (k := round_half_even (q * 2 ^ (- x))) in *.
  apply Qabs_Qle_condition in H1. destruct H1 as [H1 H2].
  assert (E2 : (q == q * 2 ^ (- x) * 2 ^ x)%Q) by (rewrite <- Qmult_assoc, E1; ring).
  assert (E3 : (2 ^ x == 2 ^ (log2 q - 53) * 2)%Q).
  { unfold x. replace (log2 q - 52) with (log2 q - 53 + 1) by lia. rewrite pow2_add. reflexivity. }
  split.
  - apply Qabs_Qle_condition. set (y := (q * 2 ^ (- x))%Q) in *. set (h := (2 ^ (log2 q - 53))%Q) in *. split; nra.
  - exists k. split; [|reflexivity].
    assert (A1 : (inject_Z (2 ^ 52) <= q * 2 ^ (- x))%Q).
    { rewrite pow2_Z by lia. replace 52 with (log2 q + - x) by (unfold x; lia). rewrite pow2_add. nra. }
    assert (A2 : (q * 2 ^ (- x) < inject_Z (2 ^ 53))%Q).
    { rewrite pow2_Z by lia. replace 53 with (log2 q + 1 + - x) by (unfold x; lia). rewrite pow2_add. nra. }
    assert (B1 : (inject_Z (2 * 2 ^ 52 - 1) <= inject_Z (2 * k))%Q).
    { unfold Z.sub. rewrite inject_Z_plus, !inject_Z_mult. change (inject_Z 2) with 2%Q. change (inject_Z (- (1))) with (-1)%Q. lra. }
    assert (B2 : (inject_Z (2 * k) <= inject_Z (2 * 2 ^ 53 + 1))%Q).
    { rewrite inject_Z_plus, !inject_Z_mult. change (inject_Z 2) with 2%Q. change (inject_Z 1) with 1%Q. lra. }
    rewrite <- Zle_Qle in B1, B2. lia.
Qed.

Definition total_Q (l : list Q) : Q := fold_right Qplus 0%Q l.
Lemma total_app l l' : (total_Q (l ++ l') == total_Q l + total_Q l')%Q.
Proof. unfold total_Q. induction l as [|q l IH]; simpl; [ring|]. rewrite IH. ring. Qed.

(** Multiples of 2^-53 up to 1 are added exactly, in any order *)
Definition mult53 (q : Q) : Prop := exists j, 0 <= j /\ (q == inject_Z j * 2 ^ (-53))%Q.
Lemma mult53_total l : (forall q, In q l -> mult53 q) -> mult53 (total_Q l).
Proof.
  unfold total_Q. induction l as [|q l IH]; simpl; intros H.
  - exists 0. split; [lia | reflexivity].
  - destruct (H q (or_introl eq_refl)) as [j [Hj Ej]]. destruct IH as [j' [Hj' Ej']]; [intros; apply H; auto|].
    exists (j + j'). split; [lia|]. rewrite Ej, Ej', inject_Z_plus. ring.
Qed.
Lemma mult53_nonneg q : mult53 q -> (0 <= q)%Q.
Proof.
  intros [j [H ->]]. pose proof (pow2_pos (-53)). apply (Qmult_le_0_compat); [|lra].
  change 0%Q with (inject_Z 0). now rewrite <- Zle_Qle.
Qed.
Lemma mult53_exact q : mult53 q -> (q <= 1)%Q -> (fl q == q)%Q.
Proof.
  intros [j [H E]] H1. apply (fl_exact j (-53)); auto. split; auto.
  rewrite E in H1. pose proof (pow2_pos 53) as P. 
  assert (E1 : (2 ^ (-53) * 2 ^ 53 == 1)%Q) by reflexivity.
  assert (inject_Z j <= inject_Z (2 ^ 53))%Q.
  { rewrite pow2_Z by lia. set (a := (2 ^ (-53))%Q) in *. set (b := (2 ^ 53)%Q) in *.
    assert (inject_Z j * a * b <= 1 * b)%Q by nra. assert (inject_Z j * a * b == inject_Z j)%Q by (rewrite <- Qmult_assoc, E1; ring). lra. }
  now rewrite <- Zle_Qle in H0.
Qed.

Lemma fl_compat_mult q q' : (q == q')%Q -> mult53 q' -> (q' <= 1)%Q -> (fl q == q')%Q.
Proof.
  intros E [j [Hj Ej]] H1. rewrite <- E. apply mult53_exact; [|now rewrite E].
  exists j. split; auto. now rewrite E.
Qed.

Lemma fl_sum_exact t : (forall q, In q (leaves t) -> mult53 q) -> (total_Q (leaves t) <= 1)%Q ->
  (fl_sum t == total_Q (leaves t))%Q.
Proof.
  induction t as [q|a IHa b IHb]; intros H H1.
  - simpl. ring.
  - simpl leaves in *. assert (Ha : forall q, In q (leaves a) -> mult53 q) by (intros; apply H, in_app_iff; auto).
    assert (Hb : forall q, In q (leaves b) -> mult53 q) by (intros; apply H, in_app_iff; auto).
    pose proof (mult53_nonneg _ (mult53_total _ Ha)). pose proof (mult53_nonneg _ (mult53_total _ Hb)).
    pose proof (total_app (leaves a) (leaves b)) as Et.
    simpl fl_sum. apply fl_compat_mult; auto.
    + rewrite IHa, IHb, Et; auto; try lra.
    + apply mult53_total. exact H.
Qed.

Lemma dyadic_mult b r : dyadic b r -> mult53 r.
Proof.
  intros (j & m & Hj & Hm & E). exists (j * 2 ^ (53 - m)). split; [apply Z.mul_nonneg_nonneg; [lia | apply Z.pow_nonneg; lia]|].
  rewrite E, inject_Z_mult, pow2_Z by lia. rewrite <- Qmult_assoc, <- pow2_add. now replace (53 - m + -53) with (- m) by lia.
Qed.

Lemma size_exact b r n : dyadic b r -> 0 <= b <= 53 -> 0 <= n <= 2 ^ (53 - b) -> (fl (inject_Z n * r) == inject_Z n * r)%Q.
Proof.
  intros (j & m & Hj & Hm & E) Hb Hn. apply (fl_exact (n * j) (- m)).
  - split; [lia|]. replace (2 ^ 53) with (2 ^ (53 - b) * 2 ^ b) by (rewrite <- Z.pow_add_r by lia; f_equal; lia). nia.
  - rewrite E, inject_Z_mult. ring.
Qed.

Lemma cut_fl_cut (A : Type) b n (sample : list A) ratios : 0 <= b <= 53 -> Z.of_nat n <= 2 ^ (53 - b) ->
  (forall r, In r ratios -> dyadic b r) -> forall start, cut_fl n sample start ratios = cut n sample start ratios.
Proof.
  intros Hb Hn. induction ratios as [|r ratios IH]; intros H start; auto.
  cbn [cut_fl cut]. rewrite (rhe_compat _ _ (size_exact b r (Z.of_nat n) (H r (or_introl eq_refl)) Hb ltac:(lia))).
  f_equal. apply IH. intros; apply H; now right.
Qed.

Lemma fold_left_same (A B : Type) (f g : A -> B -> A) l : (forall a x, In x l -> f a x = g a x) -> forall a, fold_left f l a = fold_left g l a.
Proof.
  induction l as [|x l IH]; intros H a; simpl; auto. rewrite (H a x) by (now left). apply IH. intros; apply H; now right.
Qed.

Lemma split_dyadic (A : Type) b t (shuffle : nat -> list A -> list A) data ratios : 0 <= b <= 53 -> order_of ratios t ->
  (forall r, In r ratios -> dyadic b r) -> (fold_right Qplus 0 ratios == 1)%Q ->
  (forall s, In s data -> Z.of_nat (length s) <= 2 ^ (53 - b)) ->
  split_floats t shuffle data ratios = split_data shuffle data ratios.
Proof.
  intros Hb Ht Hr Hs Hd. unfold split_floats, split_data.
  assert (Et : (fl_sum t == 1)%Q).
  { assert (M : forall q, In q (leaves t) -> mult53 q).
    { destruct Ht as [-> | ->]; intros q Hq; [apply (dyadic_mult b); auto|]. destruct Hq as [<-|Hq]; [|apply (dyadic_mult b); auto].
      exists 0. split; [lia | reflexivity]. }
    assert (E : (total_Q (leaves t) == 1)%Q).
    { unfold total_Q. destruct Ht as [-> | ->]; auto. simpl. rewrite Hs. reflexivity. }
    rewrite fl_sum_exact, E; auto; [reflexivity|]. rewrite E. apply Qle_refl. }
  apply Qeq_bool_iff in Et. apply Qeq_bool_iff in Hs. rewrite Et, Hs. cbn [negb].
  rewrite (fold_left_same _ _ _ (fun folds es => append_folds folds (cut (length (snd es)) (shuffle (fst es) (snd es)) 0 ratios))); auto.
  intros folds [i s] Hi. cbn [fst snd]. f_equal. apply (cut_fl_cut A b); auto. apply Hd. apply in_combine_r in Hi. exact Hi.
Qed.

(** All orders of a list *)
Fixpoint orders (n : nat) (l : list Q) : list sum_order :=
  match n with
  | O => []
  | S n => map Leaf (match l with [q] => [q] | _ => [] end) ++
      flat_map (fun i => flat_map (fun a => map (Plus a) (orders n (skipn i l))) (orders n (firstn i l))) (seq 1 (length l))
  end.
Lemma leaves_pos t : (0 < length (leaves t))%nat.
Proof. induction t; simpl; [lia|]. rewrite app_length. lia. Qed.
Lemma orders_all t : forall n, (length (leaves t) <= n)%nat -> In t (orders n (leaves t)).
Proof.
  induction t as [q|a IHa b IHb]; intros n H.
  - destruct n; simpl in *; [lia | now left].
  - pose proof (leaves_pos a). pose proof (leaves_pos b). simpl leaves in *. rewrite app_length in H.
    destruct n as [|n]; [lia|]. cbn [orders]. apply in_app_iff. right. apply in_flat_map.
    exists (length (leaves a)). split; [apply in_seq; rewrite app_length; lia|].
    apply in_flat_map. exists a. split.
    + rewrite firstn_app, firstn_all, Nat.sub_diag. simpl. rewrite app_nil_r. apply IHa. lia.
    + apply in_map. rewrite skipn_app, skipn_all, Nat.sub_diag. simpl. apply IHb. lia.
Qed.

Notation decimals l := (map (fun n => fl (n # 100)) l).

Lemma decimals_rejected (A : Type) t (shuffle : nat -> list A -> list A) data : order_of (decimals [35; 30; 35]) t ->
  split_floats t shuffle data (decimals [35; 30; 35]) = Err ValueError.
Proof.
  intros H. unfold split_floats.
  assert (E : Qeq_bool (fl_sum t) 1 = false); [|now rewrite E].
  set (l := decimals [35; 30; 35]) in *.
  assert (HC : forallb (fun t => negb (Qeq_bool (fl_sum t) 1)) (orders 4 l ++ orders 4 (0%Q :: l)) = true) by (vm_compute; reflexivity).
  rewrite forallb_forall in HC. apply negb_true_iff. apply HC. apply in_app_iff.
  destruct H as [H|H]; [left | right]; rewrite <- H; apply orders_all; rewrite H; simpl; lia.
Qed.

Lemma float_ratios : exists l : list Z, fold_right Z.add 0 l = 100 /\ length l = 3%nat /\ (forall n, In n l -> 0 < n) /\
  forall (A : Type) t (shuffle : nat -> list A -> list A) data, order_of (decimals l) t -> split_floats t shuffle data (decimals l) = Err ValueError.
Proof.
  exists [35; 30; 35]. split; [reflexivity|]. split; [reflexivity|]. split; [simpl; intros; lia|]. intros. now apply decimals_rejected.
Qed.

Lemma fl_binary64 q : binary64 q -> (fl q == q)%Q.
Proof. intros (k & e & Hk & E). apply (fl_exact k e); auto. lia. Qed.
