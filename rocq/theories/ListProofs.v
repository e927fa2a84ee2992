(** Lemmas on the list utilities. *)
From Coq Require Import List Arith ZArith QArith Qround Qabs Lia Lqa Bool Permutation Sorted.
Import ListNotations.
From Verif Require Import Base GraphModel GraphSpec ListModel ListSpec TopoProofs BasicProofs SortProofs CompelledProofs EnumProofs EdgeProofs.
Open Scope nat_scope.

Lemma Permutation_filter' (A : Type) (f : A -> bool) l m : Permutation l m -> Permutation (filter f l) (filter f m).
Proof.
  induction 1 as [|x l m _ IH|x y l|l m n _ IH1 _ IH2]; simpl; auto.
  - destruct (f x); auto.
  - destruct (f x), (f y); auto. apply perm_swap.
  - now rewrite IH1.
Qed.

Lemma filter_length_le' (A : Type) (f : A -> bool) l : length (filter f l) <= length l.
Proof. induction l as [|x l IH]; simpl; auto. destruct (f x); simpl; lia. Qed.

Lemma NoDup_flat_map_disj (A B : Type) (f : A -> list B) l : NoDup l -> (forall x, In x l -> NoDup (f x)) ->
  (forall x y b, In x l -> In y l -> x <> y -> In b (f x) -> In b (f y) -> False) -> NoDup (flat_map f l).
Proof.
  induction l as [|x l IH]; intros ND H1 H2; simpl; [constructor|]. inversion ND as [|? ? Nx ND']; subst.
  apply NoDup_app.
  - apply H1. simpl; auto.
  - apply IH; auto; [intros; apply H1; simpl; auto|]. intros a b c Ha Hb. apply H2; simpl; auto.
  - intros b Hb Hb'. apply in_flat_map in Hb'. destruct Hb' as (y & Hy & Hb').
    apply (H2 x y b); simpl; auto. intros ->. contradiction.
Qed.

Lemma StronglySorted_app (A : Type) (R : A -> A -> Prop) a b : StronglySorted R a -> StronglySorted R b ->
  (forall x y, In x a -> In y b -> R x y) -> StronglySorted R (a ++ b).
Proof.
  induction 1 as [|x a Ha IH HF]; intros Hb H; simpl; auto. constructor.
  - apply IH; auto. intros; apply H; simpl; auto.
  - apply Forall_app. split; auto. apply Forall_forall. intros y Hy. apply H; simpl; auto.
Qed.

Lemma sorted_flat_map (A : Type) (R : A -> A -> Prop) (f : nat -> list A) n :
  (forall r x y, In x (f r) -> In y (f r) -> R x y) ->
  (forall r r' x y, r < r' -> In x (f r) -> In y (f r') -> R x y) ->
  StronglySorted R (flat_map f (seq 0 n)).
Proof.
  intros H1 H2. induction n as [|n IH]; [constructor|]. rewrite seq_S, flat_map_app. simpl. rewrite app_nil_r.
  apply StronglySorted_app; auto.
  - specialize (H1 n). induction (f n) as [|x l IHl]; constructor.
    + apply IHl. intros; apply H1; simpl; auto.
    + apply Forall_forall. intros y Hy. apply H1; simpl; auto.
  - intros x y Hx Hy. apply in_flat_map in Hx. destruct Hx as (r & Hr & Hx). apply in_seq in Hr.
    apply (H2 r n); auto. lia.
Qed.

(** ** subsets *)
Lemma combinations_In (A : Type) (l : list A) : forall r c, In c (combinations r l) -> length c = r /\ incl c l.
Proof.
  induction l as [|x l IH]; intros [|r] c H; simpl in H.
  - destruct H as [<-|[]]. split; auto. intros y [].
  - destruct H.
  - destruct H as [<-|[]]. split; auto. intros y [].
  - apply in_app_iff in H. destruct H as [H|H].
    + apply in_map_iff in H. destruct H as (c' & <- & H). apply IH in H. destruct H as (H1 & H2).
      split; [simpl; lia|]. intros y [->|Hy]; simpl; auto.
    + apply IH in H. destruct H as (H1 & H2). split; auto. intros y Hy. right. auto.
Qed.

Lemma combinations_complete (A : Type) (f : A -> bool) (l : list A) :
  In (filter f l) (combinations (length (filter f l)) l).
Proof.
  induction l as [|x l IH]; simpl; auto. destruct (f x); simpl.
  - apply in_app_iff. left. now apply in_map.
  - destruct (length (filter f l)) eqn:E.
    + apply length_zero_iff_nil in E. rewrite E. simpl; auto.
    + apply in_app_iff. right. exact IH.
Qed.

Lemma combinations_NoDup (A : Type) (l : list A) : NoDup l -> forall r, NoDup (combinations r l).
Proof.
  induction l as [|x l IH]; intros ND [|r]; simpl; try (constructor; [simpl; auto|constructor]); [constructor|].
  inversion ND as [|? ? Nx ND']; subst. apply NoDup_app.
  - apply FinFun.Injective_map_NoDup; auto. intros a b E. congruence.
  - auto.
  - intros c H1 H2. apply in_map_iff in H1. destruct H1 as (c' & <- & _).
    apply combinations_In in H2. apply Nx. apply H2. simpl; auto.
Qed.

Lemma combinations_set (A : Type) (l : list A) : NoDup l -> forall r c d,
  In c (combinations r l) -> In d (combinations r l) -> (forall x, In x c <-> In x d) -> c = d.
Proof.
  induction l as [|x l IH]; intros ND [|r] c d Hc Hd E; simpl in Hc, Hd.
  - destruct Hc as [<-|[]]; destruct Hd as [<-|[]]; auto.
  - destruct Hc.
  - destruct Hc as [<-|[]]; destruct Hd as [<-|[]]; auto.
  - inversion ND as [|? ? Nx ND']; subst. apply in_app_iff in Hc, Hd.
    destruct Hc as [Hc|Hc], Hd as [Hd|Hd].
    + apply in_map_iff in Hc, Hd. destruct Hc as (c' & <- & Hc). destruct Hd as (d' & <- & Hd).
      f_equal. apply (IH ND' r); auto. intros y.
      apply combinations_In in Hc, Hd. destruct Hc as (_ & Hc). destruct Hd as (_ & Hd).
      split; intros Hy.
      * destruct (proj1 (E y)) as [->|]; simpl; auto. exfalso. auto.
      * destruct (proj2 (E y)) as [->|]; simpl; auto. exfalso. auto.
    + exfalso. apply in_map_iff in Hc. destruct Hc as (c' & <- & _). apply combinations_In in Hd.
      apply Nx, Hd, E. simpl; auto.
    + exfalso. apply in_map_iff in Hd. destruct Hd as (d' & <- & _). apply combinations_In in Hc.
      apply Nx, Hc, E. simpl; auto.
    + apply (IH ND' (S r)); auto.
Qed.

Fixpoint cnt (r n : nat) : nat :=
  match r, n with 0, _ => 1 | S _, 0 => 0 | S r', S n' => cnt r' n' + cnt r n' end.
Lemma combinations_length (A : Type) (l : list A) : forall r, length (combinations r l) = cnt r (length l).
Proof.
  induction l as [|x l IH]; intros [|r]; simpl; auto. rewrite app_length, map_length, !IH. reflexivity.
Qed.
Lemma cnt_big n : forall r, n < r -> cnt r n = 0.
Proof. induction n as [|n IH]; intros [|r] H; simpl; try lia. rewrite !IH by lia. reflexivity. Qed.
Fixpoint sum_to (f : nat -> nat) (n : nat) : nat := match n with 0 => 0 | S n' => sum_to f n' + f n' end.
Lemma sum_to_ext f g n : (forall k, k < n -> f k = g k) -> sum_to f n = sum_to g n.
Proof. induction n as [|n IH]; intros H; simpl; auto. rewrite IH, H by auto. reflexivity. Qed.
Lemma sum_to_plus f g n : sum_to (fun k => f k + g k) n = sum_to f n + sum_to g n.
Proof. induction n as [|n IH]; simpl; auto. lia. Qed.
Lemma sum_to_shift f n : sum_to f (S n) = f 0 + sum_to (fun k => f (S k)) n.
Proof. induction n as [|n IH]; [simpl; lia|]. change (sum_to f (S (S n))) with (sum_to f (S n) + f (S n)). rewrite IH. simpl. lia. Qed.
Lemma cnt_sum n : sum_to (fun r => cnt r n) (S n) = 2 ^ n.
Proof.
  induction n as [|n IH]; [reflexivity|]. rewrite sum_to_shift. cbn [cnt].
  rewrite sum_to_plus, IH.
  assert (1 + sum_to (fun k => cnt (S k) n) (S n) = 2 ^ n) as E.
  { pose proof (sum_to_shift (fun r => cnt r n) (S n)) as Q. cbn [cnt] in Q.
    change (sum_to (fun r => cnt r n) (S (S n))) with (sum_to (fun r => cnt r n) (S n) + cnt (S n) n) in Q.
    rewrite IH, (cnt_big n (S n)) in Q by lia. replace (cnt 0 n) with 1 in Q by (destruct n; reflexivity). lia. }
  simpl Nat.pow. lia.
Qed.

Lemma flat_map_seq_length (A : Type) (f : nat -> list A) n :
  length (flat_map f (seq 0 n)) = sum_to (fun r => length (f r)) n.
Proof.
  induction n as [|n IH]; [reflexivity|]. rewrite seq_S, flat_map_app, app_length, IH. simpl.
  rewrite app_nil_r. reflexivity.
Qed.

Lemma subsets_spec (h : hord) S : NoDup S ->
  (forall X, In X (subsets h S) -> NoDup X /\ incl X S) /\
  (forall T, incl T S -> exists X, In X (subsets h S) /\ forall x, In x X <-> In x T) /\
  NoDup (subsets h S) /\
  (forall X Y, In X (subsets h S) -> In Y (subsets h S) -> (forall x, In x X <-> In x Y) -> X = Y) /\
  StronglySorted (fun X Y => length X <= length Y) (subsets h S) /\
  length (subsets h S) = 2 ^ length S.
Proof.
  intros ND.
  assert (HI : forall X, In X (subsets h S) <-> In X (combinations (length X) (h (length X) S)) /\ length X <= length S).
  { intros X. unfold subsets. rewrite in_flat_map. split.
    - intros (r & Hr & HX). apply in_seq in Hr. pose proof (combinations_In _ _ _ _ HX) as (E & _). subst r.
      split; auto. lia.
    - intros (H1 & H2). exists (length X). split; auto. apply in_seq. lia. }
  assert (HS : forall r (l : list nat) c, NoDup l -> In c (combinations r l) -> NoDup c).
  { intros r l. revert r. induction l as [|x l IH]; intros [|r] c N Hc; simpl in Hc.
    - destruct Hc as [<-|[]]. constructor.
    - destruct Hc.
    - destruct Hc as [<-|[]]. constructor.
    - inversion N as [|? ? Nx N']; subst. apply in_app_iff in Hc. destruct Hc as [Hc|Hc].
      + apply in_map_iff in Hc. destruct Hc as (c' & <- & Hc). constructor.
        * intros Hx. apply Nx. apply combinations_In in Hc. apply Hc, Hx.
        * apply (IH r); auto.
      + apply (IH (Datatypes.S r)); auto. }
  split; [|split; [|split; [|split; [|split]]]].
  - intros X HX. apply HI in HX. destruct HX as (HX & _). split.
    + apply (HS _ _ _ (ho_NoDup h _ ND) HX).
    + apply combinations_In in HX. intros x Hx. apply HX, ho_In in Hx. exact Hx.
  - intros T HT.
    set (r := length (filter (fun x => memb x T) S)).
    exists (filter (fun x => memb x T) (h r S)).
    assert (length (filter (fun x => memb x T) (h r S)) = r) as E.
    { apply Permutation_length. apply Permutation_filter', ho_perm. }
    split.
    + apply HI. rewrite E. split.
      * pose proof (combinations_complete _ (fun x => memb x T) (h r S)) as Q. rewrite E in Q. exact Q.
      * unfold r. apply filter_length_le'.
    + intros x. rewrite filter_In, memb_In, ho_In. split; [tauto|]. auto.
  - apply NoDup_flat_map_disj; [apply seq_NoDup| |].
    + intros r _. apply combinations_NoDup, ho_NoDup, ND.
    + intros r r' c _ _ N H1 H2. apply combinations_In in H1, H2. apply N. destruct H1, H2. congruence.
  - intros X Y HX HY E. apply HI in HX, HY. destruct HX as (HX & _). destruct HY as (HY & _).
    assert (length X = length Y) as EL.
    { apply NoDup_same_length; auto; [apply (HS _ _ _ (ho_NoDup h _ ND) HX) | apply (HS _ _ _ (ho_NoDup h _ ND) HY)]. }
    rewrite <- EL in HY. apply (combinations_set _ (h (length X) S) (ho_NoDup h _ ND) (length X)); auto.
  - unfold subsets. apply sorted_flat_map.
    + intros r X Y HX HY. apply combinations_In in HX, HY. lia.
    + intros r r' X Y Hlt HX HY. apply combinations_In in HX, HY. lia.
  - unfold subsets. rewrite flat_map_seq_length, Nat.add_1_r.
    rewrite (sum_to_ext _ (fun r => cnt r (length S))); [apply cnt_sum|].
    intros r _. now rewrite combinations_length, ho_length.
Qed.

(** ** cartesian *)
Lemma prod_sizes_eq (A : Type) (arrays : list (list A)) : prod_sizes arrays = fold_right Nat.mul 1 (map (@length A) arrays).
Proof. induction arrays as [|a l IH]; simpl; auto. Qed.

Lemma nth_flat_map_block (A B : Type) (f : A -> list B) m da db : forall l r, 0 < m ->
  (forall x, In x l -> length (f x) = m) -> r < length l * m ->
  nth r (flat_map f l) db = nth (r mod m) (f (nth (r / m) l da)) db.
Proof.
  induction l as [|x l IH]; intros r Hm Hl Hr; [simpl in Hr; lia|]. cbn [flat_map].
  destruct (lt_dec r m) as [L|L].
  - rewrite app_nth1 by (rewrite Hl; simpl; auto). rewrite Nat.div_small, Nat.mod_small by auto. reflexivity.
  - rewrite app_nth2 by (rewrite Hl; simpl; auto; lia). rewrite Hl by (simpl; auto).
    rewrite IH; auto; [|intros; apply Hl; simpl; auto|simpl in Hr; lia].
    replace r with ((r - m) + 1 * m) at 3 4 by lia. rewrite Nat.mod_add, Nat.div_add by lia.
    rewrite Nat.add_1_r. reflexivity.
Qed.

Lemma map_const_length_forall (A : Type) (arrays : list (list A)) :
  (forall a, In a arrays -> a <> []) -> 0 < prod_sizes arrays.
Proof.
  induction arrays as [|a l IH]; intros H; simpl; [lia|]. unfold prod_sizes. simpl.
  fold (prod_sizes l). assert (0 < prod_sizes l) by (apply IH; intros; apply H; simpl; auto).
  destruct a; [exfalso; apply (H []); simpl; auto|]. simpl. lia.
Qed.

Lemma digits_mod sizes : (forall s, In s sizes -> 0 < s) -> forall r,
  digits sizes (r mod fold_right Nat.mul 1 sizes) = digits sizes r.
Proof.
  induction sizes as [|s l IH]; intros HP r; auto. cbn [digits fold_right].
  set (m := fold_right Nat.mul 1 l) in *.
  assert (Hs : 0 < s) by (apply HP; simpl; auto).
  assert (Hm : 0 < m).
  { unfold m. clear -HP. induction l as [|x l IH]; simpl; [lia|]. assert (0 < x) by (apply HP; simpl; auto).
    assert (0 < fold_right Nat.mul 1 l) by (apply IH; intros y [<-|Hy]; apply HP; simpl; auto). nia. }
  assert (E : r mod (s * m) = r mod m + (r / m) mod s * m).
  { rewrite (Nat.mul_comm s m), Nat.mod_mul_r by lia. lia. }
  f_equal.
  - rewrite E, Nat.div_add by lia. rewrite (Nat.div_small (r mod m)) by (apply Nat.mod_upper_bound; lia).
    simpl. apply Nat.mod_mod. lia.
  - rewrite <- (IH (fun x Hx => HP x (or_intror Hx)) (r mod (s * m))).
    rewrite <- (IH (fun x Hx => HP x (or_intror Hx)) r). f_equal.
    rewrite E, Nat.mod_add, Nat.mod_mod by lia. reflexivity.
Qed.

Lemma cart_rows_nth (A : Type) (d : A) (arrays : list (list A)) : arrays <> [] -> (forall a, In a arrays -> a <> []) ->
  forall r, r < prod_sizes arrays ->
  nth r (cart_rows arrays) [] =
  map (fun ai => nth (snd ai) (fst ai) d) (combine arrays (digits (map (@length A) arrays) r)).
Proof.
  induction arrays as [|a arrays IH]; [easy|]. intros _ HN r Hr. destruct arrays as [|b arrays].
  - rewrite cart_rows_single. simpl in Hr. unfold prod_sizes in Hr. simpl in Hr. rewrite Nat.mul_1_r in Hr.
    cbn [map combine digits fold_right fst snd]. rewrite Nat.div_1_r, Nat.mod_small by auto.
    rewrite (nth_indep _ [] [d]) by (rewrite map_length; auto).
    now rewrite (map_nth (fun x => [x]) a d).
  - destruct (cart_rows_len_cons _ (b :: arrays)) as (HL & HC); [discriminate|].
    rewrite HC. change (prod_sizes (a :: b :: arrays)) with (length a * prod_sizes (b :: arrays)) in Hr.
    assert (0 < prod_sizes (b :: arrays)) as Hm
      by (apply map_const_length_forall; intros c Hc; apply HN; simpl in *; tauto).
    set (m := prod_sizes (b :: arrays)) in *.
    rewrite (nth_flat_map_block _ _ _ m d); auto; [|intros; now rewrite map_length].
    assert (Hq : r / m < length a) by (apply Nat.div_lt_upper_bound; lia).
    pose proof (Nat.mod_upper_bound r m ltac:(lia)) as Hrm.
    rewrite (nth_indep _ [] (nth (r / m) a d :: [])) by (rewrite map_length, HL; auto).
    rewrite (map_nth (cons (nth (r / m) a d)) (cart_rows (b :: arrays)) []).
    rewrite IH; auto; [|discriminate|intros c Hc; apply HN; simpl in *; tauto].
    change (map (@length A) (a :: b :: arrays)) with (length a :: map (@length A) (b :: arrays)).
    assert (Em : fold_right Nat.mul 1 (map (@length A) (b :: arrays)) = m) by (symmetry; apply prod_sizes_eq).
    assert (HD : digits (map (@length A) (b :: arrays)) (r mod m) = digits (map (@length A) (b :: arrays)) r);
      [rewrite <- Em; apply digits_mod |
       rewrite HD; generalize dependent (map (@length A) (b :: arrays)); intros sz _ Em _;
       cbn [digits combine]; rewrite Em, (Nat.mod_small (r / m)) by auto; reflexivity].
    intros s Hs. apply in_map_iff in Hs. destruct Hs as (c & <- & Hc).
    destruct c; [exfalso; apply (HN []); simpl in *; tauto | simpl; lia].
Qed.

Lemma cartesian_spec (A : Type) (d : A) (cast : A -> A) (arrays : list (list A)) :
  (arrays = [] -> cartesian cast arrays = Err TypeError) /\
  (arrays <> [] -> (exists a, In a arrays /\ a = []) -> cartesian cast arrays = Err ValueError) /\
  (arrays <> [] -> (forall a, In a arrays -> a <> []) ->
   (forall a x, In a arrays -> In x a -> cast x = x) ->
   exists rows, cartesian cast arrays = Ok rows /\
     length rows = fold_right Nat.mul 1 (map (@length A) arrays) /\
     (forall v, In v rows <-> Forall2 (fun x a => In x a) v arrays) /\
     forall r, r < length rows ->
       nth r rows [] = map (fun ai => nth (snd ai) (fst ai) d) (combine arrays (digits (map (@length A) arrays) r))).
Proof.
  assert (HX : existsb (fun a : list A => match a with [] => true | _ => false end) arrays = true <->
               exists a, In a arrays /\ a = []).
  { rewrite existsb_exists. split; intros (a & H1 & H2); exists a; (split; [auto|]); destruct a; auto; discriminate. }
  split; [|split].
  - intros ->. reflexivity.
  - intros HN HE. destruct arrays as [|a l]; [easy|]. apply HX in HE. unfold cartesian. now rewrite HE.
  - intros HN HA HC. unfold cartesian. destruct arrays as [|a l] eqn:EA; [easy|]. rewrite <- EA in *.
    destruct (existsb _ arrays) eqn:EX.
    { exfalso. destruct (proj1 HX eq_refl) as (x & H1 & H2). now apply (HA x). }
    assert (map (map cast) (cart_rows arrays) = cart_rows arrays) as ->.
    { rewrite <- (map_id (cart_rows arrays)) at 2. apply map_ext_in. intros v Hv.
      apply cart_rows_In in Hv; auto. clear -Hv HC. revert HC. induction Hv as [|x b v arrs Hx _ IH]; intros HC; auto.
      simpl. rewrite (HC b x) by (simpl; auto). f_equal. apply IH. intros; apply (HC a); simpl; auto. }
    eexists. split; [reflexivity|]. split.
    + rewrite (proj1 (cart_rows_len_cons _ arrays HN)). apply prod_sizes_eq.
    + split; [intros v; now apply cart_rows_In|]. intros r Hr. apply cart_rows_nth; auto.
      now rewrite <- (proj1 (cart_rows_len_cons _ arrays HN)).
Qed.

(** ** sort, member, all_but *)
Lemma StronglySorted_split (A : Type) (R : A -> A -> Prop) l : StronglySorted R l ->
  forall x a y b z, l = x ++ a :: y ++ b :: z -> R a b.
Proof.
  induction 1 as [|c l HS IH HF]; intros x a y b z E; [destruct x; discriminate|].
  destruct x as [|x0 x]; inversion E; subst; [|now apply (IH x a y b z)].
  rewrite Forall_forall in HF. apply HF. apply in_app_iff. simpl; auto.
Qed.

Lemma sort_order order L : Permutation order (seq 0 (length order)) ->
  ((exists x, In x L /\ ~ In x order) /\ sort_by order L = Err IndexError) \/
  ((forall x, In x L -> In x order) /\ exists R, sort_by order L = Ok R /\ Permutation R L /\
     forall u a v b w, R = u ++ a :: v ++ b :: w -> a = b \/ precedes order a b).
Proof.
  intros HP.
  assert (ND : NoDup order) by (apply (Permutation_NoDup (Permutation_sym HP)), seq_NoDup).
  assert (HI : forall x, In x order <-> x < length order) by (intros x; now rewrite (perm_In _ _ _ _ HP), in_seq0).
  destruct (forallb (fun l => l <? length order) L) eqn:E.
  - right. assert (HL : forall x, In x L -> x < length order).
    { rewrite forallb_forall in E. intros x Hx. apply Nat.ltb_lt. auto. }
    split; [intros x Hx; apply HI; auto|].
    destruct (sort_by_spec order L HL) as (R & ER & PR & SR). exists R. split; auto. split; auto.
    intros u a v b w EQ. pose proof (StronglySorted_split _ _ _ SR u a v b w EQ) as Q.
    assert (Ha : In a order). { apply HI, HL. apply (Permutation_in _ PR). rewrite EQ, in_app_iff. simpl; auto. }
    assert (Hb : In b order). { apply HI, HL. apply (Permutation_in _ PR). rewrite EQ, in_app_iff. simpl.
      right. right. rewrite in_app_iff. simpl; auto. }
    destruct Q as [Q|(Q & _)].
    + right. apply precedes_pos; auto.
    + left. now apply (pos_inj order).
  - left. unfold sort_by. rewrite E. split; auto. apply forallb_false in E. destruct E as (x & Hx & E).
    apply Nat.ltb_ge in E. exists x. split; auto. rewrite HI. lia.
Qed.

Lemma Zleb_total a b : (a <=? b)%Z = true \/ (b <=? a)%Z = true.
Proof. rewrite !Z.leb_le. lia. Qed.
Lemma Zleb_trans a b c : (a <=? b)%Z = true -> (b <=? c)%Z = true -> (a <=? c)%Z = true.
Proof. rewrite !Z.leb_le. lia. Qed.

Lemma sorted_spec L : sort_none L = sorted_tuple L /\ Permutation (sort_none L) L /\ StronglySorted Z.le (sort_none L).
Proof.
  split; [reflexivity|]. split; [apply isort_perm|].
  pose proof (isort_sorted Z.leb Zleb_total Zleb_trans L) as H. unfold sort_none.
  induction H as [|x l H IH HF]; constructor; auto. rewrite Forall_forall in *. intros y Hy. apply Z.leb_le. auto.
Qed.

Lemma first_where_spec bs : forall i,
  match first_where i bs with
  | Some k => exists a b, bs = a ++ true :: b /\ ~ In true a /\ k = i + length a
  | None => ~ In true bs
  end.
Proof.
  induction bs as [|b bs IH]; intros i; simpl; auto. destruct b.
  - exists [], bs. simpl. split; auto.
  - specialize (IH (S i)). destruct (first_where (S i) bs) as [k|].
    + destruct IH as (a & c & -> & N & ->). exists (false :: a), c. split; auto. split; [|simpl; lia].
      simpl. intros [Q|Q]; [discriminate | auto].
    + intros [Q|Q]; [discriminate | auto].
Qed.

Lemma member_spec p L A : square p A -> (forall B, In B L -> square p B) ->
  match member L A with
  | Some k => nth_error L k = Some A /\ forall m, m < k -> nth_error L m <> Some A
  | None => ~ In A L
  end.
Proof.
  intros HA HL. unfold member. pose proof (first_where_spec (map (fun B => mateqb B A) L) 0) as H.
  assert (HE : forall B, In B L -> (mateqb B A = true <-> B = A)) by (intros B HB; apply (mateqb_eq (HL B HB) HA)).
  destruct (first_where 0 (map (fun B => mateqb B A) L)) as [k|].
  - destruct H as (a & b & E & N & ->). simpl.
    apply map_eq_app in E. destruct E as (L1 & L2 & -> & E1 & E2).
    destruct L2 as [|B L2]; [discriminate|]. simpl in E2. inversion E2 as [[E3 E4]].
    apply HE in E3; [|apply in_app_iff; simpl; auto]. subst B a. rewrite map_length. split.
    + rewrite nth_error_app2, Nat.sub_diag by auto. reflexivity.
    + intros m Hm Q. rewrite nth_error_app1 in Q by auto. apply nth_error_In in Q. apply N.
      apply in_map_iff. exists A. split; auto. apply HE; auto. apply in_app_iff. auto.
  - intros Hin. apply H. apply in_map_iff. exists A. split; auto. now apply HE.
Qed.

Lemma all_but_spec k p : StronglySorted lt (all_but k p) /\ forall x, In x (all_but k p) <-> x < p /\ ~ In x k.
Proof.
  split.
  - unfold all_but. generalize 0. induction p as [|p IH]; intros s; simpl; [constructor|].
    destruct (negb (memb s k)); auto. constructor; auto. apply Forall_forall. intros x Hx.
    apply filter_In in Hx. destruct Hx as (Hx & _). apply in_seq in Hx. lia.
  - intros x. unfold all_but. rewrite filter_In, negb_true_iff, in_seq0. split; intros (H1 & H2); split; auto;
      now apply memb_notIn.
Qed.

(** ** argmin, argmax *)
Section Arg.
  Context {A : Type} (better : A -> A -> bool) (d : A).
  Hypothesis b_irr : forall x, better x x = false.
  Hypothesis b_step : forall x y z, better x y = true -> better z y = false -> better x z = true /\ better z x = false.

  Lemma arg_scan_spec l : forall pre i besti best, i = length pre -> besti < length pre -> nth besti pre d = best ->
    (forall m, m < length pre -> better (nth m pre d) best = false) ->
    (forall m, m < besti -> better best (nth m pre d) = true) ->
    let k := arg_scan better l i besti best in let a := pre ++ l in
    k < length a /\ (forall m, m < length a -> better (nth m a d) (nth k a d) = false) /\
    (forall m, m < k -> better (nth k a d) (nth m a d) = true).
  Proof.
    induction l as [|x l IH]; intros pre i besti best -> Hb En H1 H2; cbn [arg_scan].
    - rewrite app_nil_r, En. auto.
    - replace (pre ++ x :: l) with ((pre ++ [x]) ++ l) by (rewrite <- app_assoc; reflexivity).
      assert (EL : S (length pre) = length (pre ++ [x])) by (rewrite app_length; simpl; lia).
      assert (N0 : nth (length pre) (pre ++ [x]) d = x) by (rewrite app_nth2, Nat.sub_diag by auto; reflexivity).
      assert (N1 : forall m, m < length pre -> nth m (pre ++ [x]) d = nth m pre d) by (intros; now apply app_nth1).
      destruct (better x best) eqn:E; apply IH; auto; try lia.
      + intros m Hm. destruct (Nat.eq_dec m (length pre)) as [->|]; [rewrite N0; apply b_irr|].
        rewrite N1 by lia. apply (b_step x best); auto. apply H1. lia.
      + intros m Hm. rewrite N1 by lia. apply (b_step x best); auto.
      + now rewrite N1 by auto.
      + intros m Hm. destruct (Nat.eq_dec m (length pre)) as [->|]; [now rewrite N0|]. rewrite N1 by lia. apply H1. lia.
      + intros m Hm. rewrite N1 by lia. auto.
  Qed.

  Lemma np_arg_spec l : l <> [] -> exists k, np_arg better l = Ok k /\ k < length l /\
    (forall m, m < length l -> better (nth m l d) (nth k l d) = false) /\
    (forall m, m < k -> better (nth k l d) (nth m l d) = true).
  Proof.
    destruct l as [|x l]; [easy|]. intros _. eexists. split; [reflexivity|].
    apply (arg_scan_spec l [x] 1 0 x); simpl; auto; try lia.
    intros m Hm. destruct m; [apply b_irr | lia].
  Qed.

  Lemma nth_concat (M : list (list A)) c : (forall r, In r M -> length r = c) -> forall i j, i < length M -> j < c ->
    nth (i * c + j) (concat M) d = nth j (nth i M []) d.
  Proof.
    induction M as [|r M IH]; intros H i j Hi Hj; [simpl in Hi; lia|]. simpl concat.
    assert (length r = c) as Er by (apply H; simpl; auto).
    destruct i as [|i]; simpl Nat.mul; simpl nth.
    - rewrite app_nth1 by lia. reflexivity.
    - rewrite app_nth2 by lia. rewrite Er. replace (c + i * c + j - c) with (i * c + j) by lia.
      apply IH; auto; [intros; apply H; simpl; auto | simpl in Hi; lia].
  Qed.

  Lemma concat_length_const (M : list (list A)) c : (forall r, In r M -> length r = c) ->
    length (concat M) = length M * c.
  Proof.
    induction M as [|r M IH]; intros H; simpl; auto. rewrite app_length, IH, (H r); simpl; auto.
    intros; apply H; simpl; auto.
  Qed.

  Lemma arg2_spec (M : list (list A)) c : 0 < c -> 0 < length M -> (forall r, In r M -> length r = c) ->
    exists i j, arg2 better c M = Ok (i, j) /\ i < length M /\ j < c /\
      (forall i' j', i' < length M -> j' < c -> better (nth j' (nth i' M []) d) (nth j (nth i M []) d) = false) /\
      (forall i' j', i' < length M -> j' < c -> i' < i \/ (i' = i /\ j' < j) ->
         better (nth j (nth i M []) d) (nth j' (nth i' M []) d) = true).
  Proof.
    intros Hc HM Hr. pose proof (concat_length_const M c Hr) as HL.
    destruct (np_arg_spec (concat M)) as (k & E & Hk & H1 & H2).
    { intros Q. rewrite Q in HL. simpl in HL. nia. }
    exists (k / c), (k mod c). unfold arg2. rewrite E. split; [reflexivity|].
    assert (Hi : k / c < length M) by (apply Nat.div_lt_upper_bound; lia).
    pose proof (Nat.mod_upper_bound k c ltac:(lia)) as Hj.
    assert (EK : nth k (concat M) d = nth (k mod c) (nth (k / c) M []) d).
    { rewrite <- (nth_concat M c) by auto. f_equal. rewrite Nat.mul_comm. apply Nat.div_mod. lia. }
    assert (DK : k = k / c * c + k mod c) by (rewrite Nat.mul_comm; apply Nat.div_mod; lia).
    split; auto. split; auto. rewrite <- EK. split.
    - intros i' j' Hi' Hj'. rewrite <- (nth_concat M c) by auto. apply H1. rewrite HL. nia.
    - intros i' j' Hi' Hj' Hlt. rewrite <- (nth_concat M c) by auto. apply H2. nia.
  Qed.
End Arg.

Lemma argmin_spec M c : 0 < c -> 0 < length M -> (forall r, In r M -> length r = c) ->
  exists i j, argmin c M = Ok (i, j) /\ i < length M /\ j < c /\
    (forall i' j', i' < length M -> j' < c -> (get M i j <= get M i' j')%Z) /\
    (forall i' j', i' < length M -> j' < c -> i' < i \/ (i' = i /\ j' < j) -> (get M i j < get M i' j')%Z).
Proof.
  intros Hc HM Hr.
  destruct (arg2_spec Z.ltb 0%Z) with (M := M) (c := c) as (i & j & E & H1 & H2 & H3 & H4); auto.
  - intros x. apply Z.ltb_irrefl.
  - intros x y z. rewrite !Z.ltb_lt, !Z.ltb_ge. lia.
  - exists i, j. split; auto. split; auto. split; auto. unfold get. split.
    + intros i' j' A1 A2. apply Z.ltb_ge, H3; auto.
    + intros i' j' A1 A2 A3. apply Z.ltb_lt, H4; auto.
Qed.

Lemma argmax_spec M c : 0 < c -> 0 < length M -> (forall r, In r M -> length r = c) ->
  exists i j, argmax c M = Ok (i, j) /\ i < length M /\ j < c /\
    (forall i' j', i' < length M -> j' < c -> (get M i' j' <= get M i j)%Z) /\
    (forall i' j', i' < length M -> j' < c -> i' < i \/ (i' = i /\ j' < j) -> (get M i' j' < get M i j)%Z).
Proof.
  intros Hc HM Hr.
  destruct (arg2_spec Z.gtb 0%Z) with (M := M) (c := c) as (i & j & E & H1 & H2 & H3 & H4); auto.
  - intros x. rewrite Z.gtb_ltb. apply Z.ltb_irrefl.
  - intros x y z. rewrite !Z.gtb_ltb, !Z.ltb_lt, !Z.ltb_ge. lia.
  - exists i, j. split; auto. split; auto. split; auto. unfold get. split.
    + intros i' j' A1 A2. specialize (H3 i' j' A1 A2). rewrite Z.gtb_ltb in H3. now apply Z.ltb_ge.
    + intros i' j' A1 A2 A3. specialize (H4 i' j' A1 A2 A3). rewrite Z.gtb_ltb in H4. now apply Z.ltb_lt.
Qed.


(** ** split_data *)
Definition fold_size (n : nat) (r : Q) : nat := Z.to_nat (round_half_even (inject_Z (Z.of_nat n) * r)).
Definition fold_start (n : nat) (ratios : list Q) (i : nat) : nat :=
  fold_right Nat.add 0 (map (fold_size n) (firstn i ratios)).

Lemma round_half_even_spec q :
  (Qabs (q - inject_Z (round_half_even q)) <= 1 # 2)%Q /\
  ((Qabs (q - inject_Z (round_half_even q)) == 1 # 2)%Q -> Z.even (round_half_even q) = true) /\
  ((0 <= q)%Q -> (0 <= round_half_even q)%Z).
Proof.
  pose proof (Qfloor_le q) as H1. pose proof (Qlt_floor q) as H2.
  assert (H0 : (0 <= q)%Q -> (0 <= Qfloor q)%Z).
  { intros Hq. change 0%Z with (Qfloor 0). now apply Qfloor_resp_le. }
  unfold round_half_even. set (f := Qfloor q) in *. rewrite inject_Z_plus in H2. 
  destruct (Qlt_le_dec (q - inject_Z f) (1 # 2)) as [L|L]; [|destruct (Qlt_le_dec (1 # 2) (q - inject_Z f)) as [M|M]].
  - split; [|split; auto]; rewrite Qabs_pos by lra; [lra|]. intros Q. lra.
  - rewrite inject_Z_plus. split; [|split]; [| |intros Hq; specialize (H0 Hq); lia];
      rewrite Qabs_neg by (change (inject_Z 1) with 1%Q in *; lra); change (inject_Z 1) with 1%Q in *; [lra|].
    intros Q. lra.
  - destruct (Z.even f) eqn:E.
    + split; [|split; auto]. rewrite Qabs_pos by lra. lra.
    + split; [|split]; [| |intros Hq; specialize (H0 Hq); lia].
      * rewrite inject_Z_plus. change (inject_Z 1) with 1%Q in *. rewrite Qabs_neg by lra. lra.
      * intros _. now rewrite Z.even_add, E.
Qed.

Lemma cut_length (A : Type) n (s : list A) ratios : forall st, length (cut n s st ratios) = length ratios.
Proof. induction ratios as [|r l IH]; intros st; simpl; auto. Qed.

Lemma cut_nth (A : Type) n (s : list A) ratios : forall st i, i < length ratios ->
  nth i (cut n s st ratios) [] = slice (st + fold_start n ratios i) (fold_size n (nth i ratios 0%Q)) s.
Proof.
  induction ratios as [|r l IH]; intros st i Hi; [simpl in Hi; lia|]. destruct i as [|i].
  - simpl. unfold fold_start. simpl. now rewrite Nat.add_0_r.
  - cbn [cut nth]. rewrite IH by (simpl in Hi; lia). unfold fold_start. cbn [firstn map fold_right].
    rewrite Nat.add_assoc. reflexivity.
Qed.

Lemma skipn_skipn' (A : Type) a b (l : list A) : skipn b (skipn a l) = skipn (a + b) l.
Proof. revert l. induction a as [|a IH]; intros l; simpl; auto. destruct l; [now rewrite skipn_nil|]. apply IH. Qed.

Lemma slice_app (A : Type) a b c (s : list A) : slice a b s ++ slice (a + b) c s = slice a (b + c) s.
Proof.
  unfold slice. rewrite <- skipn_skipn'. generalize (skipn a s). intros l. revert l.
  induction b as [|b IH]; intros l; simpl; auto. destruct l; simpl; [now rewrite !firstn_nil|]. f_equal. apply IH.
Qed.

Lemma cut_concat (A : Type) n (s : list A) ratios : forall st,
  concat (cut n s st ratios) = slice st (fold_start n ratios (length ratios)) s.
Proof.
  induction ratios as [|r l IH]; intros st; [reflexivity|]. cbn [cut concat]. rewrite IH.
  fold (fold_size n r). rewrite slice_app. reflexivity.
Qed.

Lemma append_folds_nth (A : Type) (folds : list (list (list A))) parts i : length parts = length folds ->
  i < length folds -> nth i (append_folds folds parts) [] = nth i folds [] ++ [nth i parts []].
Proof.
  intros HL Hi. unfold append_folds.
  rewrite (nth_indep _ [] ((fun fp : list (list A) * list A => fst fp ++ [snd fp]) ([], [])))
    by (rewrite map_length, combine_length; lia).
  rewrite (map_nth (fun fp : list (list A) * list A => fst fp ++ [snd fp])), combine_nth by auto. reflexivity.
Qed.

Lemma split_fold (A : Type) (shuffle : nat -> list A -> list A) ratios : forall data s folds,
  length folds = length ratios ->
  let out := fold_left (fun folds es =>
        append_folds folds (cut (length (snd es)) (shuffle (fst es) (snd es)) 0 ratios))
      (combine (seq s (length data)) data) folds in
  length out = length ratios /\
  forall i, i < length ratios -> nth i out [] = nth i folds [] ++
    map (fun es => nth i (cut (length (snd es)) (shuffle (fst es) (snd es)) 0 ratios) [])
        (combine (seq s (length data)) data).
Proof.
  induction data as [|d data IH]; intros s folds HL; cbn [length seq combine fold_left map].
  - split; auto. intros. now rewrite app_nil_r.
  - cbn [fst snd].
    assert (HL' : length (append_folds folds (cut (length d) (shuffle s d) 0 ratios)) = length ratios).
    { unfold append_folds. rewrite map_length, combine_length, cut_length. lia. }
    destruct (IH (S s) _ HL') as (H1 & H2). split; auto. intros i Hi. rewrite H2 by auto.
    rewrite append_folds_nth by (rewrite ?cut_length; lia). now rewrite <- app_assoc.
Qed.

Lemma split_data_spec (A : Type) (shuffle : nat -> list A -> list A) data ratios :
  (forall e l, Permutation (shuffle e l) l) -> (forall r, In r ratios -> (0 <= r)%Q) ->
  (~ (fold_right Qplus 0 ratios == 1)%Q -> split_data shuffle data ratios = Err ValueError) /\
  ((fold_right Qplus 0 ratios == 1)%Q -> exists folds, split_data shuffle data ratios = Ok folds /\
    length folds = length ratios /\
    (forall f, In f folds -> length f = length data) /\
    forall e sample, nth_error data e = Some sample -> exists pi, Permutation pi sample /\
      (forall i, i < length ratios -> nth e (nth i folds []) [] =
         slice (fold_start (length sample) ratios i) (fold_size (length sample) (nth i ratios 0%Q)) pi) /\
      concat (map (fun f => nth e f []) folds) = firstn (fold_start (length sample) ratios (length ratios)) pi).
Proof.
  intros HS HR. unfold split_data. split; intros HQ.
  - destruct (Qeq_bool (fold_right Qplus 0%Q ratios) 1) eqn:E; auto. apply Qeq_bool_iff in E. easy.
  - apply Qeq_bool_iff in HQ. rewrite HQ. cbn [negb].
    destruct (split_fold A shuffle ratios data 0 (repeat [] (length ratios)) (repeat_length _ _)) as (H1 & H2).
    set (out := fold_left _ _ _) in *. destruct out as [|f0 out'] eqn:EO.
    { destruct ratios; [discriminate HQ | discriminate H1]. }
    rewrite <- EO in *.
    assert (HN : forall i, i < length ratios -> nth i (repeat (@nil (list A)) (length ratios)) [] = []).
    { intros i _. apply nth_repeat. }
    assert (HF : forall f, In f out -> length f = length data).
    { intros f Hf. destruct (In_nth _ _ [] Hf) as (i & Hi & <-). rewrite H1 in Hi. rewrite H2, HN by auto.
      simpl. rewrite map_length, combine_length, seq_length. lia. }
    rewrite (HF f0) by (rewrite EO; simpl; auto). rewrite Nat.eqb_refl.
    exists out. split; [reflexivity|]. split; [exact H1|]. split; [exact HF|].
    intros e sample He. exists (shuffle e sample).
    assert (Hel : e < length data) by (apply nth_error_Some; congruence).
    assert (Es : nth e data [] = sample) by (now apply nth_error_nth).
    assert (HP : forall i, i < length ratios ->
              nth e (nth i out []) [] = nth i (cut (length sample) (shuffle e sample) 0 ratios) []).
    { intros i Hi. rewrite H2, HN by auto. rewrite app_nil_l.
      set (F := fun es : nat * list A => nth i (cut (length (snd es)) (shuffle (fst es) (snd es)) 0 ratios) []).
      rewrite (nth_indep _ [] (F (0, []))) by (rewrite map_length, combine_length, seq_length; lia).
      rewrite map_nth, combine_nth by apply seq_length. rewrite seq_nth by auto. rewrite Es. reflexivity. }
    split; [apply HS|]. split.
    + intros i Hi. rewrite HP, cut_nth by auto. reflexivity.
    + assert (map (fun f => nth e f []) out = cut (length sample) (shuffle e sample) 0 ratios) as ->.
      { apply (nth_ext _ _ [] []); [now rewrite map_length, cut_length, H1|]. intros i Hi. rewrite map_length in Hi.
        rewrite (nth_indep _ [] ((fun f : list (list A) => nth e f []) [])) by (rewrite map_length; auto).
        rewrite (map_nth (fun f : list (list A) => nth e f [])). apply HP. now rewrite <- H1. }
      rewrite cut_concat. reflexivity.
Qed.

Lemma split_data_parts (A : Type) (shuffle : nat -> list A -> list A) data ratios :
  (forall e l, Permutation (shuffle e l) l) -> (forall r, In r ratios -> (0 <= r)%Q) ->
  (~ (fold_right Qplus 0 ratios == 1)%Q -> split_data shuffle data ratios = Err ValueError) /\
  ((fold_right Qplus 0 ratios == 1)%Q -> exists folds, split_data shuffle data ratios = Ok folds /\
    length folds = length ratios /\
    (forall f, In f folds -> length f = length data) /\
    forall e sample, nth_error data e = Some sample -> exists pi sizes, Permutation pi sample /\
      length sizes = length ratios /\
      (forall i, i < length ratios ->
         nearest_even (inject_Z (Z.of_nat (length sample)) * nth i ratios 0%Q) (Z.of_nat (nth i sizes 0)) /\
         nth e (nth i folds []) [] = part (total (firstn i sizes)) (nth i sizes 0) pi) /\
      Permutation (concat (map (fun f => nth e f []) folds) ++ skipn (total sizes) pi) sample).
Proof.
  intros HS HR. destruct (split_data_spec A shuffle data ratios HS HR) as (H1 & H2). split; auto.
  intros HQ. destruct (H2 HQ) as (folds & E & L & LF & H). exists folds. split; auto. split; auto. split; auto.
  intros e sample He. destruct (H e sample He) as (pi & P & HP & HC).
  set (n := length sample) in *. exists pi, (map (fold_size n) ratios). split; auto. split; [apply map_length|].
  assert (HT : forall i, total (firstn i (map (fold_size n) ratios)) = fold_start n ratios i)
    by (intros i; unfold total, fold_start; now rewrite firstn_map).
  split.
  - intros i Hi.
    assert (HN : nth i (map (fold_size n) ratios) 0 = fold_size n (nth i ratios 0%Q)).
    { rewrite (nth_indep _ 0 (fold_size n 0%Q)) by (rewrite map_length; auto). apply map_nth. }
    rewrite HN, HT. split; [|apply HP; auto]. unfold fold_size.
    destruct (round_half_even_spec (inject_Z (Z.of_nat n) * nth i ratios 0%Q)) as (A1 & A2 & A3).
    rewrite Z2Nat.id; [split; auto|]. apply A3. apply Qmult_le_0_compat.
    + change 0%Q with (inject_Z 0). rewrite <- Zle_Qle. lia.
    + apply HR, nth_In, Hi.
  - rewrite HC. specialize (HT (length ratios)). rewrite <- (map_length (fold_size n)), firstn_all in HT.
    rewrite map_length in HT. rewrite <- HT, firstn_skipn. exact P.
Qed.

Lemma nearest_even_int z y : nearest_even (inject_Z z) y -> y = z.
Proof.
  intros (H & _). destruct (Z.lt_total y z) as [L|[L|L]]; auto; exfalso.
  - assert (inject_Z y + 1 <= inject_Z z)%Q by (change 1%Q with (inject_Z 1); rewrite <- inject_Z_plus, <- Zle_Qle; lia).
    rewrite Qabs_pos in H by lra. lra.
  - assert (inject_Z z + 1 <= inject_Z y)%Q by (change 1%Q with (inject_Z 1); rewrite <- inject_Z_plus, <- Zle_Qle; lia).
    rewrite Qabs_neg in H by lra. lra.
Qed.

Lemma nearest_even_Qeq q q' z : (q == q')%Q -> nearest_even q z -> nearest_even q' z.
Proof. unfold nearest_even. intros E. now rewrite E. Qed.

Lemma total_int_ratios n ratios : forall sizes, length sizes = length ratios ->
  (forall r, In r ratios -> exists z, (inject_Z (Z.of_nat n) * r == inject_Z z)%Q) ->
  (forall i, i < length ratios -> nearest_even (inject_Z (Z.of_nat n) * nth i ratios 0%Q) (Z.of_nat (nth i sizes 0))) ->
  (inject_Z (Z.of_nat (total sizes)) == inject_Z (Z.of_nat n) * fold_right Qplus 0 ratios)%Q.
Proof.
  induction ratios as [|r ratios IH]; intros [|s sizes] HL HZ HN; try discriminate; cbn [total fold_right].
  - simpl. ring.
  - assert (E : (inject_Z (Z.of_nat s) == inject_Z (Z.of_nat n) * r)%Q).
    { destruct (HZ r) as (z & Hz); [simpl; auto|]. specialize (HN 0 ltac:(simpl; lia)). simpl nth in HN.
      apply (nearest_even_Qeq _ _ _ Hz), nearest_even_int in HN. rewrite HN. now symmetry. }
    fold (total sizes). rewrite Nat2Z.inj_add, inject_Z_plus, E, IH; [ring|auto| |].
    + intros r' Hr'. apply HZ. simpl; auto.
    + intros i Hi. apply (HN (S i)). simpl. lia.
Qed.

Lemma split_data_int (A : Type) (shuffle : nat -> list A -> list A) data ratios :
  (forall e l, Permutation (shuffle e l) l) -> (forall r, In r ratios -> (0 <= r)%Q) ->
  (fold_right Qplus 0 ratios == 1)%Q ->
  (forall sample r, In sample data -> In r ratios -> exists z, (inject_Z (Z.of_nat (length sample)) * r == inject_Z z)%Q) ->
  exists folds, split_data shuffle data ratios = Ok folds /\
    forall e sample, nth_error data e = Some sample -> Permutation (concat (map (fun f => nth e f []) folds)) sample.
Proof.
  intros HS HR HQ HZ. destruct (split_data_parts A shuffle data ratios HS HR) as (_ & H).
  destruct (H HQ) as (folds & E & _ & _ & HF). exists folds. split; auto.
  intros e sample He. destruct (HF e sample He) as (pi & sizes & P & L & HP & HC).
  assert (HT : (inject_Z (Z.of_nat (total sizes)) == inject_Z (Z.of_nat (length sample)) * 1)%Q).
  { rewrite <- HQ. apply total_int_ratios; auto.
    - intros r Hr. apply HZ; auto. now apply nth_error_In in He.
    - intros i Hi. apply HP; auto. }
  rewrite Qmult_1_r in HT. apply (proj1 (inject_Z_injective _ _)), Nat2Z.inj in HT.
  rewrite skipn_all2, app_nil_r in HC; auto. rewrite HT. now rewrite (Permutation_length P).
Qed.

(** Five rows and ratios 1/2, 1/4, 1/4: one row is in no fold, whatever the shuffle. *)
Lemma split_data_loses (shuffle : nat -> list nat -> list nat) : (forall e l, Permutation (shuffle e l) l) ->
  exists folds x, split_data shuffle [[0; 1; 2; 3; 4]] [1 # 2; 1 # 4; 1 # 4]%Q = Ok folds /\
    In x [0; 1; 2; 3; 4] /\ forall f, In f folds -> ~ In x (nth 0 f []).
Proof.
  intros HS. destruct (split_data_spec nat shuffle [[0; 1; 2; 3; 4]] [1 # 2; 1 # 4; 1 # 4]%Q HS) as (_ & H).
  { simpl. intros r [<-|[<-|[<-|[]]]]; discriminate. }
  destruct H as (folds & E & _ & _ & H); [reflexivity|].
  destruct (H 0 [0; 1; 2; 3; 4] eq_refl) as (pi & P & _ & HC).
  change (fold_start (length [0; 1; 2; 3; 4]) [1 # 2; 1 # 4; 1 # 4]%Q (length [1 # 2; 1 # 4; 1 # 4]%Q)) with 4 in HC.
  destruct pi as [|a [|b [|c [|d [|x [|y pi]]]]]]; try (apply Permutation_length in P; discriminate P).
  exists folds, x. split; auto. split; [apply (Permutation_in _ P); simpl; auto 6|].
  intros f Hf Hx. assert (Q : In x (firstn 4 [a; b; c; d; x])).
  { rewrite <- HC. apply in_concat. exists (nth 0 f []). split; auto. apply in_map_iff. eauto. }
  assert (ND : NoDup [a; b; c; d; x]).
  { apply (Permutation_NoDup (Permutation_sym P)). repeat constructor; simpl; intuition discriminate. }
  apply (NoDup_remove_2 [a; b; c; d] [] x) in ND. rewrite app_nil_r in ND. auto.
Qed.
