(** Shared definitions: exceptions as values, matrices, lists used as sets. *)
From Coq Require Import List Arith ZArith Lia Bool Permutation.
Import ListNotations.
Set Implicit Arguments.

(** * Exceptions *)

(** The Python exceptions the modelled code can end with.  [OutOfFuel] is not
    a Python exception: it marks an exhausted iteration bound of the model. *)
Inductive exn :=
  ValueError | TypeError | AssertionError | NameError | IndexError
| UnboundLocalError | ZeroDivisionError | KeyError | OtherException | OutOfFuel.

Inductive res (A : Type) := Ok (a : A) | Err (e : exn).
Arguments Ok {A} a.
Arguments Err {A} e.

Definition bind {A B} (r : res A) (f : A -> res B) : res B :=
  match r with Ok a => f a | Err e => Err e end.
Notation "'let*' x := r 'in' k" := (bind r (fun x => k))
  (at level 200, x pattern, r at level 100, k at level 200).

(** * Matrices: a 2-d numpy array is the list of its rows *)

Definition mat := list (list Z).

(** [A[i,j]]; 0 outside of the array (numpy raises IndexError there). *)
Definition get (A : mat) (i j : nat) : Z := nth j (nth i A []) 0%Z.

(** The p x p array with entries [f i j]. *)
Definition mk (p : nat) (f : nat -> nat -> Z) : mat :=
  map (fun i => map (f i) (seq 0 p)) (seq 0 p).

(** [A[x,y] = v] on a square array. *)
Definition upd (A : mat) (x y : nat) (v : Z) : mat :=
  mk (length A) (fun i j => if (i =? x) && (j =? y) then v else get A i j).

Definition square (p : nat) (A : mat) : Prop :=
  length A = p /\ Forall (fun r => length r = p) A.

Definition nz (z : Z) : bool := negb (z =? 0)%Z.

(** All index pairs of a p x p array, row-major ([np.where] order). *)
Definition pairs (p : nat) : list (nat * nat) := list_prod (seq 0 p) (seq 0 p).

(** [np.where(cond)] for a p x p array. *)
Definition where2 (p : nat) (f : nat -> nat -> bool) : list (nat * nat) :=
  filter (fun e => f (fst e) (snd e)) (pairs p).

(** [np.where(cond)[0]] for an array of length p. *)
Definition where1 (p : nat) (f : nat -> bool) : list nat := filter f (seq 0 p).

Definition sumZ (l : list Z) : Z := fold_right Z.add 0%Z l.

(** [A.sum(axis=0)[j]] *)
Definition colsum (A : mat) (j : nat) : Z :=
  sumZ (map (fun i => get A i j) (seq 0 (length A))).

(** [A.sum()] *)
Definition msum (A : mat) : Z :=
  sumZ (map (fun e => get A (fst e) (snd e)) (pairs (length A))).

(** [(A == B).all()] for square arrays of the same size. *)
Definition mateqb (A B : mat) : bool :=
  forallb (fun e => (get A (fst e) (snd e) =? get B (fst e) (snd e))%Z) (pairs (length A)).

(** * Lists of nats used as sets *)

Definition memb (x : nat) (l : list nat) : bool := existsb (Nat.eqb x) l.
Definition inter (a b : list nat) : list nat := filter (fun x => memb x b) a.
Definition minus (a b : list nat) : list nat := filter (fun x => negb (memb x b)) a.
Definition union (a b : list nat) : list nat := a ++ minus b a.
Definition subsetb (a b : list nat) : bool := forallb (fun x => memb x b) a.

(** A hash order: how CPython iterates over a set.  The first argument tells call
    sites and iterations apart, so the order may differ at each of them. *)
Record hord := { ho :> nat -> list nat -> list nat;
                 ho_perm : forall k l, Permutation (ho k l) l }.

Definition ho_id : hord := {| ho := fun _ l => l; ho_perm := fun _ l => Permutation_refl l |}.
Definition ho_rev : hord :=
  {| ho := fun _ l => rev l; ho_perm := fun _ l => Permutation_sym (Permutation_rev l) |}.

(** ** Lemmas on lists *)

Lemma memb_In x l : memb x l = true <-> In x l.
Proof.
  unfold memb. rewrite existsb_exists. split.
  - intros (y & Hy & E). apply Nat.eqb_eq in E. now subst.
  - intros H. exists x. split; [easy | apply Nat.eqb_refl].
Qed.

Lemma memb_notIn x l : memb x l = false <-> ~ In x l.
Proof. rewrite <- memb_In. destruct (memb x l); intuition congruence. Qed.

Lemma inter_In x a b : In x (inter a b) <-> In x a /\ In x b.
Proof. unfold inter. rewrite filter_In, memb_In. reflexivity. Qed.

Lemma minus_In x a b : In x (minus a b) <-> In x a /\ ~ In x b.
Proof.
  unfold minus. rewrite filter_In, negb_true_iff, memb_notIn. reflexivity.
Qed.

Lemma union_In x a b : In x (union a b) <-> In x a \/ In x b.
Proof.
  unfold union. rewrite in_app_iff, minus_In.
  destruct (in_dec Nat.eq_dec x a); tauto.
Qed.

Lemma subsetb_incl a b : subsetb a b = true <-> incl a b.
Proof.
  unfold subsetb. rewrite forallb_forall. unfold incl.
  split; intros H x Hx; specialize (H x Hx); now apply memb_In.
Qed.

Lemma NoDup_inter a b : NoDup a -> NoDup (inter a b).
Proof. apply NoDup_filter. Qed.
Lemma NoDup_minus a b : NoDup a -> NoDup (minus a b).
Proof. apply NoDup_filter. Qed.

Lemma NoDup_app (A : Type) (a b : list A) :
  NoDup a -> NoDup b -> (forall x, In x a -> ~ In x b) -> NoDup (a ++ b).
Proof.
  induction a as [|x a IH]; simpl; intros Ha Hb Hd; [easy|].
  inversion Ha; subst. constructor.
  - rewrite in_app_iff. intros [H|H]; [easy|]. apply (Hd x); auto.
  - apply IH; auto.
Qed.

Lemma NoDup_app_inv (A : Type) (a b : list A) :
  NoDup (a ++ b) -> NoDup a /\ NoDup b /\ (forall x, In x a -> ~ In x b).
Proof.
  induction a as [|x a IH]; simpl; intros H.
  - repeat split; auto; constructor.
  - inversion H; subst. destruct (IH H3) as (Ha & Hb & Hd).
    rewrite in_app_iff in H2. repeat split; auto.
    + constructor; tauto.
    + intros y [->|Hy]; [tauto | now apply Hd].
Qed.

Lemma NoDup_union a b : NoDup a -> NoDup b -> NoDup (union a b).
Proof.
  intros Ha Hb. unfold union. apply NoDup_app; auto using NoDup_minus.
  intros x Hx H. apply minus_In in H. tauto.
Qed.

Lemma in_seq0 p x : In x (seq 0 p) <-> x < p.
Proof. rewrite in_seq. lia. Qed.

Lemma pairs_In p i j : In (i, j) (pairs p) <-> i < p /\ j < p.
Proof. unfold pairs. rewrite in_prod_iff, !in_seq0. reflexivity. Qed.

Lemma NoDup_list_prod (A B : Type) (a : list A) (b : list B) :
  NoDup a -> NoDup b -> NoDup (list_prod a b).
Proof.
  induction a as [|x a IH]; simpl; intros Ha Hb; [constructor|].
  inversion Ha; subst. apply NoDup_app; auto.
  - apply FinFun.Injective_map_NoDup; auto. intros u v E. congruence.
  - intros [u v] H. apply in_map_iff in H. destruct H as (w & E & _). inversion E; subst.
    rewrite in_prod_iff. tauto.
Qed.

Lemma NoDup_pairs p : NoDup (pairs p).
Proof. apply NoDup_list_prod; apply seq_NoDup. Qed.

Lemma where2_In p f i j : In (i, j) (where2 p f) <-> i < p /\ j < p /\ f i j = true.
Proof. unfold where2. rewrite filter_In, pairs_In. simpl. tauto. Qed.

Lemma NoDup_where2 p f : NoDup (where2 p f).
Proof. apply NoDup_filter, NoDup_pairs. Qed.

Lemma where1_In p f i : In i (where1 p f) <-> i < p /\ f i = true.
Proof. unfold where1. rewrite filter_In, in_seq0. tauto. Qed.

Lemma NoDup_where1 p f : NoDup (where1 p f).
Proof. apply NoDup_filter, seq_NoDup. Qed.

Lemma ho_In (h : hord) k l x : In x (h k l) <-> In x l.
Proof.
  split; apply Permutation_in; [apply ho_perm | apply Permutation_sym, ho_perm].
Qed.

Lemma ho_NoDup (h : hord) k l : NoDup l -> NoDup (h k l).
Proof. apply Permutation_NoDup, Permutation_sym, ho_perm. Qed.

Lemma ho_length (h : hord) k l : length (h k l) = length l.
Proof. apply Permutation_length, ho_perm. Qed.

Lemma existsb_false (A : Type) (f : A -> bool) l :
  existsb f l = false <-> forall x, In x l -> f x = false.
Proof.
  split.
  - intros H x Hx. destruct (f x) eqn:E; [|easy].
    assert (existsb f l = true) by (apply existsb_exists; eauto). congruence.
  - intros H. destruct (existsb f l) eqn:E; [|easy].
    apply existsb_exists in E. destruct E as (x & Hx & E). rewrite H in E; easy.
Qed.

Lemma forallb_false (A : Type) (f : A -> bool) l :
  forallb f l = false <-> exists x, In x l /\ f x = false.
Proof.
  induction l as [|a l IH]; simpl.
  - split; [easy | intros (x & [] & _)].
  - rewrite andb_false_iff, IH. split.
    + intros [E | (x & Hx & E)]; eauto.
    + intros (x & [->|Hx] & E); eauto.
Qed.

Lemma incl_NoDup_length (A : Type) (a b : list A) :
  NoDup a -> incl a b -> length a <= length b.
Proof. intros H1 H2. now apply NoDup_incl_length. Qed.

Lemma seq_snoc a n : seq a (S n) = seq a n ++ [a + n].
Proof. replace (S n) with (n + 1) by lia. now rewrite seq_app. Qed.

(** ** Lemmas on matrices *)

Lemma nz_true z : nz z = true <-> z <> 0%Z.
Proof. unfold nz. rewrite negb_true_iff, Z.eqb_neq. reflexivity. Qed.
Lemma nz_false z : nz z = false <-> z = 0%Z.
Proof. unfold nz. rewrite negb_false_iff, Z.eqb_eq. reflexivity. Qed.

Lemma mk_length p f : length (mk p f) = p.
Proof. unfold mk. now rewrite map_length, seq_length. Qed.

Lemma mk_square p f : square p (mk p f).
Proof.
  split; [apply mk_length|]. unfold mk. apply Forall_forall. intros r Hr.
  apply in_map_iff in Hr. destruct Hr as (i & <- & _). now rewrite map_length, seq_length.
Qed.

Lemma nth_map_seq (A : Type) (f : nat -> A) p i d : i < p -> nth i (map f (seq 0 p)) d = f i.
Proof.
  intros H. rewrite nth_indep with (d' := f 0) by (now rewrite map_length, seq_length).
  rewrite map_nth, seq_nth; auto.
Qed.

Lemma get_mk p f i j : i < p -> j < p -> get (mk p f) i j = f i j.
Proof. intros Hi Hj. unfold get, mk. rewrite nth_map_seq by easy. now rewrite nth_map_seq. Qed.

Lemma get_out p A i j : square p A -> ~ (i < p /\ j < p) -> get A i j = 0%Z.
Proof.
  intros (HL & HR) H. unfold get. destruct (lt_dec i p) as [Hi|Hi].
  - rewrite nth_overflow; [easy|].
    rewrite Forall_forall in HR. rewrite (HR (nth i A [])); [lia | apply nth_In; lia].
  - rewrite (nth_overflow A); [now destruct j | lia].
Qed.

Lemma get_mk_out p f i j : ~ (i < p /\ j < p) -> get (mk p f) i j = 0%Z.
Proof. apply get_out, mk_square. Qed.

Lemma get_mk' p f i j : get (mk p f) i j = if (i <? p) && (j <? p) then f i j else 0%Z.
Proof.
  destruct (Nat.ltb_spec i p); destruct (Nat.ltb_spec j p); simpl;
    try (apply get_mk_out; lia). now apply get_mk.
Qed.

Lemma list_ext (A : Type) (d : A) (a b : list A) :
  length a = length b -> (forall i, i < length a -> nth i a d = nth i b d) -> a = b.
Proof. intros HL H. now apply nth_ext with d d. Qed.

Lemma mat_ext p A B : square p A -> square p B ->
  (forall i j, i < p -> j < p -> get A i j = get B i j) -> A = B.
Proof.
  intros (HA & FA) (HB & FB) H. apply (@list_ext _ []); [congruence|].
  intros i Hi. rewrite Forall_forall in FA, FB.
  assert (length (nth i A []) = p) by (apply FA, nth_In; lia).
  assert (length (nth i B []) = p) by (apply FB, nth_In; lia).
  apply (@list_ext _ 0%Z); [congruence|]. intros j Hj. apply H; lia.
Qed.

Lemma mk_get p A : square p A -> mk p (get A) = A.
Proof. intros H. apply mat_ext with p; auto using mk_square. intros. now apply get_mk. Qed.

Lemma mk_ext p f g : (forall i j, i < p -> j < p -> f i j = g i j) -> mk p f = mk p g.
Proof.
  intros H. apply mat_ext with p; auto using mk_square. intros. rewrite !get_mk; auto.
Qed.

Lemma upd_length A x y v : length (upd A x y v) = length A.
Proof. apply mk_length. Qed.

Lemma upd_square p A x y v : square p A -> square p (upd A x y v).
Proof. intros (H & _). unfold upd. rewrite H. apply mk_square. Qed.

Lemma get_upd p A x y v i j : square p A -> x < p -> y < p ->
  get (upd A x y v) i j = if (i =? x) && (j =? y) then v else get A i j.
Proof.
  intros HA Hx Hy. pose proof HA as (HL & _). unfold upd. rewrite HL.
  destruct (lt_dec i p); [destruct (lt_dec j p)|].
  - now apply get_mk.
  - rewrite get_mk_out, (get_out (i:=i) (j:=j) HA) by lia.
    destruct (Nat.eqb_spec i x), (Nat.eqb_spec j y); simpl; auto; lia.
  - rewrite get_mk_out, (get_out (i:=i) (j:=j) HA) by lia.
    destruct (Nat.eqb_spec i x), (Nat.eqb_spec j y); simpl; auto; lia.
Qed.

Lemma get_upd_same p A x y v : square p A -> x < p -> y < p -> get (upd A x y v) x y = v.
Proof. intros. rewrite (get_upd _ _ _ H) by easy. now rewrite !Nat.eqb_refl. Qed.

Lemma get_upd_other p A x y v i j : square p A -> x < p -> y < p ->
  ~ (i = x /\ j = y) -> get (upd A x y v) i j = get A i j.
Proof.
  intros. rewrite (get_upd _ _ _ H) by easy.
  destruct (Nat.eqb_spec i x), (Nat.eqb_spec j y); simpl; auto; lia.
Qed.

Arguments get_upd_other {p A x y} v {i j}.

Lemma square_length p A : square p A -> length A = p.
Proof. now intros (H & _). Qed.

Lemma get_lt p A i j : square p A -> get A i j <> 0%Z -> i < p /\ j < p.
Proof.
  intros H H'. destruct (lt_dec i p), (lt_dec j p); auto; exfalso; apply H', (get_out H); lia.
Qed.

Arguments get_lt {p A i j}.

Lemma mateqb_eq p A B : square p A -> square p B -> (mateqb A B = true <-> A = B).
Proof.
  intros HA HB. unfold mateqb. rewrite (square_length HA), forallb_forall. split.
  - intros H. apply mat_ext with p; auto. intros i j Hi Hj.
    apply Z.eqb_eq, (H (i, j)). now apply pairs_In.
  - intros ->. intros. apply Z.eqb_refl.
Qed.

(** ** Sums *)

Lemma sumZ_app a b : sumZ (a ++ b) = (sumZ a + sumZ b)%Z.
Proof. induction a; simpl; lia. Qed.

Lemma sumZ_nonneg l : (forall x, In x l -> 0 <= x)%Z -> (0 <= sumZ l)%Z.
Proof.
  induction l as [|a l IH]; simpl; intros H; [lia|].
  pose proof (H a (or_introl eq_refl)). assert (0 <= sumZ l)%Z by (apply IH; auto). lia.
Qed.

Lemma sumZ_zero l : (forall x, In x l -> 0 <= x)%Z ->
  (sumZ l = 0 <-> forall x, In x l -> x = 0)%Z.
Proof.
  induction l as [|a l IH]; simpl; intros H; [split; auto; intros _ ? []|].
  pose proof (H a (or_introl eq_refl)).
  assert (0 <= sumZ l)%Z by (apply sumZ_nonneg; auto).
  assert (IH' := IH (fun x Hx => H x (or_intror Hx))). split.
  - intros E x [->|Hx]; [lia|]. apply IH'; [lia | easy].
  - intros E. rewrite (E a) by auto. simpl. apply IH'. auto.
Qed.

Definition nonneg (A : mat) : Prop := forall i j, (0 <= get A i j)%Z.
Definition binary (A : mat) : Prop := forall i j, get A i j = 0%Z \/ get A i j = 1%Z.

Lemma binary_nonneg A : binary A -> nonneg A.
Proof. intros H i j. destruct (H i j); lia. Qed.

Lemma colsum_zero p A j : square p A -> nonneg A ->
  (colsum A j = 0%Z <-> forall i, get A i j = 0%Z).
Proof.
  intros HA H. unfold colsum. rewrite sumZ_zero.
  - rewrite (square_length HA). split.
    + intros E i. destruct (lt_dec i p) as [Hi|Hi].
      * apply E. apply in_map_iff. exists i. rewrite in_seq0. auto.
      * apply (get_out HA). lia.
    + intros E x Hx. apply in_map_iff in Hx. destruct Hx as (i & <- & _). auto.
  - intros x Hx. apply in_map_iff in Hx. destruct Hx as (i & <- & _). auto.
Qed.

Lemma msum_nonneg A : nonneg A -> (0 <= msum A)%Z.
Proof.
  intros H. apply sumZ_nonneg. intros x Hx. apply in_map_iff in Hx.
  destruct Hx as ([i j] & <- & _). apply H.
Qed.

Lemma msum_zero p A : square p A -> nonneg A -> (msum A = 0%Z <-> forall i j, get A i j = 0%Z).
Proof.
  intros HA H. unfold msum. rewrite sumZ_zero.
  - rewrite (square_length HA). split.
    + intros E i j. destruct (lt_dec i p), (lt_dec j p); try (apply (get_out HA); lia).
      apply E. apply in_map_iff. exists (i, j). rewrite pairs_In. auto.
    + intros E x Hx. apply in_map_iff in Hx. destruct Hx as ([i j] & <- & _). auto.
  - intros x Hx. apply in_map_iff in Hx. destruct Hx as ([i j] & <- & _). apply H.
Qed.
