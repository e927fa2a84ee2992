(** The sizes of the folds (C106). *)
From Coq Require Import List Arith ZArith QArith Qabs Permutation Lia.
Import ListNotations.
From Verif Require Import Base ListModel ListSpec ListProofs.
Open Scope nat_scope.

Lemma nearest_half n z : nearest_even (inject_Z (Z.of_nat n) * (1 # 2)) (Z.of_nat z) ->
  2 * z <= n + 1 /\ n <= 2 * z + 1 /\ (2 * z <> n -> exists k, z = 2 * k).
Proof.
  intros [H1 H2]. apply Qabs_Qle_condition in H1. destruct H1 as [H1 H3].
  unfold Qle, Qminus, Qopp, Qplus, Qmult, inject_Z in H1, H3. simpl in H1, H3.
  assert (2 * z <= n + 1) by lia. assert (n <= 2 * z + 1) by lia. split; [lia|]. split; [lia|]. intro N.
  assert (E : Z.even (Z.of_nat z) = true).
  { apply H2. assert (D : 2 * z = n + 1 \/ 2 * z + 1 = n) by lia.
    destruct D as [D|D].
    - rewrite Qabs_neg; unfold Qeq, Qle, Qminus, Qopp, Qplus, Qmult, inject_Z; simpl; lia.
    - rewrite Qabs_pos; unfold Qeq, Qle, Qminus, Qopp, Qplus, Qmult, inject_Z; simpl; lia. }
  apply Z.even_spec in E. destruct E as [k E]. exists (Z.to_nat k). lia.
Qed.
Lemma nearest_quarter n z : nearest_even (inject_Z (Z.of_nat n) * (1 # 4)) (Z.of_nat z) ->
  4 * z <= n + 2 /\ n <= 4 * z + 2 /\ ((4 * z = n + 2 \/ n = 4 * z + 2) -> exists k, z = 2 * k).
Proof.
  intros [H1 H2]. apply Qabs_Qle_condition in H1. destruct H1 as [H1 H3].
  unfold Qle, Qminus, Qopp, Qplus, Qmult, inject_Z in H1, H3. simpl in H1, H3.
  split; [lia|]. split; [lia|]. intro D.
  assert (E : Z.even (Z.of_nat z) = true).
  { apply H2. destruct D as [D|D].
    - rewrite Qabs_neg; unfold Qeq, Qle, Qminus, Qopp, Qplus, Qmult, inject_Z; simpl; lia.
    - rewrite Qabs_pos; unfold Qeq, Qle, Qminus, Qopp, Qplus, Qmult, inject_Z; simpl; lia. }
  apply Z.even_spec in E. destruct E as [k E]. exists (Z.to_nat k). lia.
Qed.

Lemma part_length {A} a b (l : list A) : length (part a b l) = Nat.min b (length l - a).
Proof. unfold part. rewrite firstn_length, skipn_length. reflexivity. Qed.

Notation thirds := [1 # 2; 1 # 4; 1 # 4]%Q.
Lemma folds_sizes {A} (shuffle : nat -> list A -> list A) data : (forall e l, Permutation (shuffle e l) l) ->
  exists tr tg ti, split_data shuffle data thirds = Ok [tr; tg; ti] /\
    length tr = length data /\ length tg = length data /\ length ti = length data /\
    forall e s, nth_error data e = Some s -> exists a b c,
      (2 * a <= length s + 1 /\ length s <= 2 * a + 1 /\ (2 * a <> length s -> exists k, a = 2 * k)) /\
      (4 * b <= length s + 2 /\ length s <= 4 * b + 2 /\ ((4 * b = length s + 2 \/ length s = 4 * b + 2) -> exists k, b = 2 * k)) /\
      (4 * c <= length s + 2 /\ length s <= 4 * c + 2 /\ ((4 * c = length s + 2 \/ length s = 4 * c + 2) -> exists k, c = 2 * k)) /\
      length (nth e tr []) = Nat.min a (length s) /\ length (nth e tg []) = Nat.min b (length s - a) /\
      length (nth e ti []) = Nat.min c (length s - (a + b)).
Proof.
  intros HS.
  destruct (split_data_parts A shuffle data thirds HS) as [_ H].
  { intros r [<-|[<-|[<-|[]]]]; discriminate. }
  destruct H as [folds [E [L [LF H]]]]; [reflexivity|].
  destruct folds as [|tr [|tg [|ti [|? ?]]]]; try discriminate.
  exists tr, tg, ti. split; [exact E|].
  split; [apply LF; simpl; auto|]. split; [apply LF; simpl; auto|]. split; [apply LF; simpl; auto|].
  intros e s Hs. destruct (H e s Hs) as [pi [sizes [P [LS [HP _]]]]].
  destruct sizes as [|a [|b [|c [|? ?]]]]; try discriminate.
  exists a, b, c.
  destruct (HP 0) as [A1 A2]; [simpl; lia|]. destruct (HP 1) as [B1 B2]; [simpl; lia|]. destruct (HP 2) as [C1 C2]; [simpl; lia|].
  simpl in A1, A2, B1, B2, C1, C2. apply Permutation_length in P.
  split; [exact (nearest_half _ _ A1)|]. split; [exact (nearest_quarter _ _ B1)|]. split; [exact (nearest_quarter _ _ C1)|].
  rewrite A2, B2, C2, !part_length, P. split; [|split]; f_equal; lia.
Qed.

Lemma folds_enough {A} (shuffle : nat -> list A -> list A) data : (forall e l, Permutation (shuffle e l) l) ->
  (forall s, In s data -> 8 <= length s) ->
  exists tr tg ti, split_data shuffle data thirds = Ok [tr; tg; ti] /\
    forall f s, In f [tr; tg; ti] -> In s f -> 2 <= length s.
Proof.
  intros HS HD. destruct (folds_sizes shuffle data HS) as [tr [tg [ti [E [L0 [L1 [L2 H]]]]]]].
  exists tr, tg, ti. split; [exact E|]. intros f s Hf Hs.
  assert (Lf : length f = length data) by (destruct Hf as [<-|[<-|[<-|[]]]]; assumption).
  apply In_nth with (d := []) in Hs. destruct Hs as [e [He Es]]. rewrite Lf in He.
  destruct (nth_error data e) as [s0|] eqn:N; [|apply nth_error_None in N; lia].
  assert (N8 := HD s0 (nth_error_In _ _ N)).
  destruct (H e s0 N) as [a [b [c [[A1 [A2 A3]] [[B1 [B2 B3]] [[C1 [C2 C3]] [E0 [E1 E2]]]]]]]].
  destruct Hf as [<-|[<-|[<-|[]]]]; rewrite <- Es.
  - lia.
  - lia.
  - rewrite E2. destruct (Nat.eq_dec (2 * a) (length s0)) as [D|D].
    + lia.
    + destruct (A3 D) as [k Hk]. destruct (Nat.eq_dec (4 * b) (length s0 + 2)) as [D'|D'].
      * destruct (B3 (or_introl D')) as [k' Hk']. lia.
      * lia.
Qed.
Lemma folds_small {A} (shuffle : nat -> list A -> list A) data e s : (forall e l, Permutation (shuffle e l) l) ->
  nth_error data e = Some s -> 3 <= length s <= 7 ->
  exists tr tg ti, split_data shuffle data thirds = Ok [tr; tg; ti] /\ 2 <= length (nth e tr []) /\ length (nth e ti []) <= 1.
Proof.
  intros HS N HN. destruct (folds_sizes shuffle data HS) as [tr [tg [ti [E [_ [_ [_ H]]]]]]].
  exists tr, tg, ti. split; [exact E|].
  destruct (H e s N) as [a [b [c [[A1 [A2 A3]] [[B1 [B2 B3]] [[C1 [C2 C3]] [E0 [E1 E2]]]]]]]].
  rewrite E0, E2. destruct (Nat.eq_dec (2 * a) (length s)) as [D|D].
  - destruct (Nat.eq_dec (length s) 6) as [D6|]; [|split; lia].
    destruct B3 as [k Hk]; [lia|]. split; lia.
  - destruct (A3 D) as [k Hk]. split; [lia|]. lia.
Qed.
Lemma folds_single {A} (shuffle : nat -> list A -> list A) data e s : (forall e l, Permutation (shuffle e l) l) ->
  nth_error data e = Some s -> length s = 1 ->
  exists tr tg ti, split_data shuffle data thirds = Ok [tr; tg; ti] /\ nth e tr [] = [].
Proof.
  intros HS N HN. destruct (folds_sizes shuffle data HS) as [tr [tg [ti [E [_ [_ [_ H]]]]]]].
  exists tr, tg, ti. split; [exact E|].
  destruct (H e s N) as [a [b [c [[A1 [A2 A3]] [_ [_ [E0 _]]]]]]].
  destruct A3 as [k Hk]; [lia|]. apply length_zero_iff_nil. rewrite E0. lia.
Qed.
Lemma folds_two {A} (shuffle : nat -> list A -> list A) data e s : (forall e l, Permutation (shuffle e l) l) ->
  nth_error data e = Some s -> length s = 2 ->
  exists tr tg ti, split_data shuffle data thirds = Ok [tr; tg; ti] /\ length tr = length data /\ length (nth e tr []) = 1.
Proof.
  intros HS N HN. destruct (folds_sizes shuffle data HS) as [tr [tg [ti [E [L [_ [_ H]]]]]]].
  exists tr, tg, ti. split; [exact E|]. split; [exact L|].
  destruct (H e s N) as [a [b [c [[A1 [A2 A3]] [_ [_ [E0 _]]]]]]].
  rewrite E0. lia.
Qed.
