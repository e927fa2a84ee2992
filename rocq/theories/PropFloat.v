(** Property C147: split_data with ratios that are floats. *)
From Coq Require Import List ZArith QArith Qabs.
Import ListNotations.
From Verif Require Import Base ListModel FloatModel FloatSpec FloatProofs.
Local Open Scope Z_scope.

(** C147 is false: three positive ratios, given as decimals with two digits that sum to 1, are rejected, in whatever order
    numpy adds them. *)
Theorem C147_decimals_refuted : exists l : list Z, fold_right Z.add 0 l = 100 /\ length l = 3%nat /\ (forall n, In n l -> 0 < n) /\
  forall (A : Type) t (shuffle : nat -> list A -> list A) data,
    order_of (map (fun n => fl (n # 100)) l) t -> split_floats t shuffle data (map (fun n => fl (n # 100)) l) = Err ValueError.
Proof. exact float_ratios. Qed.
Print Assumptions C147_decimals_refuted.

(** It holds for ratios j / 2^m with j of at most b bits and samples of at most 2^(53-b) rows: no operation rounds, so that the
    result is that of split_data on rationals (C37).  (Missing: other floats.) *)
Theorem C147_dyadic_partial : forall (A : Type) b t (shuffle : nat -> list A -> list A) data ratios, 0 <= b <= 53 -> order_of ratios t ->
  (forall r, In r ratios -> dyadic b r) -> (fold_right Qplus 0 ratios == 1)%Q ->
  (forall s, In s data -> Z.of_nat (length s) <= 2 ^ (53 - b)) ->
  split_floats t shuffle data ratios = split_data shuffle data ratios.
Proof. exact split_dyadic. Qed.
Print Assumptions C147_dyadic_partial.

(** The rounding of the model is to the nearest number of 53 bits: the error is at most half the distance of its neighbours, and
    numbers with 53 bits are not rounded. *)
Theorem C147_rounding : forall q, (0 < q)%Q ->
  (Qabs (q - fl q) <= 2 ^ (log2 q - 53))%Q /\
  exists k, 2 ^ 52 <= k <= 2 ^ 53 /\ (fl q == inject_Z k * 2 ^ (log2 q - 52))%Q.
Proof. exact fl_near. Qed.
Print Assumptions C147_rounding.

Theorem C147_exact : forall q, binary64 q -> (fl q == q)%Q.
Proof. exact fl_binary64. Qed.
Print Assumptions C147_exact.
