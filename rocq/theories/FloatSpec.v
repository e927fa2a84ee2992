(** Vocabulary for C147. *)
From Coq Require Import List ZArith QArith.
Import ListNotations.
From Verif Require Import Base FloatModel.

(** The order in which numpy adds the ratios, perhaps starting with 0 *)
Definition order_of (ratios : list Q) (t : sum_order) : Prop := leaves t = ratios \/ leaves t = 0%Q :: ratios.

(** A number j / 2^m with j of at most b bits (or 2^b), m at most 53 *)
Definition dyadic (b : Z) (r : Q) : Prop :=
  exists j m : Z, (0 <= j <= 2 ^ b)%Z /\ (0 <= m <= 53)%Z /\ (r == inject_Z j * 2 ^ (- m))%Q.

(** q is one of the numbers k * 2^e with k of at most 53 bits *)
Definition binary64 (q : Q) : Prop := exists k e : Z, (0 <= k < 2 ^ 53)%Z /\ (q == inject_Z k * 2 ^ e)%Q.
