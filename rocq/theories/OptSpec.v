(** What the results on minima of the score need of the logarithm, and termination. *)
From mathcomp Require Import all_ssreflect all_algebra.
From Verif Require Import Base NumSpec NumModel ScoreModel ScoreSpec.
Set Implicit Arguments.
Unset Strict Implicit.
Unset Printing Implicit Defensive.
Import Order.Theory GRing.Theory Num.Theory.
Local Open Scope ring_scope.

Section Log.
Variable F : realFieldType.

(** log increases, and the tangent at c lies above it, in all coordinates of a product. *)
Definition log_tangent (log : F -> F) (n : nat) (c : F) : Prop :=
  (forall x y, 0 < x -> x <= y -> log x <= log y) /\
  (forall x : 'I_n -> F, (forall i, 0 < x i) -> log (c * \prod_i x i) <= log c + \sum_i (x i - 1)).
(** ... strictly. *)
Definition log_tangent_strict (log : F -> F) (n : nat) (c : F) : Prop :=
  [/\ log_tangent log n c, (forall x y, 0 < x -> x < y -> log x < log y) &
      (forall x : 'I_n -> F, (forall i, 0 < x i) -> log (c * \prod_i x i) = log c + \sum_i (x i - 1) -> forall i, x i = 1)].
(** The logarithm does both at all c > 0: theorem C96_logarithm. *)
Definition log_like (log : F -> F) : Prop :=
  (forall x y, 0 < x -> 0 < y -> log (x * y) = log x + log y) /\ (forall x, 0 < x -> log x <= x - 1).
End Log.

(** From some bound on the number of iterations on, the result is r. *)
Definition settles (T : Type) (f : nat -> res T) (r : res T) : Prop := exists n, forall k, (n <= k)%N -> f k = r.

(** The solver for B ends, with or without an exception, on every model over the graph A with valid variances. *)
Definition B_ends (F : realFieldType) (p l e : nat) (cf : conf F p l e) (A : mat) : Prop :=
  forall (m : model F p l e) rnd rnd', mA m = A -> positive (momegas m) -> (forall a b, 0 <= mpsis m a b) ->
  exists r, settles (fun k => solve_B (with_fuel cf k) m rnd rnd') r /\ r <> Err OutOfFuel.
