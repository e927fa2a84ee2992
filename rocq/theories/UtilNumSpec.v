(** The normalised variance of a list of numbers. *)
From mathcomp Require Import all_ssreflect all_algebra.
Set Implicit Arguments.
Unset Strict Implicit.
Unset Printing Implicit Defensive.
Import Order.Theory GRing.Theory Num.Theory.
Local Open Scope ring_scope.

(** r is the normalised variance of x: undefined (None) if all are 0; otherwise 1 - v is the squared sum over
    n times the sum of squares, a number in [0, 1] that tells constant data (v = 0) and centred data (v = 1). *)
Definition normalised (F : realFieldType) (x : seq F) (r : option F) : Prop :=
  match r with
  | None => forall a, a \in x -> a = 0
  | Some v => [/\ exists2 a, a \in x & a != 0,
                  (\sum_(a <- x) a) ^+ 2 = (1 - v) * ((size x)%:R * \sum_(a <- x) a ^+ 2),
                  0 <= v <= 1,
                  v = 0 <-> (forall a b, a \in x -> b \in x -> a = b) &
                  v = 1 <-> \sum_(a <- x) a = 0]
  end.
