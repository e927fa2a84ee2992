(** Model of normalized_var (utils.py), which no other function uses. *)
From Coq Require Import ZArith.
From mathcomp Require Import all_ssreflect all_algebra.
From Verif Require Import Base.
Set Implicit Arguments.
Unset Strict Implicit.
Unset Printing Implicit Defensive.
Import Order.Theory GRing.Theory Num.Theory.
Local Open Scope ring_scope.

Section Nvar.
Variable F : realFieldType.

(** np.mean of a one-dimensional array, and np.var: the mean of the squared deviations from the mean.
    (An empty array is excluded by nvar below.) *)
Definition np_mean (x : seq F) : F := (\sum_(a <- x) a) / (size x)%:R.
Definition np_var (x : seq F) : F := np_mean [seq (a - np_mean x) ^+ 2 | a <- x].

(** One entry of the result; None is nan (0 / 0, and the mean of an empty array). *)
Definition nvar (x : seq F) : option F :=
  let exp_of_square := np_mean [seq a ^+ 2 | a <- x] in
  if exp_of_square == 0 then None else Some (np_var x / exp_of_square).

(** normalized_var: utils.py 47-51, for a two-dimensional array.  With axis=None the result is one number, otherwise
    it has one per column (axis 0 or -2) or per row (axis 1 or -1).  Other axes: numpy.AxisError, a ValueError. *)
Definition normalized_var (a b : nat) (X : 'M[F]_(a, b)) (axis : option Z) : res (seq (option F)) :=
  match axis with
  | None => Ok [:: nvar [seq X i j | i <- enum 'I_a, j <- enum 'I_b]]
  | Some k => if Z.eqb k Z0 || Z.eqb k (Zneg (xO xH)) then Ok [seq nvar [seq X i j | i <- enum 'I_a] | j <- enum 'I_b]
              else if Z.eqb k (Zpos xH) || Z.eqb k (Zneg xH) then Ok [seq nvar [seq X i j | j <- enum 'I_b] | i <- enum 'I_a]
              else Err ValueError
  end.
End Nvar.
