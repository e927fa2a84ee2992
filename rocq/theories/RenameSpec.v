(** Renaming the variables of a graph. *)
From Coq Require Import List Arith ZArith Permutation.
Import ListNotations.
From Verif Require Import Base.

(** The variables 0..p-1 get new names: f i is the new name of i, g the inverse. *)
Definition renaming (p : nat) (f g : nat -> nat) : Prop :=
  (forall i, g (f i) = i) /\ (forall i, f (g i) = i) /\ (forall i, f i < p <-> i < p).

(** The array with renamed rows and columns: entry (f i, f j) is entry (i, j) of A. *)
Definition rename (p : nat) (g : nat -> nat) (A : mat) : mat := mk p (fun i j => get A (g i) (g j)).

(** The result r' is the result r, renamed. *)
Definition renamed (p : nat) (g : nat -> nat) (r r' : res mat) : Prop :=
  match r with Ok M => r' = Ok (rename p g M) | Err e => r' = Err e end.
(** ... up to order *)
Definition renamed_all (p : nat) (g : nat -> nat) (r r' : res (list mat)) : Prop :=
  match r with
  | Ok l => exists l', r' = Ok l' /\ Permutation l' (map (rename p g) l)
  | Err e => r' = Err e
  end.
