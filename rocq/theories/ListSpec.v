(** Specifications used by the properties of the list utilities. *)
From Coq Require Import List Arith ZArith QArith Qabs.
Import ListNotations.
Open Scope nat_scope.

(** The r-th combination in lexicographic order of positions: mixed-radix digits, last position fastest. *)
Fixpoint digits (sizes : list nat) (r : nat) : list nat :=
  match sizes with
  | [] => []
  | s :: rest => let m := fold_right Nat.mul 1 rest in (r / m) mod s :: digits rest r
  end.

(** z is the integer nearest to q, the even one if there are two. *)
Definition nearest_even (q : Q) (z : Z) : Prop :=
  (Qabs (q - inject_Z z) <= 1 # 2)%Q /\ ((Qabs (q - inject_Z z) == 1 # 2)%Q -> Z.even z = true).

(** A part of a list. *)
Definition part {A : Type} (start size : nat) (l : list A) : list A := firstn size (skipn start l).

Definition total (sizes : list nat) : nat := fold_right Nat.add 0 sizes.
