(** What utils.delete should return. *)
From Coq Require Import List Arith.
Import ListNotations.

(** r is l without the elements at the positions at which the mask m is true. *)
Inductive unmasked {V : Type} : list V -> list bool -> list V -> Prop :=
| unmasked_nil : unmasked [] [] []
| unmasked_drop x l m r : unmasked l m r -> unmasked (x :: l) (true :: m) r
| unmasked_keep x l m r : unmasked l m r -> unmasked (x :: l) (false :: m) (x :: r).
