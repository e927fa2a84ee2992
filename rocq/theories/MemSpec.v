(** Vocabulary of PropMem.v: what a call of a function leaves in the memory. *)
From Coq Require Import List Arith.
Import ListNotations.
From Verif Require Import Base MemModel.

(** All arrays of H are still there, with the same entries. *)
Definition keeps (H H' : heap) : Prop := forall a, a < length H -> a < length H' /\ cell H' a = cell H a.

(** c is an array that was made after H; its entries are A. *)
Definition made (H H' : heap) (c : nat) (A : mat) : Prop := length H <= c /\ c < length H' /\ cell H' c = A.

(** Two calls, one on a memory and one on values, end with exceptions of the same class, or with results that are related by R. *)
Definition agree {T U} (R : T -> U -> Prop) (x : res T) (y : res U) : Prop :=
  match x, y with Ok t, Ok u => R t u | Err e, Err e' => e = e' | _, _ => False end.

(** The program m, started on H, changes no array of H, and returns the value of r, a new array with the entries of r, or new
    arrays, one for each element of r, that are different from each other. *)
Definition returns_value {T} (m : prog T) (H : heap) (r : res T) : Prop :=
  keeps H (fst (m H)) /\ agree eq (snd (m H)) r.
Definition returns_array (m : prog nat) (H : heap) (r : res mat) : Prop :=
  keeps H (fst (m H)) /\ agree (made H (fst (m H))) (snd (m H)) r.
Definition returns_arrays (m : prog (list nat)) (H : heap) (r : res (list mat)) : Prop :=
  keeps H (fst (m H)) /\ agree (fun cs As => NoDup cs /\ Forall2 (made H (fst (m H))) cs As) (snd (m H)) r.
