(** Vocabulary of PropCost.v. *)
From Coq Require Import List.
From mathcomp Require Import all_ssreflect all_algebra.
From Verif Require Import Base CacheSpec ScoreModel.
Set Implicit Arguments.
Unset Strict Implicit.
Unset Printing Implicit Defensive.

(** No pair of a graph and a set of targets occurs twice in the cache. *)
Definition pairs_once (M S : Type) (c : cache M S) : Prop :=
  forall i j, (i < j < size (cAs c))%N -> nth [::] (cAs c) i = nth [::] (cAs c) j ->
  ~ same_set (nth [::] (cIs c) i) (nth [::] (cIs c) j).
