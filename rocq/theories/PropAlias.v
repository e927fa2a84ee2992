(** Property C115: pruning changes adjacencies in place, which cannot be observed. *)
From Coq Require Import ZArith.
From mathcomp Require Import all_ssreflect all_algebra.
From Verif Require Import Base NumModel ScoreModel MainModel AliasModel AliasSpec AliasProofs.
Local Open Scope nat_scope.

(** C115.  On arrays that are changed in place, _prune_graphs has the outcome and leaves the cache of the program on values, changes
    no array that existed before the call, among them those of the caller, of the cache and of models returned before, and
    keeps the references in the cache valid. *)
Theorem C115_in_place : forall (F : realFieldType) (p l e : nat) (cf : conf F p l e) (rnds : nat -> nat -> 'M[F]_p * 'M[F]_p)
    (fuel : nat) (prune : bool) (threshold : option F) (st : state F p l e) (gs : seq nat),
  no_dangling st -> (forall g, g \in gs -> g < size (st_h st)) ->
  let: (st', r) := rprune_graphs cf rnds fuel prune threshold st gs in
  [/\ prune_graphs cf rnds fuel prune threshold (the_sobj st) [seq at_ (st_h st) g | g <- gs] = (the_sobj st', the_models st' r),
      forall a, a < size (st_h st) -> at_ (st_h st') a = at_ (st_h st) a & no_dangling st'].
Proof. exact @refines. Qed.
Print Assumptions C115_in_place.
