(** Vocabulary of PropAlias.v. *)
From Coq Require Import ZArith List.
From mathcomp Require Import all_ssreflect all_algebra.
From Verif Require Import Base GraphModel NumModel ScoreModel MainModel AliasModel.
Set Implicit Arguments.
Unset Strict Implicit.
Unset Printing Implicit Defensive.

Section Spec.
Variables (F : realFieldType) (p l e : nat).

(** The references in the cache are to existing arrays. *)
Definition no_dangling (st : state F p l e) : Prop :=
  (forall a, a \in rAs (st_c st) -> a < size (st_h st)) /\
  (forall o, List.In o (rmodels (st_c st)) -> ob_A o < size (st_h st)).

(** The Score object that a program with values has *)
Definition the_sobj (st : state F p l e) : sobj F p l e := (Some (the_cache (st_h st) (st_c st)), st_n st).

(** The models that the objects have in the memory of st *)
Definition the_models (st : state F p l e) (r : res (seq (obj F p l e))) : res (seq (model F p l e)) :=
  bind r (fun os => Ok [seq the_model (st_h st) o | o <- os]).
End Spec.
