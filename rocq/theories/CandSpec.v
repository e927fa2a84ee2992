(** Vocabulary of PropCand.v: runs of equivalence_class with the candidates in another order. *)
From Coq Require Import ZArith List.
From mathcomp Require Import all_ssreflect all_algebra.
From Verif Require Import Base GraphSpec NumModel ScoreModel CacheSpec MainModel MainSpec.
Set Implicit Arguments.
Unset Strict Implicit.
Unset Printing Implicit Defensive.

Section Cand.
Variables (F : realFieldType) (p l e : nat) (cf : conf F p l e).

(** The fits do not depend on the random draws. *)
Definition no_draws : Prop := forall A I rnd rnd', graph p A -> fit cf A I None rnd = fit cf A I None rnd'.

(** m is the model fitted to A with all variables as targets, or a copy of it. *)
Definition model_for (A : mat) (m : model F p l e) : Prop :=
  exists rnd m0 s, fit cf A (iota 0 p) None rnd = Ok (m0, s) /\ (m = m0 \/ copy_model (cf_h cf) m0 = Ok m).
End Cand.

(** The graphs that are fitted for the candidates Gs. *)
Definition examined (p : nat) (prune : bool) (Gs : seq mat) (A : mat) : Prop :=
  graph p A /\ exists2 G, List.In G Gs & if prune then subgraph A G else A = G.

(** Models of different graphs have different scores for the samples [test]. *)
Definition different_scores (F : realFieldType) (p e : nat) (w : world F p e) (a : args F) (training test : seq (seq 'rV[F]_p))
    (prune : bool) (Gs : seq mat) (h : nat) : Prop :=
  forall A A' m m' x, examined p prune Gs A -> examined p prune Gs A' -> model_for (train_conf w a training h) A m ->
  model_for (train_conf w a training h) A' m' -> scored w test m x -> scored w test m' x -> A = A'.
