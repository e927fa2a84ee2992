(** Vocabulary of PropLeak.v: a selection by the scores for a fold. *)
From Coq Require Import ZArith List.
From mathcomp Require Import all_ssreflect all_algebra.
From Verif Require Import Base NumModel ScoreModel MainModel MainSpec CacheSpec.
Set Implicit Arguments.
Unset Strict Implicit.
Unset Printing Implicit Defensive.
Import Order.Theory GRing.Theory Num.Theory.
Local Open Scope ring_scope.

Section Leak.
Variables (F : realFieldType) (p l e : nat) (w : world F p e).
Local Notation candidate := (model F p l e * seq nat)%type.

(** c is the first element of the list with the least score for the fold, and x its score. *)
Definition selects (fold : seq (seq 'rV[F]_p)) (pool : seq candidate) (c : candidate) (x : F) : Prop :=
  exists xs, Forall2 (fun c y => y.2 = c /\ scored w fold c.1 y.1) pool xs /\ first_least xs (x, c).

(** No set of targets occurs twice. *)
Definition distinct_targets (pool : seq candidate) : Prop :=
  forall m m' J J', List.In (m, J) pool -> List.In (m', J') pool -> same_set J J' -> m = m' /\ J = J'.
End Leak.
