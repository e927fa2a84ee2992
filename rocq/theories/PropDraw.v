(** Property C124: every draw is used for one parameter only. *)
From Coq Require Import ZArith List.
From mathcomp Require Import all_ssreflect all_algebra.
From Verif Require Import Base GraphModel GraphSpec NumModel GenModel DrawSpec DrawProofs.
Local Open Scope ring_scope.

(** C124.  Without sparse_latents and obs, if one draw of the generator is replaced, at most one parameter of the model that
    sample_parameters returns changes: two different parameters never depend on the same draw. *)
Theorem C124_draws_once : forall (F : realFieldType) (h : hord) p l e A I (b : bounds F) u z u' z' n rs rs' (m m' : model F p l e),
  square p A -> nonneg A ->
  sample_parameters h (stream_gen u z) p l e A I b false false rs false = Ok m ->
  sample_parameters h (stream_gen u' z') p l e A I b false false rs' false = Ok m' ->
  same_but n u u' -> same_but n z z' ->
  forall x y : param p l e, value m x <> value m' x -> ~ tied I x y -> value m y = value m' y.
Proof. exact draws_once. Qed.
Print Assumptions C124_draws_once.

(** With an observational environment the draws for the base values are shared by the environments on purpose.  Then a draw
    changes at most the variances of one variable, one weight or one latent effect. *)
Theorem C124_columns : forall (F : realFieldType) (h : hord) p l e A I (b : bounds F) obs u z u' z' n rs rs' (m m' : model F p l e),
  square p A -> nonneg A -> NoDup I ->
  sample_parameters h (stream_gen u z) p l e A I b false obs rs false = Ok m ->
  sample_parameters h (stream_gen u' z') p l e A I b false obs rs' false = Ok m' ->
  same_but n u u' -> same_but n z z' ->
  forall x y : param p l e, value m x <> value m' x -> ~ same_column x y -> value m y = value m' y.
Proof. exact draws_columns. Qed.
Print Assumptions C124_columns.
