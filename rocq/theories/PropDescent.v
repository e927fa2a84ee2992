(** Property C105: score_dag and the score of its starting point. *)
From Coq Require Import ZArith List.
From mathcomp Require Import all_ssreflect all_algebra.
From Verif Require Import Base GraphSpec NumSpec GradSpec DescentSpec GraphModel NumModel ScoreModel.
From Verif Require Import DescentProofs Descent2Proofs.
Set Implicit Arguments.
Unset Strict Implicit.
Unset Printing Implicit Defensive.
Import Order.Theory GRing.Theory Num.Theory.
Local Open Scope ring_scope.

(** C105: score_dag may return parameters that score worse than those it starts from, although the convex problem for B is
    solved exactly. *)
Theorem C105_descent_refuted : forall (F : realFieldType) (log : F -> F) (h : hord) rnd,
  exists (cf : conf F 2 0 2) A B g o s m0 m r x y,
  [/\ cf_log cf = log /\ cf_h cf = h, square 2 A /\ nonneg A, cf_solver cf = Cvx /\ exact_cvx cf A,
    (forall k, posdef (cf_sigmas cf k)) /\ (forall k, (0 < cf_n_obs cf k)%N) & positive o /\ positive s] /\
  [/\ new_model h A B g o s = Ok m0, fit cf A [::] (Some m0) rnd = Ok (m, r),
    scores cf (mA m0) (mB m0) (mgamma m0) (momegas m0) (mpsis m0) x, scores cf (mA m) (mB m) (mgamma m) (momegas m) (mpsis m) y & x < y].
Proof. exact descent_refuted. Qed.
Print Assumptions C105_descent_refuted.

(** It does not if no step for B worsens the score. *)
Theorem C105_descent_partial : forall (F : realFieldType) (p l e : nat) (cf : conf F p l e) A,
  square p A -> nonneg A -> solver_descends cf A -> forall I init rnd m s,
  (forall m0, init = Some m0 -> exists B g o ps, new_model (cf_h cf) A B g o ps = Ok m0) ->
  fit cf A I init rnd = Ok (m, s) ->
  exists m0, (init = Some m0 \/ init = None /\ initial_model cf A I = Ok m0) /\ no_worse cf m0 m.
Proof. exact fit_descends. Qed.
Print Assumptions C105_descent_partial.

(** In particular with one environment. *)
Theorem C105_one_environment_partial : forall (F : realFieldType) (p l : nat) (cf : conf F p l 1) A,
  square p A -> nonneg A -> forall I init rnd m s, cf_solver cf = Cvx -> (0 < cf_n_obs cf ord0)%N -> exact_cvx cf A ->
  (forall m0, init = Some m0 -> exists B g o ps, new_model (cf_h cf) A B g o ps = Ok m0) ->
  fit cf A I init rnd = Ok (m, s) ->
  exists m0, (init = Some m0 \/ init = None /\ initial_model cf A I = Ok m0) /\ no_worse cf m0 m.
Proof. exact fit_cvx_descends. Qed.
Print Assumptions C105_one_environment_partial.
