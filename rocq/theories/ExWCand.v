(** Concrete inputs for the theorems of PropWCand.v. *)
From Coq Require Import ZArith List Reals Relations.
From mathcomp Require Import all_ssreflect all_algebra.
From Verif Require Import Base GraphModel GraphSpec NumModel ScoreModel OptSpec MainModel MainSpec Run2Proofs MainRunProofs SeedProofs DupProofs EnvProofs.
From Verif Require Import RealProofs WeightSpec WCandSpec WCandProofs WDupProofs WNegProofs PropWCand.
Import Order.Theory GRing.Theory Num.Theory.
Local Open Scope ring_scope.

(** C133: the reals with their logarithm; the graphs 0 -> 1 and 1 -> 0 with all weights 2 *)
Example C133_ex (h : hord) seed : let w := dup_world (ln : R_realFieldType -> R_realFieldType) 0 h in
  exists r, equivalence_class w (dup_args _) [:: weigh 2 twice A2; weigh 2 twice back2] (@dup_data _) false seed = Ok r /\
    mA (projT2 r.2) = weigh 2 twice A2 /\ weigh 2 twice A2 <> A2.
Proof.
move=> w; have GG : Forall (graph 2) [:: A2; back2] by constructor; [exact: A2_graph|constructor=> //; exact: back2_graph].
have := C133_common_weights _ _ _ w (dup_args _) twice [:: A2; back2] (@dup_data _) false seed twice_pos (dup_sees _ _ _) GG.
have [[[ic J] m] [r' [E _ H _]]] := dup_refuted (ln : R_realFieldType -> R_realFieldType) 0 h seed.
rewrite E => EW; eexists; split; first exact: EW.
by split=> //=; move: H => /= ->.
Qed.

(** C134 *)
Example C134_ex (h : hord) := C134_weights_refuted R_realFieldType ln 0 h.

(** C135: the candidate 0 -> 1 with weight 1 and with weight -1 *)
Example C135_ex (h : hord) seed : let w := env_world (ln : R_realFieldType -> R_realFieldType) 0 h in
  exists r r', [/\ equivalence_class w (dup_args _) [:: A2] (@env_data _) true seed = Ok r,
    equivalence_class w (dup_args _) [:: weigh 2 minus_one A2] (@env_data _) true seed = Ok r',
    mA (projT2 r.2) = no_edge2 & mA (projT2 r'.2) = weigh 2 minus_one A2].
Proof.
move=> w; have [r [E H]] := pruned_class 0 h ln_log_like seed; have [r' [E' H']] := unpruned_class (ln : R_realFieldType -> R_realFieldType) 0 h seed.
by exists r, r'.
Qed.
Example C135_theorem_ex (h : hord) := C135_result_refuted R_realFieldType ln 0 h ln_log_like.

(** C03: the cycle 0 -> 1 -> 0 with weights -1 *)
Example C03_negative_ex (h : hord) : let A := [:: [:: Z0; Zneg xH]; [:: Zneg xH; Z0]] in ~ acyclic A /\ is_dag h A = Ok true.
Proof.
split; last first.
  apply: (@C03_negative_refuted h 2); first by split=> //; do 3 constructor.
  by move=> [|[|[|i]]] [|[|[|j]]].
by move=> /(_ 0%N) H; apply: H; apply: t_trans (t_step _ _ _ _ (_ : edge _ 0 1)) (t_step _ _ _ _ _).
Qed.
