(** Examples for C148: one latent with effects 3 and 4 on two variables joined by an edge. *)
From Coq Require Import ZArith List.
From mathcomp Require Import all_ssreflect all_algebra.
From Verif Require Import Base GraphModel GraphSpec NumModel NumSpec GenModel GenSpec IncoSpec Inco2Proofs PropInco.
Import GRing.Theory Num.Theory.
Local Open Scope nat_scope.
Local Open Scope ring_scope.

Example C148_value_ex : forall h, exists (d : nat) x,
  [/\ scaled_latent_incoherence h (fun=> root_U) root_model = Ok (x * d%:R), moral_max root_model d & squared_incoherence root_model x].
Proof.
move=> h; have [SA NA] := root_square.
exact: (@C148_value_partial rat_realFieldType h 2 1 1 (fun=> root_U) root_model isT isT isT SA NA root_factor).
Qed.

Example C148_root_ex : forall h, exists (d : nat) y,
  [/\ scaled_latent_incoherence h (fun=> root_U) root_model = Ok y, moral_max root_model d,
      y = 4%:R / 5%:R * (4%:R / 5%:R * d%:R), y <= 4%:R / 5%:R * d%:R &
      y = 4%:R / 5%:R * d%:R <-> [\/ d = 0%N, 4%:R / 5%:R = 0 :> rat_realFieldType | 4%:R / 5%:R = 1 :> rat_realFieldType]].
Proof.
move=> h; have [SA NA] := root_square.
have c0 : 0 <= 4%:R / 5%:R :> rat_realFieldType by rewrite divr_ge0 ?ler0n.
exact: (@C148_root_partial rat_realFieldType h 2 1 1 (fun=> root_U) root_model _ isT isT isT SA NA root_factor c0 root_squared).
Qed.

(** In both models d is not 0 *)
Example C148_degree_ex : moral_degree root_A 0 1 /\ moral_degree rank_A 0 1.
Proof. exact: conj root_degree rank_degree. Qed.
