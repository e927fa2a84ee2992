(** chain_graph_model and random_graph_model; a generator whose draws depend on the seed. *)
From Coq Require Import ZArith Lia Permutation.
From mathcomp Require Import all_ssreflect all_algebra.
From Verif Require Import Base GraphModel GraphSpec TopoProofs CompelledProofs EnumProofs NumModel NumSpec LinAlgProofs
  NumProofs GenModel GenSpec GenProofs Gen2Proofs Gen3Proofs.
Set Implicit Arguments.
Unset Strict Implicit.
Unset Printing Implicit Defensive.
Import Order.Theory GRing.Theory Num.Theory.
Local Open Scope nat_scope.
Local Open Scope ring_scope.

Lemma chain_square p : square p (chain_graph p). Proof. exact: mk_square. Qed.

Section Generators.
Variables (F : realFieldType) (h : hord) (g : generator F) (p l e : nat).

Lemma chain_model_spec I (b : bounds F) sparse obs rs verbose : List.NoDup I ->
  let out := chain_graph_model h g p l e I b sparse obs rs verbose in
  out = sample_parameters h g p l e (chain_graph p) I b sparse true (Z.of_nat 42) false /\
  (((forall j, List.In j I -> (j < p)%N) /\ exists m, out = Ok m /\ mA m = chain_graph p) \/
   (~ (forall j, List.In j I -> (j < p)%N) /\ out = Err ValueError)).
Proof.
move=> N out; split=> //; rewrite /out /chain_graph_model.
have Hv : false -> (0 < e)%N /\ (0 < p)%N by [].
have [[[_ HI] [m [E [HA _ _ _]]]]|[H E]] := @sample_parameters_spec F h g p l e (chain_graph p) I b sparse true
  (Z.of_nat 42) false (chain_square p) (binary_nonneg (@chain_graph_binary p)) N Hv.
  by left; split=> //; exists m.
by right; split=> // HI; apply: H; split=> //; exact: chain_acyclic.
Qed.

Lemma to_adj_graph (W : nat -> nat -> F) : graph_of p W (to_adj p W).
Proof.
split; first exact: mk_square.
move=> i j /ssrnat.ltP Hi /ssrnat.ltP Hj; rewrite /edge /to_adj get_mk //.
by case: eqP => // H; split.
Qed.

Lemma to_adj_binary (W : nat -> nat -> F) : binary (to_adj p W).
Proof.
by move=> i j; rewrite /to_adj get_mk'; case: (_ && _); [case: eqP; [left|right] | left].
Qed.

Lemma random_model_spec (st0 : gst g) (k : F) I (b : bounds F) sparse obs rs (verbose : bool) : fair g -> p <> 1%N -> List.NoDup I ->
  (verbose -> (0 < e)%N /\ (0 < p)%N) ->
  exists W, dag_avg_deg st0 p k 1 1 false rs = Ok (W, None) /\
  (forall i j, (i < p)%N -> (j < p)%N -> W i j = 0 \/ W i j = 1) /\
  let out := random_graph_model h st0 p l e k I b sparse obs rs verbose in
  (((forall j, List.In j I -> (j < p)%N) /\ exists m, out = Ok m /\ graph_of p W (mA m) /\ binary (mA m) /\ acyclic (mA m)) \/
   (~ (forall j, List.In j I -> (j < p)%N) /\ out = Err ValueError)).
Proof.
move=> Hg Hp N Hv; have [W [ord [E [HA Hw]]]] := dag_spec st0 k 1 1 false rs Hg Hp.
exists W; split=> //; split.
  move=> i j Hi Hj; have [->|N0] := eqVneq (W i j) 0; [by left|right].
  by apply: within1; apply: Hw => //; exact/eqP.
have [CA _] := HA _ (to_adj_graph W); rewrite /random_graph_model E /=.
have [SA _] := to_adj_graph W.
have [[[_ HI] [m [Em [EA _ _ _]]]]|[H Em]] := @sample_parameters_spec F h g p l e (to_adj p W) I b sparse obs
  (Z.of_nat 42) verbose SA (binary_nonneg (to_adj_binary W)) N Hv.
  left; split=> //; exists m; rewrite EA; split=> //; split; first exact: to_adj_graph.
  by split; [exact: to_adj_binary | exact: CA].
by right; split=> // HI; apply: H; split.
Qed.

Lemma random_model_one (st0 : gst g) (k : F) I (b : bounds F) sparse obs rs verbose : p = 1%N ->
  random_graph_model h st0 p l e k I b sparse obs rs verbose = Err ZeroDivisionError.
Proof. by move=> H; rewrite /random_graph_model dag_one. Qed.

(** The parameters do not depend on random_state *)
Lemma random_model_seed (st0 : gst g) (k : F) I (b : bounds F) sparse obs rs rs' verbose :
  dag_avg_deg st0 p k 1 1 false rs = dag_avg_deg st0 p k 1 1 false rs' ->
  random_graph_model h st0 p l e k I b sparse obs rs verbose =
  random_graph_model h st0 p l e k I b sparse obs rs' verbose.
Proof. by move=> E; rewrite /random_graph_model E. Qed.
End Generators.

(** * A generator whose draws depend on the seed *)
Section Toy.
Variable F : realFieldType.

(** The state is the seed: lower bounds for the seed 0, upper bounds for the other seeds. *)
Definition toy : generator F := {|
  gst := Z; g_seed := id;
  g_uniform := fun st lo hi _ _ => (fun _ _ => if Z.eqb st Z0 then lo else hi, st);
  g_normal := fun st _ _ => (fun _ _ => 1, st);
  g_choice := fun st n k => ([seq (i %% n)%N | i <- iota 0 k], st);
  g_sample := fun st n k => (rev (iota 0 k), st);
  g_integers := fun st lo hi => (lo, st);
  g_permutation := fun st n => (rev (iota 0 n), st) |}.

Lemma toy_fair : fair toy.
Proof.
split=> /=.
- by move=> st lo hi r c i j H _ _; case: Z.eqb; rewrite H lexx.
- move=> st n k Hn; rewrite size_map size_iota; split=> // x /mapP [i _ ->]; exact: ltn_pmod.
- move=> st n k Hk; rewrite size_rev size_iota rev_uniq iota_uniq; split=> // x.
  by rewrite mem_rev mem_iota add0n => /andP [_ H]; exact: leq_trans H Hk.
- by move=> st lo hi H; lia.
- by move=> st n; rewrite perm_rev.
Qed.

(** Variances between 1 and 2, and the same for the interventions *)
Definition one_two : bounds F := MkBounds 1 2 1 2 1 2 1 2 1 2.
Lemma one_two_ordered : ordered one_two.
Proof. by split; rewrite /= ler1n. Qed.

Lemma toy_var (h : hord) l e p A I obs rs (m : model F p l e) (i : 'I_e) (j : 'I_p) : square p A -> nonneg A ->
  sample_parameters h toy p l e A I one_two false obs rs false = Ok m -> List.NoDup I -> obs -> (1 < e)%N -> i = 0%N :> nat ->
  momegas m i j = if Z.eqb rs Z0 then 1 else 2.
Proof.
move=> SA NA E N Ho He Hi; have [_ _ ->] := sample_parameters_inv SA NA E.
rewrite mxE /sample_omegas Ho He /=.
set st0 : Z := rs; have := @om_loop F toy one_two e (fun _ => if Z.eqb st0 Z0 then 1 else 2) st0 (h 0%N I) (hI_uniq h N) i j.
by cbv zeta; rewrite /om_step /= => -[] [|_ //]; rewrite Hi eqxx orbT.
Qed.

Lemma two_neq1 : (2 : F) <> 1.
Proof. by move/eqP; rewrite -[X in _ == X]mulr1n eqr_nat. Qed.

(** chain_graph_model does not pass random_state on *)
Lemma chain_seed_lost (h : hord) : exists rs m m',
  [/\ chain_graph_model h toy 2 1 2 [:: 0%N] one_two false true rs false = Ok m,
      sample_parameters h toy 2 1 2 (chain_graph 2) [:: 0%N] one_two false true rs false = Ok m' &
      momegas m ord0 ord0 <> momegas m' ord0 ord0].
Proof.
have N : List.NoDup [:: 0%N] by repeat constructor => /=; intuition.
have HI : forall j, List.In j [:: 0%N] -> (j < 2)%N by move=> j /= [<-|[]].
have Hv : false -> (0 < 2)%N /\ (0 < 2)%N by [].
have NA := binary_nonneg (@chain_graph_binary 2).
have [_ [[_ [m [E _]]]|[H _]]] := @chain_model_spec F h toy 2 1 2 [:: 0%N] one_two false true Z0 false N; last by case: H.
have [[_ [m' [E' _]]]|[H _]] := @sample_parameters_spec F h toy 2 1 2 (chain_graph 2) [:: 0%N] one_two false true
  Z0 false (chain_square 2) NA N Hv; last by case: H; split=> //; exact: chain_acyclic.
exists Z0, m, m'; split=> //; rewrite /chain_graph_model in E.
rewrite (toy_var ord0 (chain_square 2) NA E N) // (toy_var ord0 (chain_square 2) NA E' N) //.
exact: two_neq1.
Qed.

(** nor obs *)
Lemma chain_obs_lost (h : hord) (g : generator F) : fair g -> exists m m',
  [/\ chain_graph_model h g 2 0 2 [:: 0%N] (ones F) false false (Z.of_nat 42) false = Ok m,
      sample_parameters h g 2 0 2 (chain_graph 2) [:: 0%N] (ones F) false false (Z.of_nat 42) false = Ok m' &
      momegas m ord_max ord0 <> momegas m' ord_max ord0].
Proof.
move=> Hg; have N : List.NoDup [:: 0%N] by repeat constructor => /=; intuition.
have HI : forall j, List.In j [:: 0%N] -> (j < 2)%N by move=> j /= [<-|[]].
have Hv : false -> (0 < 2)%N /\ (0 < 2)%N by [].
have SA := chain_square 2; have NA := binary_nonneg (@chain_graph_binary 2).
have [_ [[_ [m [E _]]]|[H _]]] := @chain_model_spec F h g 2 0 2 [:: 0%N] (ones F) false false (Z.of_nat 42) false N; last by case: H.
have [[_ [m' [E' _]]]|[H _]] := @sample_parameters_spec F h g 2 0 2 (chain_graph 2) [:: 0%N] (ones F) false false
  (Z.of_nat 42) false SA NA N Hv; last by case: H; split=> //; exact: chain_acyclic.
exists m, m'; split=> //; rewrite /chain_graph_model in E.
have D := @documented_one F h g 2 0 2 _ _ _ _ _ _ _ m SA NA Hg (ones_ordered F) E N isT isT ord_max ord0.
have [|H _] := @ranges_other F h g 2 0 2 _ _ _ _ _ _ _ m' SA NA Hg (ones_ordered F) E'; first by left.
by rewrite (within1 (H _ _)) (within1 D) /= => /eqP; rewrite -subr_eq0 addrK oner_eq0.
Qed.

(** random_graph_model does not pass random_state on to sample_parameters *)
Lemma random_seed_lost (h : hord) : exists rs W m m',
  [/\ dag_avg_deg (g := toy) Z0 2 0 1 1 false (Some rs) = Ok (W, None),
      random_graph_model (g := toy) h Z0 2 1 2 0 [:: 0%N] one_two false true (Some rs) false = Ok m,
      sample_parameters h toy 2 1 2 (mA m) [:: 0%N] one_two false true rs false = Ok m' &
      momegas m ord0 ord0 <> momegas m' ord0 ord0].
Proof.
have N : List.NoDup [:: 0%N] by repeat constructor => /=; intuition.
have HI : forall j, List.In j [:: 0%N] -> (j < 2)%N by move=> j /= [<-|[]].
have Hv : false -> (0 < 2)%N /\ (0 < 2)%N by [].
have [W [EW [_ [[_ [m [E [[SA _] [BA CA]]]]]|[H _]]]]] := @random_model_spec F h toy 2 1 2 Z0 0 [:: 0%N] one_two false true
  (Some Z0) false toy_fair (fun H => ltac:(discriminate H)) N Hv; last by case: H.
have NA := binary_nonneg BA.
have [[_ [m' [E' _]]]|[H _]] := @sample_parameters_spec F h toy 2 1 2 (mA m) [:: 0%N] one_two false true
  Z0 false SA NA N Hv; last by case: H; split.
exists Z0, W, m, m'; split=> //.
rewrite (toy_var ord0 SA NA E' N) //.
move: E; rewrite /random_graph_model EW; cbn [bind fst].
move=> E; have [SW _] := to_adj_graph 2 W.
rewrite (toy_var ord0 SW (binary_nonneg (to_adj_binary 2 W)) E N) //; exact: two_neq1.
Qed.
End Toy.
