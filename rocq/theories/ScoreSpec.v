(** Notions the properties of score.py are stated in, independent of the model of the code. *)
From Coq Require Import ZArith.
From mathcomp Require Import all_ssreflect all_algebra.
From Verif Require Import Base NumSpec CacheSpec NumModel ScoreModel.
Set Implicit Arguments.
Unset Strict Implicit.
Unset Printing Implicit Defensive.
Import Order.Theory GRing.Theory Num.Theory.
Local Open Scope ring_scope.

Section GDSpec.
Variable F : realFieldType.

(** Every value of the k-th array is strictly between the k-th bounds (no upper bound if None), and these are not
    inverted; arrays without bounds and bounds without array do not count. *)
Definition inside (xs : list (list F)) (bs : list (F * option F)) : Prop :=
  forall k x lo hi, List.nth_error xs k = Some x -> List.nth_error bs k = Some (lo, hi) ->
    (forall u, hi = Some u -> lo <= u) /\
    (forall v, List.In v x -> lo < v /\ forall u, hi = Some u -> v < u).
Definition inside_opt (xs : list (list F)) (bs : option (list (F * option F))) : Prop :=
  forall b, bs = Some b -> inside xs b.

Variables (X : Type) (sub : X -> F -> X -> X) (flat : X -> list (list F)).
Variables (loss : X -> res F) (grad : X -> res X) (bounds : option (list (F * option F))).

(** [descent lr a b]: from a to b by steps against the gradient, each with a step size lr / 2^k, each ending within the
    bounds and each strictly decreasing the loss. *)
Inductive descent (lr : F) : X -> X -> Prop :=
| descent_refl x : descent lr x x
| descent_step x g k l l' y z :
    grad x = Ok g -> y = sub x (lr / 2%:R ^+ k) g -> inside_opt (flat y) bounds ->
    loss x = Ok l -> loss y = Ok l' -> l' < l -> descent lr y z -> descent lr x z.

(** [sub x c g] subtracts c times g from x, entry by entry. *)
Definition entrywise : Prop :=
  forall x c g, flat (sub x c g) = [seq [seq v.1 - c * v.2 | v <- zip a.1 a.2] | a <- zip (flat x) (flat g)].
End GDSpec.

Section FitSpec.
Variables (F : realFieldType) (p l e : nat).
Local Notation model := (model F p l e).

(** Some entry of a random draw is above 1e-10. *)
Definition nontrivial (X : 'M[F]_p) : Prop := exists i j, (10%:R ^+ 10)^-1 < `|X i j|.

(** The two models have the same parameters. *)
Definition same_params (m m' : model) : Prop :=
  [/\ mA m = mA m', mB m = mB m', mgamma m = mgamma m', momegas m = momegas m' & mpsis m = mpsis m'].

(** A call that makes sense for p variables: the graph is p x p without negative entries and so is that of the initial
    model. *)
Definition proper (c : call F p l e) : Prop :=
  [/\ square p (cl_A c), nonneg (cl_A c) & forall m, cl_init c = Some m -> square p (mA m)].

(** The number of j < k with s (j + 1) - s j > t. *)
Definition fluctuations (t : F) (s : nat -> F) (k : nat) : nat := count (fun j => t < s j.+1 - s j) (iota 0 k).

(** The intervention constraint. *)
Definition invariant_outside (fixed : bool) (I : list nat) (m : model) : Prop :=
  (forall j : 'I_p, ~ List.In (nat_of_ord j) I -> const_col (momegas m) j) /\
  (fixed = true -> forall j : 'I_l, const_col (mpsis m) j).

(** The bounds of the variances. *)
Definition in_range (psi_max : option F) (m : model) : Prop :=
  [/\ positive (momegas m), positive (mpsis m) & forall u, psi_max = Some u -> forall i j, mpsis m i j < u].

Variable cf : conf F p l e.

(** The procedure goes on after k rounds; d k is the distance between the B of rounds k - 1 and k, ss k the score after k
    rounds. *)
Definition goes_on (d ss : nat -> F) (k : nat) : bool :=
  (if k is 0%N then true else cf_threshold_dist_B cf < d k) && (k < cf_max_iter cf)%N &&
  (fluctuations (cf_threshold_fluctuation cf) ss k < cf_max_fluctuations cf)%N.

(** The errors the fitting procedure cannot exclude on valid data: a loop that takes more than [cf_fuel] steps, and
    those of the convex solver. *)
Definition stuck (x : exn) : Prop := x = OutOfFuel \/ cf_solver cf = Cvx /\ (x = TypeError \/ x = AssertionError).
End FitSpec.

(** The cache of a new Score object. *)
Definition fresh (F : realFieldType) (p l e : nat) (caching : bool) : option (cache (model F p l e) F) :=
  if caching then Some (empty_cache _ _) else None.

(** The same Score object with another bound on the number of iterations. *)
Definition with_fuel (F : realFieldType) (p l e : nat) (cf : conf F p l e) (k : nat) : conf F p l e :=
  Conf (cf_log cf) (cf_h cf) (cf_sqrtm cf) (cf_cvx cf) (cf_svd cf) (cf_sqrt cf) (cf_finite cf) (cf_sigmas cf)
    (cf_n_obs cf) (cf_psi_max cf) (cf_psi_fixed cf) (cf_max_iter cf) (cf_threshold_dist_B cf)
    (cf_threshold_fluctuation cf) (cf_max_fluctuations cf) (cf_threshold_score cf) (cf_learning_rate cf) (cf_solver cf) k.
