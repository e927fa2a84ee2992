(** What a pseudo-random generator promises, and the ranges documented in generators.py. *)
From Coq Require Import ZArith.
From mathcomp Require Import all_ssreflect all_algebra.
From Verif Require Import Base GraphSpec NumModel GenModel.
Set Implicit Arguments.
Unset Strict Implicit.
Unset Printing Implicit Defensive.
Import Order.Theory GRing.Theory Num.Theory.
Local Open Scope nat_scope.
Local Open Scope ring_scope.

Section GenSpec.
Variable F : realFieldType.

(** Draws are in the requested ranges; samples without replacement and permutations have no duplicates. *)
Record fair (g : generator F) : Prop := MkFair {
  fair_uniform : forall st lo hi r c i j, lo <= hi -> (i < r)%N -> (j < c)%N ->
    lo <= (@g_uniform F g st lo hi r c).1 i j <= hi;
  fair_choice : forall st n k, (0 < n)%N -> size (@g_choice F g st n k).1 = k /\
    forall x, x \in (@g_choice F g st n k).1 -> (x < n)%N;
  fair_sample : forall st n k, (k <= n)%N -> [/\ size (@g_sample F g st n k).1 = k, uniq (@g_sample F g st n k).1 &
    forall x, x \in (@g_sample F g st n k).1 -> (x < n)%N];
  fair_integers : forall st lo hi, Z.lt lo hi ->
    Z.le lo (@g_integers F g st lo hi).1 /\ Z.lt (@g_integers F g st lo hi).1 hi;
  fair_permutation : forall st n, perm_eq (@g_permutation F g st n).1 (iota 0 n) }.

(** Every lower bound is at most the upper bound. *)
Definition ordered (b : bounds F) : Prop :=
  [/\ var_lo b <= var_hi b, int_var_lo b <= int_var_hi b, psi_lo b <= psi_hi b, int_psi_lo b <= int_psi_hi b
    & B_lo b <= B_hi b].

Definition within (lo hi x : F) : Prop := lo <= x /\ x <= hi.

(** The noise variances x are in the ranges of the documentation, generators.py 347-359. *)
Definition documented_vars p e (b : bounds F) (obs : bool) (I : seq nat) (x : 'M[F]_(e, p)) : Prop :=
  forall (i : 'I_e) (j : 'I_p),
    if (nat_of_ord j \in I) && ((0 < i)%N || ~~ obs)
    then within (var_lo b + int_var_lo b) (var_hi b + int_var_hi b) (x i j)
    else within (var_lo b) (var_hi b) (x i j).
(** The same for the latent variances. *)
Definition documented_psis l e (b : bounds F) (obs : bool) (x : 'M[F]_(e, l)) : Prop :=
  forall (i : 'I_e) (j : 'I_l),
    if (0 < i)%N || ~~ obs then within (psi_lo b + int_psi_lo b) (psi_hi b + int_psi_hi b) (x i j)
    else within (psi_lo b) (psi_hi b) (x i j).

(** The adjacency A has the edges of the weighted graph W. *)
Definition graph_of (p : nat) (W : nat -> nat -> F) (A : mat) : Prop :=
  square p A /\ forall i j, (i < p)%N -> (j < p)%N -> (edge A i j <-> W i j <> 0).
End GenSpec.

(** s is a set of n distinct variables among p. *)
Definition targets_of (p n : nat) (s : list nat) : Prop :=
  length s = n /\ List.NoDup s /\ forall j, List.In j s -> (j < p)%N.

(** n variables other than v are adjacent to v in the moral graph of A. *)
Definition moral_degree (A : mat) (v n : nat) : Prop :=
  exists l : list nat, List.NoDup l /\ (forall i, List.In i l <-> adjacent A i v \/ exists c, vstruct A i c v) /\ length l = n.
