(** A generator that hands out the numbers of a stream one after the other, and the parameters of a model one by one. *)
From Coq Require Import ZArith.
From mathcomp Require Import all_ssreflect all_algebra.
From Verif Require Import Base NumModel GenModel.
Set Implicit Arguments.
Unset Strict Implicit.
Unset Printing Implicit Defensive.
Import GRing.Theory.
Local Open Scope nat_scope.
Local Open Scope ring_scope.

Section Draw.
Variable F : realFieldType.

(** u are the uniform draws from [0, 1], z the normal draws; the state is the number of draws so far.  The other distributions
    do not matter here. *)
Definition stream_gen (u z : nat -> F) : generator F := {|
  gst := nat;
  g_seed := fun _ => 0%N;
  g_uniform := fun st lo hi r c => (fun i j => lo + (hi - lo) * u (st + (i * c + j))%N, (st + r * c)%N);
  g_normal := fun st r c => (fun i j => z (st + (i * c + j))%N, (st + r * c)%N);
  g_choice := fun st n k => (nseq k 0%N, st);
  g_sample := fun st n k => (iota 0 k, st);
  g_integers := fun st lo hi => (lo, st);
  g_permutation := fun st n => (iota 0 n, st) |}.

(** All draws but number n are the same. *)
Definition same_but (n : nat) (u u' : nat -> F) : Prop := forall k, k <> n -> u k = u' k.

(** A parameter of a model: a weight, a latent effect, a noise variance, a latent variance *)
Inductive param (p l e : nat) :=
  | PB (i j : 'I_p) | PG (a : 'I_l) (j : 'I_p) | PO (k : 'I_e) (j : 'I_p) | PP (k : 'I_e) (a : 'I_l).

Definition value p l e (m : model F p l e) (x : param p l e) : F :=
  match x with
  | PB i j => mB m i j
  | PG a j => mgamma m a j
  | PO k j => momegas m k j
  | PP k a => mpsis m k a
  end.

(** Two names of one parameter: the noise variance of a variable that is not a target is the same in all environments. *)
Definition tied p l e (I : seq nat) (x y : param p l e) : Prop :=
  x = y \/ exists k k' j, [/\ x = PO l k j, y = PO l k' j & nat_of_ord j \notin I].
End Draw.

(** The parameters of one kind for one variable, in all environments *)
Definition same_column p l e (x y : param p l e) : Prop :=
  match x, y with
  | PO _ j, PO _ j' => j = j'
  | PP _ a, PP _ a' => a = a'
  | _, _ => x = y
  end.
