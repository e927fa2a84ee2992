(** Model of generators.py, and of Model.scaled_latent_incoherence (model.py 543-577), over an arbitrary real field.
    Arrays under construction are functions of the indices; numbers of variables, latents and environments are
    natural numbers (the code does not check them). *)
From Coq Require Import ZArith.
From mathcomp Require Import all_ssreflect all_algebra.
From Verif Require Import Base GraphModel NumModel.
Set Implicit Arguments.
Unset Strict Implicit.
Unset Printing Implicit Defensive.
Import Order.Theory GRing.Theory Num.Theory.
Local Open Scope nat_scope.
Local Open Scope ring_scope.

(** A pseudo-random generator (np.random.default_rng, or the global np.random).  Each function maps the state to a
    value and the next state: uniform(lo, hi, size=(r, c)); normal(0, s, size=(r, c)), whatever s; choice(range(n),
    size=k), with and without replacement; integers(lo, hi, size=1); permutation(n). *)
Record generator (F : realFieldType) := MkGen {
  gst : Type;
  g_seed : Z -> gst;
  g_uniform : gst -> F -> F -> nat -> nat -> (nat -> nat -> F) * gst;
  g_normal : gst -> nat -> nat -> (nat -> nat -> F) * gst;
  g_choice : gst -> nat -> nat -> seq nat * gst;
  g_sample : gst -> nat -> nat -> seq nat * gst;
  g_integers : gst -> Z -> Z -> Z * gst;
  g_permutation : gst -> nat -> seq nat * gst }.

Section Gen.
Variables (F : realFieldType) (h : hord) (g : generator F).
Local Notation arr := (nat -> nat -> F).

(** An entry of the adjacency as a number of the field *)
Definition ZF (z : Z) : F :=
  match z with Z0 => 0 | Zpos n => (Pos.to_nat n)%:R | Zneg n => - (Pos.to_nat n)%:R end.

(** The bounds given to the functions: var_lo, var_hi, int_var_lo, ... *)
Record bounds := MkBounds { var_lo : F; var_hi : F; int_var_lo : F; int_var_hi : F; psi_lo : F; psi_hi : F;
                            int_psi_lo : F; int_psi_hi : F; B_lo : F; B_hi : F }.

(** round(p / 5): never a tie *)
Definition n_latent_edges (p : nat) : nat := ((p + 2) %/ 5)%N.

(** gamma[i, non_zeros] = values (generators.py 415-416): the last value wins if an index is repeated *)
Definition put_row (gamma : arr) (i : nat) (non_zeros : seq nat) (values : nat -> F) : arr :=
  foldl (fun (gm : arr) k a b => if (a == i) && (b == nth 0%N non_zeros k) then values k else gm a b) gamma
        (iota 0 (size non_zeros)).

(** The latent effects: generators.py 410-418 *)
Definition sample_gamma (sparse : bool) (l p : nat) (st : gst g) : arr * gst g :=
  if sparse then
    let n := n_latent_edges p in
    foldl (fun (s : arr * gst g) i =>
             let c := g_choice s.2 p n in
             let v := g_normal c.2 1 n in
             (put_row s.1 i c.1 (v.1 0%N), v.2)) (fun _ _ => 0, st) (iota 0 l)
  else g_normal st l p.

(** The noise variances: generators.py 420-431.  I is iterated in hash order.  [omegas += interventions] is inside
    of the loop over the targets. *)
Definition sample_omegas (obs : bool) (e p : nat) (I : seq nat) (b : bounds) (st : gst g) : arr * gst g :=
  if obs && (1 < e)%N then
    let u := g_uniform st (var_lo b) (var_hi b) 1 p in
    let r := foldl (fun (s : (arr * arr) * gst g) j =>
        let d := g_uniform s.2 (int_var_lo b) (int_var_hi b) 1 (e - 1) in
        let ints : arr := fun a c => if (0 < a)%N && (c == j) then d.1 0%N (a - 1)%N else s.1.1 a c in
        ((ints, fun a c => s.1.2 a c + ints a c), d.2))
      ((fun _ _ => 0, fun _ c => u.1 0%N c), u.2) (h 0%N I) in
    (r.1.2, r.2)
  else
    let u := g_uniform st (var_lo b) (var_hi b) e p in
    (foldl (fun (om : arr) j => if j \in I then om
                                else fun a c => if c == j then (\sum_(k < e) om k j) / e%:R else om a c)
           u.1 (iota 0 p), u.2).

(** The latent variances: generators.py 433-443 *)
Definition sample_psis (obs : bool) (e l : nat) (b : bounds) (st : gst g) : arr * gst g :=
  if [&& obs, (1 < e)%N & (0 < l)%N] then
    let u := g_uniform st (psi_lo b) (psi_hi b) 1 l in
    foldl (fun (s : arr * gst g) k =>
        let d := g_uniform s.2 (int_psi_lo b) (int_psi_hi b) e l in
        (fun a c => (if a == k then s.1 0%N c else s.1 a c) + (if a == 0%N then 0 else d.1 a c), d.2))
      (fun a c => if a == 0%N then u.1 0%N c else 0, u.2) (iota 1 (e - 1))
  else g_uniform st (psi_lo b) (psi_hi b) e l.

(** An array as a matrix *)
Definition to_matrix r c (f : arr) : 'M[F]_(r, c) := \matrix_(i, j) f i j.

(** sample_parameters: generators.py 401-455; p is len(A).  With verbose, psis[0] raises IndexError without
    environments, and the spectral norm ValueError without variables. *)
Definition sample_parameters (p l e : nat) (A : mat) (I : seq nat) (b : bounds) (sparse_latents obs : bool)
  (random_state : Z) (verbose : bool) : res (model F p l e) :=
  bind (is_dag h A) (fun d =>
  if ~~ d then Err ValueError
  else if ~~ subsetb I (iota 0 (length A)) then Err ValueError
  else
    let u := g_uniform (g_seed g random_state) (B_lo b) (B_hi b) p p in
    let gm := sample_gamma sparse_latents l p u.2 in
    let om := sample_omegas obs e p I b gm.2 in
    let ps := sample_psis obs e l b om.2 in
    bind (new_model h A (to_matrix p p (fun i j => ZF (get A i j) * u.1 i j)) (to_matrix l p gm.1)
                    (to_matrix e p om.1) (to_matrix e l ps.1)) (fun m =>
    if verbose && (e == 0%N) then Err IndexError
    else if verbose && (p == 0%N) then Err ValueError
    else Ok m)).

(** chain_graph_model: generators.py 140-159.  obs, random_state and verbose are not passed on. *)
Definition chain_graph_model (p l e : nat) (I : seq nat) (b : bounds) (sparse_latents obs : bool)
  (random_state : Z) (verbose : bool) : res (model F p l e) :=
  sample_parameters p l e (chain_graph p) I b sparse_latents true (Z.of_nat 42) false.

(** _dag_avg_deg: generators.py 581-598, without the traces.  The first argument is the state of the global
    generator; k is a Python number (division by p-1 raises).  The ordering is returned if it is requested. *)
Definition dag_avg_deg (st0 : gst g) (p : nat) (k w_min w_max : F) (return_ordering : bool)
  (random_state : option Z) : res (arr * option (seq nat)) :=
  let st := if random_state is Some z then g_seed g z else st0 in
  if p == 1%N then Err ZeroDivisionError
  else
    let prob := k / (p%:R - 1) in
    let u := g_uniform st 0 1 p p in
    let A : arr := fun i j => if (i < j)%N && (u.1 i j <= prob) then 1 else 0 in
    let w := g_uniform u.2 w_min w_max p p in
    let W : arr := fun i j => A i j * w.1 i j in
    let perm := (g_permutation w.2 p).1 in
    let P : arr := fun i j => W (nth 0%N perm i) (nth 0%N perm j) in
    Ok (P, if return_ordering then Some (sort (fun i j => (nth 0%N perm i <= nth 0%N perm j)%N) (iota 0 p)) else None).

(** The array as an adjacency, when its entries are 0. and 1. (uniform(1, 1) is 1.) *)
Definition to_adj (p : nat) (W : arr) : mat := mk p (fun i j => if W i j == 0 then Z0 else Zpos xH).

(** random_graph_model: generators.py 263-281.  random_state is passed on to _dag_avg_deg only. *)
Definition random_graph_model (st0 : gst g) (p l e : nat) (k : F) (I : seq nat) (b : bounds)
  (sparse_latents obs : bool) (random_state : option Z) (verbose : bool) : res (model F p l e) :=
  bind (dag_avg_deg st0 p k 1 1 false random_state) (fun r =>
  sample_parameters p l e (to_adj p r.1) I b sparse_latents obs (Z.of_nat 42) verbose).

(** The argument num_targets: an int, a numpy integer, a tuple *)
Inductive num_arg := NInt (z : Z) | NNumpy (z : Z) | NTuple (zs : seq Z).

(** rng.choice(range(p), replace=False, size=k): ValueError for negative sizes and for sizes above p *)
Definition choose_targets (st : gst g) (p : nat) (k : Z) : res (seq nat) :=
  if Z.ltb k Z0 then Err ValueError
  else if Z.ltb (Z.of_nat p) k then Err ValueError
  else Ok (g_sample st p (Z.to_nat k)).1.

(** intervention_targets: generators.py 513-524.  rng.integers(lo, hi) is below hi, and ValueError if lo >= hi. *)
Definition intervention_targets (p : nat) (num_targets : num_arg) (random_state : Z) : res (seq nat) :=
  let st := g_seed g random_state in
  match num_targets with
  | NInt k => if Z.ltb (Z.of_nat p) k then Err ValueError else choose_targets st p k
  | NNumpy k => choose_targets st p k
  | NTuple zs =>
      match zs with
      | [:: lo; hi] =>
          if Z.ltb (Z.of_nat p) (Z.max lo hi) then Err ValueError
          else if Z.leb hi lo then Err ValueError
          else let n := g_integers st lo hi in choose_targets n.2 p n.1
      | _ => Err ValueError
      end
  end.
End Gen.

Section Incoherence.
Variables (F : realFieldType) (h : hord) (p l e : nat).

(** [svd X] is the first factor of np.linalg.svd(X, full_matrices=False) *)
Variable svd : 'M[F]_(p, l) -> 'M[F]_(p, minn p l).

(** max() of a non-empty sequence; ValueError for an empty one *)
Definition py_max (xs : seq F) : res F := if xs is x :: xs' then Ok (foldl Order.max x xs') else Err ValueError.

(** np.sum(skeleton(moral_graph(A)), axis=0).max() *)
Definition max_degree (A : mat) : res Z :=
  if degrees (moral_graph h A) is d :: ds then Ok (foldl Z.max d ds) else Err ValueError.

(** scaled_latent_incoherence: model.py 564-577, for positive omegas (1 / 0. is inf) *)
Definition scaled_latent_incoherence (m : model F p l e) : res F :=
  bind (max_degree (mA m)) (fun deg =>
  bind (py_max [seq (let U := svd ((1%:M - (mB m)^T)^T *m diag_mx (map_mx (fun x => x^-1) (row i (momegas m)))
                                    *m (mgamma m)^T) in
                     let d := [seq (U *m U^T) j j | j <- enum 'I_p] in foldl Order.max (seq.head 0 d) (behead d))
               | i <- enum 'I_e]) (fun x => Ok (x * ZF F deg))).
End Incoherence.
