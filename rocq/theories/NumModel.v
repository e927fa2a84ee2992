(** Model of the Model class (model.py) over an arbitrary real field F: no rounding, NaN or infinity.  [log] stands
    for np.log and is not interpreted.  p variables, l latents, e environments.  h is the order in which sets
    are iterated (is_dag). *)
From Coq Require Import ZArith.
From mathcomp Require Import all_ssreflect all_algebra.
From Verif Require Import Base GraphModel.
Set Implicit Arguments.
Unset Strict Implicit.
Unset Printing Implicit Defensive.
Import Order.Theory GRing.Theory Num.Theory.
Local Open Scope ring_scope.

Section NumModel.
Variables (F : realFieldType) (log : F -> F) (h : hord) (p l e : nat).

(** The attributes set by the constructor: model.py 232-242 *)
Record model := MkModel {
  mA : mat; mB : 'M[F]_p; mgamma : 'M[F]_(l, p); momegas : 'M[F]_(e, p); mpsis : 'M[F]_(e, l); mI_B : 'M[F]_p }.

(** [not (B[np.logical_not(A)] != 0).any()]: model.py 204-206 *)
Definition respects (A : mat) (B : 'M[F]_p) : bool :=
  [forall i : 'I_p, forall j : 'I_p, Z.eqb (get A i j) Z0 ==> (B i j == 0)].

(** Model(A, B, gamma, omegas, psis): model.py 200-242, for arrays of the right sizes (the checks 208-229 are in
    [NdModel.v]). *)
Definition new_model (A : mat) (B : 'M[F]_p) (gamma : 'M[F]_(l, p)) (omegas : 'M[F]_(e, p)) (psis : 'M[F]_(e, l))
  : res model :=
  if length A != p then Err ValueError
  else bind (is_dag h A) (fun d =>
    if ~~ d then Err ValueError
    else if ~~ respects A B then Err ValueError
    else Ok (MkModel A B gamma omegas psis (1%:M - B^T))).

(** copy: model.py 268-273 *)
Definition copy_model (m : model) : res model := new_model (mA m) (mB m) (mgamma m) (momegas m) (mpsis m).

(** noise_term_covariances: model.py 330-332 *)
Definition noise_cov (gamma : 'M[F]_(l, p)) (omegas : 'M[F]_(e, p)) (psis : 'M[F]_(e, l)) (i : 'I_e) : 'M[F]_p :=
  gamma^T *m diag_mx (row i psis) *m gamma + diag_mx (row i omegas).
Definition mnoise (m : model) : 'I_e -> 'M[F]_p := noise_cov (mgamma m) (momegas m) (mpsis m).

(** np.linalg.inv applied to each environment's matrix (LinAlgError if one is singular):
    inv_noise_term_covariances, model.py 354-357 *)
Definition inv_noise (m : model) : res ('I_e -> 'M[F]_p) :=
  if [forall i, mnoise m i \in unitmx] then Ok (fun i => invmx (mnoise m i)) else Err OtherException.

(** score: model.py 301-309.  The division by sum(n_obs) is inside of the loop. *)
Definition score_term (I_B M sigma : 'M[F]_p) : F :=
  - log (\det M) + \tr (M *m (I_B *m sigma *m I_B^T)).
Definition score (m : model) (sigmas : 'I_e -> 'M[F]_p) (n_obs : 'I_e -> nat) : res F :=
  bind (inv_noise m) (fun Ms =>
    let tot := (\sum_i n_obs i)%N%:R in
    Ok (foldl (fun s i => (s + (n_obs i)%:R * score_term (mI_B m) (Ms i) (sigmas i)) / tot) 0 (enum 'I_e))).

(** covariances: model.py 378-383 *)
Definition covariances (m : model) : res ('I_e -> 'M[F]_p) :=
  let IB := 1%:M - (mB m)^T in
  if IB \in unitmx then Ok (fun i => invmx IB *m mnoise m i *m (invmx IB)^T) else Err OtherException.

(** np.var(omegas, axis=0): the mean of the squared deviations from the mean *)
Definition col_mean (X : 'M[F]_(e, p)) (j : 'I_p) : F := (\sum_i X i j) / e%:R.
Definition col_var (X : 'M[F]_(e, p)) (j : 'I_p) : F := (\sum_i (X i j - col_mean X j) ^+ 2) / e%:R.
(** np.max(omegas, axis=0), for e > 0 *)
Definition col_max (X : 'M[F]_(e, p)) (j : 'I_p) : F :=
  let c := [seq X i j | i <- enum 'I_e] in foldl Order.max (seq.head 0 c) (behead c).
(** intervention_strength: model.py 601 *)
Definition intervention_strength (m : model) (j : 'I_p) : F :=
  col_var (momegas m) j / col_max (momegas m) j.

End NumModel.

(** sample: model.py 495-541.  [PInt] is an int, [PList] a list, [POther] anything else. *)
Inductive pyval := PInt (z : Z) | PList (xs : seq pyval) | POther.

Definition check_entry (compute_covs : bool) (v : pyval) : res nat :=
  match v with
  | PInt n => if Z.leb n Z0 then Err ValueError
              else if Z.eqb n (Zpos xH) && compute_covs then Err ValueError
              else Ok (Z.to_nat n)
  | _ => Err TypeError
  end.

Fixpoint check_entries (compute_covs : bool) (vs : seq pyval) : res (seq nat) :=
  match vs with
  | [::] => Ok [::]
  | v :: vs' => bind (check_entry compute_covs v) (fun n =>
                bind (check_entries compute_covs vs') (fun ns => Ok (n :: ns)))
  end.

(** The validation of n_obs: model.py 497-520, with e environments *)
Definition check_n_obs (e : nat) (compute_covs : bool) (n_obs : pyval) : res (seq nat) :=
  match n_obs with
  | PInt n => if compute_covs && Z.eqb n (Zpos xH) then Err ValueError
              else if Z.ltb Z0 n then Ok (nseq e (Z.to_nat n))
              else Err ValueError
  | PList vs => if length vs != e then Err ValueError else check_entries compute_covs vs
  | POther => Err TypeError
  end.

Section Sample.
Variables (F : realFieldType) (p l e : nat).

(** sample: model.py 522-541.  [draw i cov n] is the i-th call generator.multivariate_normal(0, cov, n), a list of rows.
    The second component is the number of observations of each environment (returned with compute_covs). *)
Definition sample (draw : nat -> 'M[F]_p -> nat -> seq 'rV[F]_p) (m : model F p l e) (n_obs : pyval)
  (compute_covs : bool) : res (seq (seq 'rV[F]_p) * seq nat) :=
  bind (check_n_obs e compute_covs n_obs) (fun ns =>
  bind (covariances m) (fun covs =>
  Ok ([seq draw (nat_of_ord i) (covs i) (nth 0%N ns i) | i <- enum 'I_e], ns))).
End Sample.
