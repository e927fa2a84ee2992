(** The shape of the array of sample covariances. *)
From Coq Require Import ZArith.
From mathcomp Require Import all_ssreflect all_algebra.
From Verif Require Import Base GraphModel NumModel NdModel.
Set Implicit Arguments.
Unset Strict Implicit.
Unset Printing Implicit Defensive.
Import GRing.Theory.
Local Open Scope ring_scope.

Section Shape.
Variable F : realFieldType.

(** a.squeeze(): the dimensions of length one are dropped. *)
Definition squeeze (a : nd F) : nd F := MkNd [seq d <- nshape a | d != 1%N] (nvals a).

(** np.cov(x, rowvar=False), for a 2-dimensional x with at least two rows: numpy returns [c.squeeze()]
    (called in score.py 246-247, model.py 538, main.py 441-446, 475) *)
Definition nd_cov (x : nd F) : nd F :=
  let n := nlen x in let p := nth 0%N (nshape x) 1 in
  let mean j := n%:R^-1 * \sum_(i <- iota 0 n) ndget 0 x i j in
  squeeze (MkNd [:: p; p]
    [seq n.-1%:R^-1 * \sum_(r <- iota 0 n) (ndget 0 x r i - mean i) * (ndget 0 x r j - mean j) | i <- iota 0 p, j <- iota 0 p]).

(** np.array(xs) for a list of arrays: ValueError unless they have the same shape (numpy 1.24) *)
Definition np_array (xs : seq (nd F)) : res (nd F) :=
  let s := nshape (seq.head (MkNd [::] [::]) xs) in
  if all (fun x => nshape x == s) xs then Ok (MkNd (size xs :: s) (flatten [seq nvals x | x <- xs]))
  else Err ValueError.

(** Score.__init__ on a list of samples, up to the attribute sample_covariances: score.py 229-247 *)
Definition init_covariances (xs : seq (option (nd F))) (solver : bool) : res (nd F) :=
  bind (score_init nd_cov (DList (nd F) xs) solver) (fun r => np_array r.1).

(** Model.sample(..., compute_covs=True), the second value returned: model.py 537-539 *)
Definition sample_covs (X : seq (nd F)) : res (nd F) := np_array [seq nd_cov x | x <- X].

(** [(e, p, _) = sample_covariances.shape]: score.py 933, 1009, 1084.  ValueError unless there are three dimensions *)
Definition unpack3 (a : nd F) : res (nat * nat * nat) :=
  match nshape a with
  | [:: e; p; q] => Ok (e, p, q)
  | _ => Err ValueError
  end.

(** Score.score_dag without a cached result and without an initial model, up to the shape of the covariances:
    score.py 317-319, 332, 933 *)
Definition score_dag_start (h : hord) (covs : nd F) (A : mat) : res (nat * nat * nat) :=
  bind (is_dag h A) (fun d => if d then unpack3 covs else Err ValueError).

(** Entry [k, i, j] of a 3-dimensional array *)
Definition ndget3 (a : nd F) (k i j : nat) : F :=
  nth 0 (nvals a) ((k * nth 0%N (nshape a) 1 + i) * nth 0%N (nshape a) 2 + j).
End Shape.
