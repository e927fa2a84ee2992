(** Input checks on arrays whose shapes are not known: the Model constructor (model.py 200-242) and
    Score.__init__ (score.py 212-266). *)
From Coq Require Import ZArith.
From mathcomp Require Import all_ssreflect all_algebra.
From Verif Require Import Base GraphModel NumModel.
Set Implicit Arguments.
Unset Strict Implicit.
Unset Printing Implicit Defensive.
Import GRing.Theory.
Local Open Scope ring_scope.

(** numpy.ndarray: a shape and the entries in row-major order (one per index). *)
Record nd (V : Type) := MkNd { nshape : seq nat; nvals : seq V }.
Definition ndim V (a : nd V) : nat := size (nshape a).
Definition nlen V (a : nd V) : nat := nth 0%N (nshape a) 0.

Section Constructor.
Variables (F : realFieldType) (h : hord).

(** Entry [i, j] of a 2-dimensional array *)
Definition ndget V (d : V) (a : nd V) (i j : nat) : V := nth d (nvals a) (i * nth 0%N (nshape a) 1 + j).

(** The adjacency as a list of rows *)
Definition nd_mat (A : nd Z) : mat :=
  [seq [seq ndget Z0 A i j | j <- iota 0 (nth 0%N (nshape A) 1)] | i <- iota 0 (nlen A)].

(** utils.is_dag on a 2-dimensional array.  If it is not square, [np.logical_and(P, P.T)] (utils.py 685) raises
    ValueError, which is_dag turns into False, unless a dimension is 1: then it broadcasts and [P[mask]]
    (utils.py 689) raises IndexError. *)
Definition nd_is_dag (A : nd Z) : res bool :=
  let r := nlen A in let c := nth 0%N (nshape A) 1 in
  if r == c then is_dag h (nd_mat A)
  else if (r == 1%N) || (c == 1%N) then Err IndexError
  else Ok false.

(** [(B[np.logical_not(A)] != 0).any()], for A and B of equal shape: model.py 204-205 *)
Definition nd_breaks (A : nd Z) (B : nd F) : bool :=
  has (fun ab => Z.eqb ab.1 Z0 && (ab.2 != 0)) (zip (nvals A) (nvals B)).

(** The attributes of the object: model.py 232-242 *)
Record umodel := MkU { uA : nd Z; uB : nd F; ugamma : nd F; uomegas : nd F; upsis : nd F;
                       ul : nat; up : nat; ue : nat; uI_B : nd F }.

(** np.eye(p) - B.T: model.py 242 *)
Definition nd_I_B (p : nat) (B : nd F) : nd F :=
  MkNd [:: p; p] [seq (i == j)%:R - ndget 0 B j i | i <- iota 0 p, j <- iota 0 p].

(** Model(A, B, gamma, omegas, psis): model.py 200-242, for a 2-dimensional A *)
Definition nd_model (A : nd Z) (B gamma omegas psis : nd F) : res umodel :=
  if nshape A != nshape B then Err ValueError
  else bind (nd_is_dag A) (fun d =>
    if ~~ d then Err ValueError
    else if nd_breaks A B then Err ValueError
    else if ndim gamma != 2%N then Err ValueError
    else if ndim omegas != 2%N then Err ValueError
    else if ndim psis != 2%N then Err ValueError
    else if nth 0%N (nshape gamma) 1 != nlen A then Err ValueError
    else if nth 0%N (nshape omegas) 1 != nlen A then Err ValueError
    else if nlen omegas != nlen psis then Err ValueError
    else if nlen gamma != nth 0%N (nshape psis) 1 then Err ValueError
    else Ok (MkU A B gamma omegas psis (nlen gamma) (nlen B) (nlen omegas) (nd_I_B (nlen B) B))).
End Constructor.

Section ScoreInit.
Variables (V C : Type).

(** A value of the argument data: score.py 214, 227.  [DPair covs ns] is a tuple of two arrays with at least one
    dimension, given by their entries along the first axis; an entry of the first comes with its len(), None if
    it has none (a number).  [DList xs] is a list, where None is an entry that is not a numpy.ndarray.  [DOther] is anything
    else, including other tuples and pairs with a 0-dimensional array (len raises TypeError). *)
Inductive data := DPair (covs : seq (option nat * C)) (ns : seq nat) | DList (xs : seq (option (nd V))) | DOther.

(** [x.shape[1] for x in data]: IndexError for an array with less than two dimensions (score.py 233) *)
Fixpoint widths (xs : seq (nd V)) : res (seq nat) :=
  match xs with
  | [::] => Ok [::]
  | x :: xs' =>
      if (ndim x < 2)%N then Err IndexError else bind (widths xs') (fun ws => Ok (nth 0%N (nshape x) 1 :: ws))
  end.

(** Score.__init__: score.py 212-266, up to the attributes sample_covariances and n_obs.  [cov x] is
    np.cov(x, rowvar=False); [solver] is whether B_solver is one of the three names. *)
Definition score_init (cov : nd V -> C) (d : data) (solver : bool) : res (seq C * seq nat) :=
  bind
    (match d with
     | DPair covs ns =>
         if size covs != size ns then Err ValueError
         else if ~~ all (fun s => isSome s.1) covs then Err TypeError
         else if (1 < size (undup [seq s.1 | s <- covs]))%N then Err ValueError
         else Ok ([seq s.2 | s <- covs], ns)
     | DList xs =>
         if ~~ all isSome xs then Err TypeError
         else let ys := pmap id xs in
           bind (widths ys) (fun ps =>
           if (1 < size (undup ps))%N then Err ValueError
           else let ns := [seq nlen y | y <- ys] in
             if has (fun n => n == 1%N) ns then Err ValueError
             else Ok ([seq cov y | y <- ys], ns))
     | DOther => Err TypeError
     end)
    (fun r => if solver then Ok r else Err ValueError).
End ScoreInit.
