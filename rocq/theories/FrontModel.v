(** What _fit does with the argument data before the first model is fitted: main.py 439-446 and 490, with split_data
    (utils.py 1369-1390) and Score.__init__ (score.py 212-266).  Here data is any Python value; [MainModel] takes it as a
    list of arrays with p columns. *)
From Coq Require Import List QArith.
From mathcomp Require Import all_ssreflect.
From Verif Require Import Base ListModel NdModel.
Set Implicit Arguments.
Unset Strict Implicit.
Unset Printing Implicit Defensive.

Section Front.
Variables (V C : Type).

(** An element of data.  [Arr s rows] is an array of shape [size rows :: s], [Rows rows] a list with the given elements, and
    [NoLen] a value for which len raises TypeError (utils.py 1374): a number, None or an array without dimensions. *)
Inductive element := Arr (s : seq nat) (rows : seq (seq V)) | Rows (rows : seq (seq V)) | NoLen.

(** The argument data: a list; a tuple of elements, or an array of them; or a value that cannot be iterated (utils.py 1373)
    or has no length (utils.py 1389). *)
Inductive value := ListOf (xs : seq element) | TupleOf (xs : seq element) | NoSequence.

Definition rows_of (x : element) : seq (seq V) := match x with Arr _ r => r | Rows r => r | NoLen => [::] end.
Definition has_len (x : element) : bool := if x is NoLen then false else true.
(** [sample[start:start + fold_size]] has the type of sample: utils.py 1383 *)
Definition with_rows (x : element) (r : seq (seq V)) : element :=
  match x with Arr s _ => Arr s r | Rows _ => Rows r | NoLen => NoLen end.
(** An element as Score.__init__ sees it; None if it is not a numpy.ndarray (score.py 230) *)
Definition as_array (x : element) : option (nd V) :=
  if x is Arr s r then Some (MkNd (size r :: s) (flatten r)) else None.

Definition elements (v : value) : option (seq element) :=
  match v with ListOf xs => Some xs | TupleOf xs => Some xs | NoSequence => None end.

(** utils.split_data on such a value: utils.py 1366-1390.  The sum of the ratios is checked first; then the first element
    without a length raises TypeError.  The folds are lists of samples, whatever data is. *)
Definition split_value (shuffle : nat -> seq (seq V) -> seq (seq V)) (v : value) (ratios : seq Q) : res (seq (seq element)) :=
  if negb (Qeq_bool (fold_right Qplus 0%Q ratios) 1) then Err ValueError
  else if elements v is Some xs then
    if ~~ all has_len xs then Err TypeError
    else bind (split_data shuffle [seq rows_of x | x <- xs] ratios) (fun folds =>
         Ok [seq [seq with_rows xr.1 xr.2 | xr <- zip xs f] | f <- folds])
  else Err TypeError.

(** main.py 439-446 and the first call of Score in main.py 490.  [cov_fails fold] is whether
    [np.array([np.cov(X, rowvar=False) for X in fold])] raises (main.py 441-446), which is ValueError: np.cov takes at most two
    dimensions, and recent versions of numpy make no array of arrays with different shapes.  [solver] is whether B_solver is one
    of the three names.  The list nums_latent is given and not empty. *)
Definition fit_front (shuffle : nat -> seq (seq V) -> seq (seq V)) (cov : nd V -> C) (cov_fails : seq element -> bool)
  (solver : bool) (v : value) (ratios : seq Q) : res (seq C * seq nat) :=
  bind (split_value shuffle v ratios) (fun folds =>
  if folds is [:: training; test_graph; test_I] then
    if cov_fails test_graph || cov_fails test_I then Err ValueError
    else score_init cov (DList C [seq as_array x | x <- training]) solver
  else Err ValueError).
End Front.
