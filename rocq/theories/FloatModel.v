(** split_data with ratios that are floats: utils.py 1346-1390.  [ListModel.split_data] computes with rationals. *)
From Coq Require Import List ZArith QArith Qround.
Import ListNotations.
From Verif Require Import Base ListModel.
Local Open Scope Z_scope.

(** 2^e *)
Definition pow2 (e : Z) : Q := (2 ^ e)%Q.

(** The exponent of a positive rational: 2^(log2 q) <= q < 2^(log2 q + 1) *)
Definition log2 (q : Q) : Z :=
  let l := Z.log2 (Qnum q) - Z.log2 (Zpos (Qden q)) in
  if Qle_bool (pow2 l) q then l else l - 1.

(** Rounding of a rational to the nearest binary64 number (53 bits), ties to even, for numbers that are 0 or positive and neither
    overflow nor underflow. *)
Definition fl (q : Q) : Q :=
  if Qle_bool q 0 then 0
  else let e := log2 q - 52 in
    (inject_Z (round_half_even (q * pow2 (- e))) * pow2 e)%Q.

(** The order in which np.sum adds (utils.py 1369) depends on the version of numpy: any bracketing of the elements *)
Inductive sum_order := Leaf (q : Q) | Plus (a b : sum_order).
Fixpoint leaves (t : sum_order) : list Q := match t with Leaf q => [q] | Plus a b => leaves a ++ leaves b end.
Fixpoint fl_sum (t : sum_order) : Q := match t with Leaf q => q | Plus a b => fl (fl_sum a + fl_sum b) end.

(** utils.py 1379-1387 with [round(n * ratio)] computed with floats.  The conversion of n is exact below 2^53. *)
Fixpoint cut_fl {A : Type} (n : nat) (sample : list A) (start : nat) (ratios : list Q) : list (list A) :=
  match ratios with
  | [] => []
  | r :: ratios' =>
      let fold_size := Z.to_nat (round_half_even (fl (inject_Z (Z.of_nat n) * r))) in
      slice start fold_size sample :: cut_fl n sample (start + fold_size) ratios'
  end.

(** split_data(data, ratios); the ratios are the leaves of t, possibly after the 0 that np.sum starts with *)
Definition split_floats {A : Type} (t : sum_order) (shuffle : nat -> list A -> list A) (data : list (list A))
  (ratios : list Q) : res (list (list (list A))) :=
  if negb (Qeq_bool (fl_sum t) 1) then Err ValueError
  else
    let n_folds := length ratios in
    let folds := fold_left (fun folds es =>
        append_folds folds (cut_fl (length (snd es)) (shuffle (fst es) (snd es)) 0 ratios))
      (combine (seq 0 (length data)) data) (repeat [] n_folds) in
    match folds with
    | [] => Err KeyError
    | f0 :: _ => if (length f0 =? length data)%nat then Ok folds else Err AssertionError
    end.
