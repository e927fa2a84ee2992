(** Model of the list utilities of utils.py. *)
From Coq Require Import List Arith ZArith QArith Qround Lia Bool Permutation.
Import ListNotations.
From Verif Require Import Base GraphModel.
Open Scope nat_scope.

(** itertools.combinations(l, r): the sublists of length r, by position *)
Fixpoint combinations {A : Type} (r : nat) (l : list A) : list (list A) :=
  match r, l with
  | 0, _ => [[]]
  | S _, [] => []
  | S r', x :: l' => map (cons x) (combinations r' l') ++ combinations r l'
  end.

(** subsets: utils.py 1274-1292.  The members are sets, given by duplicate-free lists. *)
Definition subsets (h : hord) (S : list nat) : list (list nat) :=
  flat_map (fun r => combinations r (h r S)) (seq 0 (length S + 1)).

(** sort without an order: utils.py 1264-1266; sorted_tuple: utils.py 1393-1397 *)
Definition sort_none (L : list Z) : list Z := isort Z.leb L.
Definition sorted_tuple (L : list Z) : list Z := isort Z.leb L.

(** member: utils.py 1295-1317, for a non-empty list of matrices of the same shape *)
Fixpoint first_where (i : nat) (bs : list bool) : option nat :=
  match bs with
  | [] => None
  | b :: bs' => if b then Some i else first_where (S i) bs'
  end.
Definition member (L : list mat) (A : mat) : option nat :=
  first_where 0 (map (fun B => mateqb B A) L).

(** all_but: utils.py 1400-1403 *)
Definition all_but (k : list nat) (p : nat) : list nat :=
  filter (fun i => negb (memb i k)) (seq 0 p).

(** np.argmin / np.argmax on a flattened array: the first best position.  [better x y]: x replaces y. *)
Fixpoint arg_scan {A : Type} (better : A -> A -> bool) (l : list A) (i besti : nat) (best : A) : nat :=
  match l with
  | [] => besti
  | x :: l' => if better x best then arg_scan better l' (S i) i x
               else arg_scan better l' (S i) besti best
  end.
Definition np_arg {A : Type} (better : A -> A -> bool) (l : list A) : res nat :=
  match l with
  | [] => Err ValueError
  | x :: l' => Ok (arg_scan better l' 1 0 x)
  end.

(** argmin, argmax on a 2-dimensional array with c columns: utils.py 54-80 *)
Definition arg2 {A : Type} (better : A -> A -> bool) (c : nat) (M : list (list A)) : res (nat * nat) :=
  let* k := np_arg better (concat M) in Ok (k / c, k mod c).
Definition argmin (c : nat) (M : list (list Z)) : res (nat * nat) := arg2 Z.ltb c M.
Definition argmax (c : nat) (M : list (list Z)) : res (nat * nat) := arg2 Z.gtb c M.

(** Python's round(): nearest integer, ties to even. *)
Definition round_half_even (q : Q) : Z :=
  let f := Qfloor q in
  let r := (q - inject_Z f)%Q in
  if Qlt_le_dec r (1 # 2) then f
  else if Qlt_le_dec (1 # 2) r then (f + 1)%Z
  else if Z.even f then f else (f + 1)%Z.

(** [sample[start:start + size]] for start, size >= 0 *)
Definition slice {A : Type} (start size : nat) (l : list A) : list A := firstn size (skipn start l).

(** The inner loop of split_data: utils.py 1379-1386.  The test [i < n_folds] is always true.  The shuffled sample
    is cut into consecutive parts; ratios are non-negative. *)
Fixpoint cut {A : Type} (n : nat) (sample : list A) (start : nat) (ratios : list Q) : list (list A) :=
  match ratios with
  | [] => []
  | r :: ratios' =>
      let fold_size := Z.to_nat (round_half_even (inject_Z (Z.of_nat n) * r)) in
      slice start fold_size sample :: cut n sample (start + fold_size) ratios'
  end.

(** [folds[i].append(...)] over the environments: utils.py 1373-1386 *)
Definition append_folds {A : Type} (folds : list (list (list A))) (parts : list (list A))
  : list (list (list A)) :=
  map (fun fp => fst fp ++ [snd fp]) (combine folds parts).

(** split_data: utils.py 1346-1390.  A sample is the list of its rows; [shuffle e] is the effect of the e-th
    call to rng.shuffle. *)
Definition split_data {A : Type} (shuffle : nat -> list A -> list A) (data : list (list A))
  (ratios : list Q) : res (list (list (list A))) :=
  if negb (Qeq_bool (fold_right Qplus 0%Q ratios) 1) then Err ValueError
  else
    let n_folds := length ratios in
    let folds := fold_left (fun folds es =>
        append_folds folds (cut (length (snd es)) (shuffle (fst es) (snd es)) 0 ratios))
      (combine (seq 0 (length data)) data) (repeat [] n_folds) in
    match folds with
    | [] => Err KeyError
    | f0 :: _ => if length f0 =? length data then Ok folds else Err AssertionError
    end.
