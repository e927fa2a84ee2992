(** Properties C34-C38. *)
From Coq Require Import List Arith ZArith QArith Permutation Sorted.
Import ListNotations.
From Verif Require Import Base GraphModel GraphSpec ListModel ListSpec ListProofs.
Open Scope nat_scope.

(** C34.  Sets are duplicate-free lists, compared by their elements. *)
Theorem C34_subsets : forall (h : hord) S, NoDup S ->
  (forall X, In X (subsets h S) -> NoDup X /\ incl X S) /\
  (forall T, incl T S -> exists X, In X (subsets h S) /\ forall x, In x X <-> In x T) /\
  NoDup (subsets h S) /\
  (forall X Y, In X (subsets h S) -> In Y (subsets h S) -> (forall x, In x X <-> In x Y) -> X = Y) /\
  StronglySorted (fun X Y => length X <= length Y) (subsets h S) /\
  length (subsets h S) = 2 ^ length S.
Proof. exact subsets_spec. Qed.
Print Assumptions C34_subsets.

(** C35.  [cast] is the conversion to the dtype. *)
Theorem C35_cartesian : forall (A : Type) (d : A) (cast : A -> A) (arrays : list (list A)),
  (arrays = [] -> cartesian cast arrays = Err TypeError) /\
  (arrays <> [] -> (exists a, In a arrays /\ a = []) -> cartesian cast arrays = Err ValueError) /\
  (arrays <> [] -> (forall a, In a arrays -> a <> []) ->
   (forall a x, In a arrays -> In x a -> cast x = x) ->
   exists rows, cartesian cast arrays = Ok rows /\
     length rows = fold_right Nat.mul 1 (map (@length A) arrays) /\
     (forall v, In v rows <-> Forall2 (fun x a => In x a) v arrays) /\
     forall r, r < length rows ->
       nth r rows [] = map (fun ai => nth (snd ai) (fst ai) d) (combine arrays (digits (map (@length A) arrays) r))).
Proof. exact cartesian_spec. Qed.
Print Assumptions C35_cartesian.

(** C36 *)
Theorem C36_sort_order : forall order L, Permutation order (seq 0 (length order)) ->
  ((exists x, In x L /\ ~ In x order) /\ sort_by order L = Err IndexError) \/
  ((forall x, In x L -> In x order) /\ exists R, sort_by order L = Ok R /\ Permutation R L /\
     forall u a v b w, R = u ++ a :: v ++ b :: w -> a = b \/ precedes order a b).
Proof. exact sort_order. Qed.
Print Assumptions C36_sort_order.

Theorem C36_sorted : forall L,
  sort_none L = sorted_tuple L /\ Permutation (sort_none L) L /\ StronglySorted Z.le (sort_none L).
Proof. exact sorted_spec. Qed.
Print Assumptions C36_sorted.

Theorem C36_member : forall p L A, square p A -> (forall B, In B L -> square p B) ->
  match member L A with
  | Some k => nth_error L k = Some A /\ forall m, m < k -> nth_error L m <> Some A
  | None => ~ In A L
  end.
Proof. exact member_spec. Qed.
Print Assumptions C36_member.

Theorem C36_all_but : forall k p,
  StronglySorted lt (all_but k p) /\ forall x, In x (all_but k p) <-> x < p /\ ~ In x k.
Proof. exact all_but_spec. Qed.
Print Assumptions C36_all_but.

Theorem C36_argmin : forall M c, 0 < c -> 0 < length M -> (forall r, In r M -> length r = c) ->
  exists i j, argmin c M = Ok (i, j) /\ i < length M /\ j < c /\
    (forall i' j', i' < length M -> j' < c -> (get M i j <= get M i' j')%Z) /\
    (forall i' j', i' < length M -> j' < c -> i' < i \/ (i' = i /\ j' < j) -> (get M i j < get M i' j')%Z).
Proof. exact argmin_spec. Qed.
Print Assumptions C36_argmin.

Theorem C36_argmax : forall M c, 0 < c -> 0 < length M -> (forall r, In r M -> length r = c) ->
  exists i j, argmax c M = Ok (i, j) /\ i < length M /\ j < c /\
    (forall i' j', i' < length M -> j' < c -> (get M i' j' <= get M i j)%Z) /\
    (forall i' j', i' < length M -> j' < c -> i' < i \/ (i' = i /\ j' < j) -> (get M i' j' < get M i j)%Z).
Proof. exact argmax_spec. Qed.
Print Assumptions C36_argmax.

(** C37 *)
Theorem C37_split_data : forall (A : Type) (shuffle : nat -> list A -> list A) data ratios,
  (forall e l, Permutation (shuffle e l) l) -> (forall r, In r ratios -> (0 <= r)%Q) ->
  (~ (fold_right Qplus 0 ratios == 1)%Q -> split_data shuffle data ratios = Err ValueError) /\
  ((fold_right Qplus 0 ratios == 1)%Q -> exists folds, split_data shuffle data ratios = Ok folds /\
    length folds = length ratios /\
    (forall f, In f folds -> length f = length data) /\
    forall e sample, nth_error data e = Some sample -> exists pi sizes, Permutation pi sample /\
      length sizes = length ratios /\
      (forall i, i < length ratios ->
         nearest_even (inject_Z (Z.of_nat (length sample)) * nth i ratios 0%Q) (Z.of_nat (nth i sizes 0)) /\
         nth e (nth i folds []) [] = part (total (firstn i sizes)) (nth i sizes 0) pi) /\
      Permutation (concat (map (fun f => nth e f []) folds) ++ skipn (total sizes) pi) sample).
Proof. exact split_data_parts. Qed.
Print Assumptions C37_split_data.

(** C38 is false: *)
Theorem C38_split_data_complete_refuted : forall (shuffle : nat -> list nat -> list nat),
  (forall e l, Permutation (shuffle e l) l) ->
  exists folds x, split_data shuffle [[0; 1; 2; 3; 4]] [1 # 2; 1 # 4; 1 # 4]%Q = Ok folds /\
    In x [0; 1; 2; 3; 4] /\ forall f, In f folds -> ~ In x (nth 0 f []).
Proof. exact split_data_loses. Qed.
Print Assumptions C38_split_data_complete_refuted.

(** It holds when every ratio gives a whole number of rows. *)
Theorem C38_split_data_complete_partial : forall (A : Type) (shuffle : nat -> list A -> list A) data ratios,
  (forall e l, Permutation (shuffle e l) l) -> (forall r, In r ratios -> (0 <= r)%Q) ->
  (fold_right Qplus 0 ratios == 1)%Q ->
  (forall sample r, In sample data -> In r ratios -> exists z, (inject_Z (Z.of_nat (length sample)) * r == inject_Z z)%Q) ->
  exists folds, split_data shuffle data ratios = Ok folds /\
    forall e sample, nth_error data e = Some sample -> Permutation (concat (map (fun f => nth e f []) folds)) sample.
Proof. exact split_data_int. Qed.
Print Assumptions C38_split_data_complete_partial.
