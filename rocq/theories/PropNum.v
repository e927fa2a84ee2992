(** Properties C58-C63, C68, C71 and C72: models and their arguments. *)
From Coq Require Import ZArith.
From mathcomp Require Import all_ssreflect all_algebra all_fingroup.
From Verif Require Import Base GraphModel GraphSpec NumModel NumSpec NdModel ArraySpec HeapModel HeapSpec.
From Verif Require Import NumProofs SampleProofs NdProofs HeapProofs.
Set Implicit Arguments.
Unset Strict Implicit.
Unset Printing Implicit Defensive.
Import Order.Theory GRing.Theory Num.Theory.
Local Open Scope ring_scope.

(** C58, for a 2-dimensional adjacency of non-negative integers.  The exception is ValueError in all cases but one:
    a non-square adjacency with one row or one column. *)
Theorem C58_constructor_partial : forall (F : realFieldType) (h : hord) r c (M : mat) (B gamma omegas psis : nd F),
  rows r c M -> nonneg M -> size (nvals B) = foldr muln 1%N (nshape B) ->
  let A := MkNd [:: r; c] (flatten M) in
  let ok := (exists l e, fits r c B gamma omegas psis l e) /\ acyclic M /\
            forall i j, (i < r)%N -> (j < c)%N -> entry 0 (nvals B) c i j <> 0 -> edge M i j in
  (ok /\ exists m, nd_model h A B gamma omegas psis = Ok m /\
         [/\ uA m = A, uB m = B, ugamma m = gamma, uomegas m = omegas & upsis m = psis] /\
         [/\ fits r c B gamma omegas psis (ul m) (ue m), up m = r, nshape (uI_B m) = [:: r; r] &
             forall i j, (i < r)%N -> (j < r)%N ->
               entry 0 (nvals (uI_B m)) r i j = (i == j)%:R - entry 0 (nvals B) r j i]) \/
  (~ ok /\ (nd_model h A B gamma omegas psis = Err ValueError \/
            nd_model h A B gamma omegas psis = Err IndexError /\ r <> c /\ (r = 1%N \/ c = 1%N))).
Proof. exact nd_model_spec. Qed.
Print Assumptions C58_constructor_partial.

(** C58: with one row and two columns, the exception is an IndexError. *)
Theorem C58_constructor_refuted : forall (F : realFieldType) (h : hord),
  exists (M : mat) (B gamma omegas psis : nd F),
    rows 1 2 M /\ nonneg M /\ size (nvals B) = foldr muln 1%N (nshape B) /\
    nd_model h (MkNd [:: 1%N; 2%N] (flatten M)) B gamma omegas psis = Err IndexError.
Proof. exact nd_model_index_error. Qed.
Print Assumptions C58_constructor_refuted.

(** C58: on arrays that fit, the constructor is the one on matrices of fixed sizes, about which the other properties are
    stated. *)
Theorem C58_constructor_typed : forall (F : realFieldType) (h : hord) r (M : mat) (B gamma omegas psis : nd F) l e m,
  rows r r M -> nonneg M -> size (nvals B) = foldr muln 1%N (nshape B) ->
  fits r r B gamma omegas psis l e ->
  nd_model h (MkNd [:: r; r] (flatten M)) B gamma omegas psis = Ok m ->
  new_model h M (to_mx r r B) (to_mx l r gamma) (to_mx e r omegas) (to_mx e l psis) =
  Ok (MkModel M (to_mx r r (uB m)) (to_mx l r (ugamma m)) (to_mx e r (uomegas m)) (to_mx e l (upsis m))
              (to_mx r r (uI_B m))).
Proof. exact nd_model_typed. Qed.
Print Assumptions C58_constructor_typed.

(** C59: after any history cs, the copy of object k has its parameters and a consistent I_B, and commands that do not
    change one of the two objects do not affect it. *)
Theorem C59_copy_independent : forall (V : Type) (d : V) (valid : V -> V -> V -> V -> V -> res unit) (ib : V -> V)
    (cs : seq (cmd V)) k (cs' : seq (cmd V)),
  let s := exec_all V d valid ib cs (start V) in
  let o := view V d s k in let n := length (objs V s) in
  (k < n)%coq_nat -> valid (s_A V o) (s_B V o) (s_gamma V o) (s_omegas V o) (s_psis V o) = Ok tt ->
  let s1 := exec V d valid ib (CCopy V k) s in
  length (objs V s1) = n.+1 /\
  view V d s1 n = Six (s_A V o) (s_B V o) (s_gamma V o) (s_omegas V o) (s_psis V o) (ib (s_B V o)) /\
  view V d s1 k = o /\
  (List.Forall (fun c => ~ changes V n c) cs' -> view V d (exec_all V d valid ib cs' s1) n = view V d s1 n) /\
  (List.Forall (fun c => ~ changes V k c) cs' -> view V d (exec_all V d valid ib cs' s1) k = view V d s1 k).
Proof. exact copy_independent. Qed.
Print Assumptions C59_copy_independent.

(** C59: memory with shared arrays behaves as if every model and every array of the caller had its own values. *)
Theorem C59_value_semantics : forall (V : Type) (d : V) (valid : V -> V -> V -> V -> V -> res unit) (ib : V -> V)
    (cs : seq (cmd V)),
  let s := exec_all V d valid ib cs (start V) in
  VStore V [seq deref V d s r | r <- arrs V s] [seq view V d s k | k <- List.seq 0 (length (objs V s))] (cached V s) =
  vexec_all V d valid ib cs.
Proof. exact (fun V d valid ib cs => proj2 (exec_start V d valid ib cs)). Qed.
Print Assumptions C59_value_semantics.

(** C59: copy() succeeds for models built by the constructor, also after their parameters were replaced. *)
Theorem C59_copy_succeeds : forall (F : realFieldType) (h : hord) p l e A (B : 'M[F]_p) (g : 'M[F]_(l, p))
    (o : 'M[F]_(e, p)) (s : 'M[F]_(e, l)) m (B' : 'M[F]_p) (g' : 'M[F]_(l, p)) (o' : 'M[F]_(e, p)) (s' : 'M[F]_(e, l)),
  square p A -> nonneg A -> new_model h A B g o s = Ok m -> supported A B' ->
  copy_model h (MkModel (mA m) B' g' o' s' (mI_B m)) = Ok (MkModel A B' g' o' s' (1%:M - B'^T)).
Proof. exact copy_model_spec. Qed.
Print Assumptions C59_copy_succeeds.

(** C60 *)
Theorem C60_covariances : forall (F : realFieldType) (h : hord) p l e A (B : 'M[F]_p) (g : 'M[F]_(l, p))
    (o : 'M[F]_(e, p)) (s : 'M[F]_(e, l)) m,
  square p A -> nonneg A -> new_model h A B g o s = Ok m ->
  \det (1%:M - B^T) = 1 /\
  exists Sigma, covariances m = Ok Sigma /\ forall i,
    (1%:M - B^T) *m Sigma i *m (1%:M - B^T)^T = g^T *m diag_mx (row i s) *m g + diag_mx (row i o) /\
    (Sigma i)^T = Sigma i /\
    forall X, (1%:M - B^T) *m X *m (1%:M - B^T)^T = g^T *m diag_mx (row i s) *m g + diag_mx (row i o) -> X = Sigma i.
Proof. exact covariances_spec. Qed.
Print Assumptions C60_covariances.

(** C61.  0 < \det: the argument of the logarithm in score is positive. *)
Theorem C61_positive_definite : forall (F : realFieldType) (log : F -> F) (h : hord) p l e A (B : 'M[F]_p)
    (g : 'M[F]_(l, p)) (o : 'M[F]_(e, p)) (s : 'M[F]_(e, l)) m sigmas n_obs,
  square p A -> nonneg A -> new_model h A B g o s = Ok m -> positive o -> (forall a b, 0 <= s a b) ->
  (forall i, posdef (g^T *m diag_mx (row i s) *m g + diag_mx (row i o))) /\
  (exists Ms, inv_noise m = Ok Ms /\
     forall i, posdef (Ms i) /\ 0 < \det (Ms i) /\ Ms i *m (g^T *m diag_mx (row i s) *m g + diag_mx (row i o)) = 1%:M) /\
  (exists Sigma, covariances m = Ok Sigma /\ forall i, posdef (Sigma i)) /\
  exists x, score log m sigmas n_obs = Ok x.
Proof. exact model_posdef. Qed.
Print Assumptions C61_positive_definite.

(** C62 is false: two environments, swapped. *)
Theorem C62_score_order_refuted : forall (F : realFieldType) (log : F -> F) (h : hord),
  exists (m m' : model F 1 0 2) (o : 'M[F]_(2, 1)) (s : 'M[F]_(2, 0)) (sigmas : 'I_2 -> 'M[F]_1) (n : 'I_2 -> nat)
         (t : 'S_2) (x y : F),
    [/\ positive o, (forall i, posdef (sigmas i)) & (forall i, (0 < n i)%N)] /\
    [/\ new_model h A1 0 0 o s = Ok m, new_model h A1 0 0 (row_perm t o) (row_perm t s) = Ok m',
        score log m sigmas n = Ok x, score log m' (sigmas \o t) (n \o t) = Ok y & x <> y].
Proof. exact score_order. Qed.
Print Assumptions C62_score_order_refuted.

(** C62: what score returns.  The term of environment i is divided by the total number of observations e - i times
    instead of once, so this is the weighted average only for e = 1. *)
Theorem C62_score_value_partial : forall (F : realFieldType) (log : F -> F) p l e (m : model F p l e) sigmas n_obs,
  positive (momegas m) -> (forall a b, 0 <= mpsis m a b) ->
  let K i := invmx ((mgamma m)^T *m diag_mx (row i (mpsis m)) *m mgamma m + diag_mx (row i (momegas m))) in
  score log m sigmas n_obs = Ok (\sum_(i < e) (n_obs i)%:R *
     (- log (\det (K i)) + \tr (K i *m (mI_B m *m sigmas i *m (mI_B m)^T))) / (\sum_i n_obs i)%N%:R ^+ (e - i)).
Proof. exact score_value. Qed.
Print Assumptions C62_score_value_partial.

(** C63 *)
Theorem C63_sample : forall (F : realFieldType) (h : hord) p l e (draw : nat -> 'M[F]_p -> nat -> seq 'rV[F]_p)
    A (B : 'M[F]_p) (g : 'M[F]_(l, p)) (o : 'M[F]_(e, p)) (s : 'M[F]_(e, l)) m v covs,
  square p A -> nonneg A -> new_model h A B g o s = Ok m ->
  let returns ns := exists Sigma xs, covariances m = Ok Sigma /\ sample draw m v covs = Ok (xs, ns) /\
    size xs = e /\ forall i : 'I_e, nth [::] xs i = draw i (Sigma i) (nth 0%N ns i) in
  match v with
  | POther => sample draw m v covs = Err TypeError
  | PInt _ => (bad covs v ValueError /\ sample draw m v covs = Err ValueError) \/
              (exists n, count covs v n /\ returns (nseq e n))
  | PList vs => (length vs <> e /\ sample draw m v covs = Err ValueError) \/
      (length vs = e /\ exists pre u post x, vs = pre ++ u :: post /\
         List.Forall (fun u => exists n, count covs u n) pre /\ bad covs u x /\ sample draw m v covs = Err x) \/
      (length vs = e /\ exists ns, List.Forall2 (count covs) vs ns /\ returns ns)
  end.
Proof. exact sample_spec. Qed.
Print Assumptions C63_sample.

(** C68.  That the columns of non-targets are constant in a fitted model is C47. *)
Theorem C68_intervention_strength : forall (F : realFieldType) p l e (m : model F p l e) j,
  (0 < e)%N -> positive (momegas m) ->
  0 <= intervention_strength m j /\ (intervention_strength m j = 0 <-> const_col (momegas m) j).
Proof. exact intervention_strength_spec. Qed.
Print Assumptions C68_intervention_strength.

(** C71: a pair of arrays *)
Theorem C71_score_init_pair : forall (V C : Type) (cov : nd V -> C) (covs : seq (option nat * C)) ns (solver : bool),
  let ok := [/\ size covs = size ns, exists w, forall s, List.In s covs -> s.1 = Some w & solver] in
  (ok -> score_init cov (DPair V covs ns) solver = Ok ([seq s.2 | s <- covs], ns)) /\
  (~ ok -> score_init cov (DPair V covs ns) solver = Err ValueError \/
           score_init cov (DPair V covs ns) solver = Err TypeError /\ exists s, List.In s covs /\ s.1 = None).
Proof. exact score_init_pair. Qed.
Print Assumptions C71_score_init_pair.

(** C71: a list *)
Theorem C71_score_init_list : forall (V C : Type) (cov : nd V -> C) (xs : seq (option (nd V))) (solver : bool),
  (exists x, List.In x xs /\ x = None) /\ score_init cov (DList C xs) solver = Err TypeError \/
  exists ys, xs = [seq Some y | y <- ys] /\
  let ok := [/\ forall y, List.In y ys -> nlen y <> 1%N,
                forall y y', List.In y ys -> List.In y' ys -> nth 0%N (nshape y) 1 = nth 0%N (nshape y') 1 & solver] in
  ((exists y, List.In y ys /\ (size (nshape y) < 2)%N) /\ score_init cov (DList C xs) solver = Err IndexError) \/
  ((forall y, List.In y ys -> (2 <= size (nshape y))%N) /\
   (ok -> score_init cov (DList C xs) solver = Ok ([seq cov y | y <- ys], [seq nlen y | y <- ys])) /\
   (~ ok -> score_init cov (DList C xs) solver = Err ValueError)).
Proof. exact score_init_list. Qed.
Print Assumptions C71_score_init_list.

(** C71: anything else *)
Theorem C71_score_init_other : forall (V C : Type) (cov : nd V -> C) (solver : bool),
  score_init cov (DOther V C) solver = Err TypeError.
Proof. exact score_init_other. Qed.
Print Assumptions C71_score_init_other.

(** C72 is false: changing B in the object that was read from the cache changes what is read next. *)
Theorem C72_cache_alias_refuted : forall (V : Type) (d x y : V) (ib : V -> V), x <> y ->
  let valid := fun _ _ _ _ _ : V => Ok tt in
  let s := exec_all V d valid ib [:: CArr V x; CNew V 0 0 0 0 0; CWrite V 0] (start V) in
  exists q, List.nth_error (cached V s) 0 = Some q /\ s_B V (view V d s q) = x /\
    let s' := exec V d valid ib (CPoke V q aB (fun _ => y)) s in
    List.nth_error (cached V s') 0 = Some q /\ s_B V (view V d s' q) = y.
Proof. exact cache_alias. Qed.
Print Assumptions C72_cache_alias_refuted.

(** C72: an entry of the cache only changes through the object that was read from it; changes to the model that was
    written, to copies and to arrays passed to the constructor have no effect. *)
Theorem C72_cache_stable_partial : forall (V : Type) (d : V) (valid : V -> V -> V -> V -> V -> res unit) (ib : V -> V)
    (cs cs' : seq (cmd V)) i q,
  let s := exec_all V d valid ib cs (start V) in
  List.nth_error (cached V s) i = Some q -> List.Forall (fun c => ~ changes V q c) cs' ->
  List.nth_error (cached V (exec_all V d valid ib cs' s)) i = Some q /\
  view V d (exec_all V d valid ib cs' s) q = view V d s q.
Proof. exact cache_frame. Qed.
Print Assumptions C72_cache_stable_partial.
