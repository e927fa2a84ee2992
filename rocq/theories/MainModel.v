(** Model of main.py over an arbitrary real field: pruning, model selection, _fit and the two entry points.
    verbose is 0. *)
From Coq Require Import ZArith QArith_base.
From mathcomp Require Import all_ssreflect all_algebra.
From Verif Require Import Base GraphModel ListModel NumModel ScoreModel.
Set Implicit Arguments.
Unset Strict Implicit.
Unset Printing Implicit Defensive.
Import Order.Theory GRing.Theory Num.Theory.
Local Open Scope nat_scope.
Local Open Scope ring_scope.

(** A computation that may raise, on an object with state S *)
Definition sbind S A B (x : S * res A) (f : S -> A -> S * res B) : S * res B :=
  match x.2 with Ok a => f x.1 a | Err e => (x.1, Err e) end.

(** _best_scoring: main.py 596-600.  np.argmin returns the first minimum. *)
Definition best_scoring (F : realFieldType) (T : Type) (tuples : seq (F * T)) : res (F * T) :=
  bind (np_arg (fun x y : F => x < y) [seq t.1 | t <- tuples]) (fun i =>
  match List.nth_error tuples i with Some t => Ok t | None => Err IndexError end).

(** _weakest_edge: main.py 694-696.  None is np.Inf. *)
Section Weakest.
Variables (F : realFieldType) (p : nat).
Definition inf_lt (x y : option F) : bool :=
  match x, y with Some a, Some b => a < b | Some _, None => true | None, _ => false end.
Definition weakest_edge (B : 'M[F]_p) : res (nat * nat) :=
  arg2 inf_lt p [seq [seq (if B i j == 0 then None else Some `|B i j|) | j <- enum 'I_p] | i <- enum 'I_p].
End Weakest.

Section Prune.
Variables (F : realFieldType) (p l e : nat) (cf : conf F p l e).
Local Notation model := (model F p l e).
(** The random draws of the k-th call of score_dag on this object (score.py: np.random.uniform) *)
Variable rnds : nat -> nat -> 'M[F]_p * 'M[F]_p.

(** A Score object: its cache and the number of calls so far *)
Definition sobj : Type := option (cache model F) * nat.
Definition new_sobj : sobj := (Some (empty_cache _ _), 0%N).
Definition sdag (s : sobj) (A : mat) (I : seq nat) : sobj * res (model * F) :=
  let r := score_dag cf s.1 A I None (rnds s.2) in ((r.1, s.2.+1), r.2).

(** The loop of _prune_graphs: main.py 634-643.  current_dag is changed in place: score_dag, the cache and the
    models copied it. *)
Fixpoint prune_loop (fuel : nat) (full_I : seq nat) (s : sobj) (dag : mat) (m : model) : sobj * res (seq model) :=
  if Z.ltb Z0 (msum dag) then
    if fuel is fuel'.+1 then
      match weakest_edge (mB m) with
      | Err x => (s, Err x)
      | Ok (i, j) =>
          let dag' := upd dag i j Z0 in
          sbind (sdag s dag' full_I) (fun s r =>
          sbind (prune_loop fuel' full_I s dag' r.1) (fun s ms => (s, Ok (r.1 :: ms))))
      end
    else (s, Err OutOfFuel)
  else (s, Ok [::]).

(** One graph: main.py 612-643.  [gmax] is abs(B).max(). *)
Definition threshold_graph (t : F) (B : 'M[F]_p) : res mat :=
  bind (amax B) (fun gmax =>
  Ok [seq [seq (if gmax * t < `|B i j| then Zpos xH else Z0) | j <- enum 'I_p] | i <- enum 'I_p]).
Definition prune_graph (fuel : nat) (prune : bool) (threshold : option F) (full_I : seq nat) (s : sobj) (graph : mat)
  : sobj * res (seq model) :=
  sbind (sdag s graph full_I) (fun s r =>
  if ~~ prune then (s, Ok [:: r.1])
  else if threshold is Some t then
    match threshold_graph t (mB r.1) with
    | Err x => (s, Err x)
    | Ok A => sbind (sdag s A full_I) (fun s r => (s, Ok [:: r.1]))
    end
  else sbind (prune_loop fuel full_I s graph r.1) (fun s ms => (s, Ok (r.1 :: ms)))).

Fixpoint prune_each (fuel : nat) (prune : bool) (threshold : option F) (full_I : seq nat) (s : sobj) (graphs : seq mat)
  : sobj * res (seq model) :=
  if graphs is g :: gs then
    sbind (prune_graph fuel prune threshold full_I s g) (fun s ms =>
    sbind (prune_each fuel prune threshold full_I s gs) (fun s ms' => (s, Ok (ms ++ ms'))))
  else (s, Ok [::]).

(** _prune_graphs: main.py 603-645.  graphs is an array of adjacencies of one size; without graphs it has one
    dimension and graphs.shape[1] raises IndexError. *)
Definition prune_graphs (fuel : nat) (prune : bool) (threshold : option F) (s : sobj) (graphs : seq mat)
  : sobj * res (seq model) :=
  if graphs is g :: _ then prune_each fuel prune threshold (iota 0 (length g)) s graphs
  else (s, Err IndexError).

(** [np.argsort]; the order of equal elements is not specified *)
Variable argsort : seq F -> seq nat.

(** The variances of the noise-term variances: main.py 663, for models of a graph with p variables *)
Definition variances (m : model) : seq F := [seq col_var (momegas m) j | j <- enum 'I_p].
Definition smax (xs : seq F) : res F := if xs is x :: xs' then Ok (foldl Order.max x xs') else Err ValueError.

(** The loop of _prune_I: main.py 681-686 *)
Fixpoint prune_I_loop (s : sobj) (graph : mat) (I : seq nat) (order : seq nat) : sobj * res (seq (model * seq nat)) :=
  if order is j :: js then
    let I' := minus I [:: j] in
    sbind (sdag s graph I') (fun s r =>
    sbind (prune_I_loop s graph I' js) (fun s rs => (s, Ok ((r.1, I') :: rs))))
  else (s, Ok [::]).

(** _prune_I: main.py 648-688 *)
Definition prune_I (threshold : option F) (s : sobj) (graph : mat) : sobj * res (seq (model * seq nat)) :=
  let full_I := iota 0 (length graph) in
  sbind (sdag s graph full_I) (fun s r =>
  let vs := variances r.1 in
  match threshold with
  | Some t =>
      match smax vs with
      | Err x => (s, Err x)
      | Ok v =>
          let I := [seq k <- iota 0 (size vs) | v * t < nth 0 vs k] in
          sbind (sdag s graph I) (fun s r => (s, Ok [:: (r.1, I)]))
      end
  | None => sbind (prune_I_loop s graph full_I (argsort vs)) (fun s rs => (s, Ok ((r.1, full_I) :: rs)))
  end).
End Prune.

(** * _scree_selection *)

Section Scree.
Variables (F : realFieldType) (log : F -> F) (pi : F).

Definition mean (xs : seq F) : F := (\sum_(x <- xs) x) / (size xs)%:R.
(** xs.var(ddof=1) *)
Definition var1 (xs : seq F) : F := (\sum_(x <- xs) (x - mean xs) ^+ 2) / (size xs).-1%:R.

(** _gaussian_log_likelihood: main.py 563-565 *)
Definition gaussian_ll (xs : seq F) (m v : F) : F :=
  - (log (2%:R * pi) / 2%:R) - log v / 2%:R - (\sum_(x <- xs) (x - m) ^+ 2) / 2%:R / v.

(** The loop body: main.py 580-587.  With p = 2 both variances are the int 0 and the division raises. *)
Definition scree_ll (svds : seq F) (h : nat) : res F :=
  let p := size svds in
  let s1 := take h svds in let s2 := drop h svds in
  let v1 := if (1 < size s1)%N then var1 s1 else 0 in
  let v2 := if (1 < size s2)%N then var1 s2 else 0 in
  if p == 2%N then Err ZeroDivisionError
  else let v := (h.-1%:R * v1 + (p - h - 1)%N%:R * v2) / (p - 2)%N%:R in
    Ok (gaussian_ll s1 (mean s1) v + gaussian_ll s2 (mean s2) v).
Fixpoint scree_lls (svds : seq F) (hs : seq nat) : res (seq F) :=
  if hs is h :: hs' then bind (scree_ll svds h) (fun x => bind (scree_lls svds hs') (fun xs => Ok (x :: xs)))
  else Ok [::].

(** _scree_selection: main.py 576-588, given the singular values *)
Definition scree_selection (svds : seq F) : res nat :=
  bind (scree_lls svds (iota 1 (size svds).-1)) (fun lls =>
  bind (np_arg (fun x y : F => y < x) lls) (fun i => Ok i.+1)).
End Scree.

(** * _fit *)

(** Python's sorted() on tuples (score, number, array, ...): comparing two arrays raises ValueError.  The
    algorithm is insertion sort. *)
Section Sorted.
Variables (F : realFieldType) (T : Type) (key : T -> F * nat).
Definition tuple_lt (x y : T) : res bool :=
  let: (sx, hx) := key x in let: (sy, hy) := key y in
  if sx == sy then (if hx == hy then Err ValueError else Ok (hx < hy)%N) else Ok (sx < sy).
Fixpoint ins_sort1 (x : T) (xs : seq T) : res (seq T) :=
  if xs is y :: ys then
    bind (tuple_lt y x) (fun b => if b then bind (ins_sort1 x ys) (fun zs => Ok (y :: zs)) else Ok (x :: xs))
  else Ok [:: x].
Fixpoint ins_sort (xs : seq T) : res (seq T) :=
  if xs is x :: xs' then bind (ins_sort xs') (fun ys => ins_sort1 x ys) else Ok [::].
End Sorted.

(** What _fit and its callees use that is not interpreted: np.log, pi, the iteration order of sets, scipy.linalg.sqrtm,
    the convex solver, np.linalg.svd, the square root, np.isfinite, np.argsort, np.cov, ges.fit, the effect of the k-th
    call of rng.shuffle for a seed, the random draws of the Score object for the n-th element of nums_latent. *)
Record world (F : realFieldType) (p e : nat) := World {
  w_log : F -> F;
  w_pi : F;
  w_h : hord;
  w_sqrtm : 'M[F]_p -> 'M[F]_p;
  w_cvx : forall l, model F p l e -> option 'M[F]_p;
  w_svd : 'M[F]_p -> 'M[F]_p * 'rV[F]_p;
  w_sqrt : F -> F;
  w_finite : 'M[F]_p -> bool;
  w_argsort : seq F -> seq nat;
  w_cov : seq 'rV[F]_p -> 'M[F]_p;
  w_ges : seq 'rV[F]_p -> F -> mat;
  w_shuffle : nat -> nat -> seq 'rV[F]_p -> seq 'rV[F]_p;
  w_rnds : nat -> nat -> nat -> 'M[F]_p * 'M[F]_p;
  w_fuel : nat }.

(** The arguments of equivalence_class other than the candidates, the data and random_state *)
Record args (F : realFieldType) := Args {
  a_nums_latent : option (seq nat);
  a_folds : seq Q;
  a_psi_max : option F;
  a_psi_fixed : bool;
  a_max_iter : nat;
  a_threshold_dist_B : F;
  a_threshold_fluctuation : F;
  a_max_fluctuations : nat;
  a_threshold_score : F;
  a_learning_rate : F;
  a_solver : bsolver }.

Section Fit.
Variables (F : realFieldType) (p e : nat) (w : world F p e) (a : args F).
Local Notation sample := (seq 'rV[F]_p).
Local Notation model := (model F p).

(** Covariances and numbers of observations of the samples of a fold: main.py 441-446, score.py 244-246 *)
Definition covs (fold : seq sample) (k : 'I_e) : 'M[F]_p := w_cov w (nth [::] fold k).
Definition n_obs (fold : seq sample) (k : 'I_e) : nat := size (nth [::] fold k).

(** Score(training_data, h, ...): main.py 450-459, 490, for samples with p columns.  The checks on the data are those of
    [NdModel.score_init]; only the number of observations can fail. *)
Definition train_conf (training : seq sample) (l : nat) : conf F p l e :=
  Conf (w_log w) (w_h w) (w_sqrtm w) (@w_cvx _ _ _ w l) (w_svd w) (w_sqrt w) (w_finite w)
    (covs training) (n_obs training) (a_psi_max a) (a_psi_fixed a) (a_max_iter a) (a_threshold_dist_B a)
    (a_threshold_fluctuation a) (a_max_fluctuations a) (a_threshold_score a) (a_learning_rate a) (a_solver a) (w_fuel w).
Definition too_small (training : seq sample) : bool := has (fun x : sample => size x == 1%N) training.

(** results[h] and score_caches[h] *)
Record entry := Entry {
  en_pos : nat; en_h : nat; en_score : F; en_graph : mat; en_scores : seq (F * mat); en_obj : sobj F p en_h e }.
(** d[h] = x on a dict: an existing key keeps its position *)
Definition dict_set (d : seq entry) (x : entry) : seq entry :=
  if has (fun y => en_h y == en_h x) d then [seq if en_h y == en_h x then x else y | y <- d] else rcons d x.

(** m.score(...) of several models: main.py 496-497, 526-527 *)
Fixpoint test_scores (l : nat) (T : Type) (fold : seq sample) (ms : seq (model l e * T)) : res (seq (F * (model l e * T))) :=
  if ms is mt :: ms' then
    bind (score (w_log w) mt.1 (covs fold) (n_obs fold)) (fun x =>
    bind (test_scores fold ms') (fun xs => Ok ((x, mt) :: xs)))
  else Ok [::].

(** One number of latents: main.py 487-505 *)
Definition fit_h (training test : seq sample) (prune : bool) (threshold : option F) (graphs : seq mat) (n h : nat)
  : res entry :=
  if too_small training then Err ValueError
  else
    let: (s, r) := prune_graphs (train_conf training h) (w_rnds w n) (w_fuel w) prune threshold (new_sobj F p h e) graphs in
    bind r (fun ms =>
    bind (test_scores test [seq (m, mA m) | m <- ms]) (fun xs =>
    let xs := [seq (x.1, x.2.2) | x <- xs] in
    bind (best_scoring xs) (fun b => Ok (Entry n b.1 b.2 xs s)))).
Fixpoint fit_hs (training test : seq sample) (prune : bool) (threshold : option F) (graphs : seq mat) (d : seq entry)
  (n : nat) (hs : seq nat) : res (seq entry) :=
  if hs is h :: hs' then
    bind (fit_h training test prune threshold graphs n h) (fun x =>
    fit_hs training test prune threshold graphs (dict_set d x) n.+1 hs')
  else Ok d.

(** The choice of the number of latents: main.py 507-509 *)
Definition select_h (d : seq entry) : res entry :=
  bind (ins_sort (fun x => (en_score x, en_h x)) d) (fun xs =>
  if xs is x :: _ then Ok x else Err IndexError).

(** A model with its number of latents *)
Definition any_model := {l : nat & model l e}.

(** The I-pruning phase: main.py 513, 524-530 *)
Definition fit_I (training test : seq sample) (threshold : option F) (x : entry) : res (any_model * seq nat * F) :=
  let: (_, r) := prune_I (train_conf training (en_h x)) (w_rnds w (en_pos x)) (w_argsort w) threshold (en_obj x) (en_graph x) in
  bind r (fun rs =>
  bind (test_scores test rs) (fun xs =>
  bind (best_scoring xs) (fun b => Ok (existT (fun l => model l e) (en_h x) b.2.1, b.2.2, b.1)))).

(** _fit_ges: main.py 725-744 with phases and lambdas None: one run, with penalisation 2 *)
Definition fit_ges (data : seq sample) : res (seq mat) :=
  let pooled := flatten data in
  bind (all_dags (w_h w) (w_ges w pooled (2%:R * 2%:R^-1 * w_log w (size pooled)%:R))) (fun gs => Ok gs).

(** nums_latent: main.py 474-477 *)
Definition numbers (training : seq sample) : res (seq nat) :=
  if a_nums_latent a is Some hs then Ok hs
  else
    if training is X :: _ then
      bind (scree_selection (w_log w) (w_pi w) [seq (w_svd w (w_cov w X)).2 0 j | j <- enum 'I_p]) (fun k => Ok (iota 1 k))
    else Err IndexError.

(** _fit: main.py 439-557 with ges_env, ges_phases, ges_lambdas None and store_history 0; data is a list of e samples *)
Definition fit_all (data : 'I_e -> sample) (initial_graphs : option (seq mat)) (prune : bool)
  (threshold_graph threshold_I : option F) (random_state : nat) : res (any_model * seq nat * F) :=
  bind (split_data (w_shuffle w random_state) [seq data k | k <- enum 'I_e] (a_folds a)) (fun folds =>
  if folds is [:: training; test_graph; test_I] then
    bind (if initial_graphs is Some gs then Ok gs else fit_ges training) (fun graphs =>
    bind (numbers training) (fun hs =>
    bind (fit_hs training test_graph prune threshold_graph graphs [::] 0 hs) (fun d =>
    bind (select_h d) (fun x => fit_I training test_I threshold_I x))))
  else Err ValueError).

(** equivalence_class: main.py 152-173.  random_state is not used. *)
Definition equivalence_class (candidates : seq mat) (data : 'I_e -> sample) (prune_edges : bool) (random_state : nat)
  : res (mat * seq nat * any_model) :=
  bind (fit_all data (Some candidates) prune_edges None None 42) (fun r =>
  let: (m, J, _) := r in
  bind (dag_to_icpdag (w_h w) (mA (projT2 m)) J) (fun icpdag => Ok (icpdag, J, m))).

(** equivalence_class_w_ges: main.py 269-289 *)
Definition equivalence_class_w_ges (data : 'I_e -> sample) (random_state : nat) : res (mat * seq nat * any_model) :=
  bind (fit_all data None true None None 42) (fun r =>
  let: (m, J, _) := r in
  bind (dag_to_icpdag (w_h w) (mA (projT2 m)) J) (fun icpdag => Ok (icpdag, J, m))).
End Fit.
