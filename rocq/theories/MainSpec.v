(** Notions the properties of main.py are stated in, independent of the model of the code. *)
From Coq Require Import ZArith List.
From mathcomp Require Import all_ssreflect all_algebra.
From Verif Require Import Base GraphSpec NumModel ScoreModel CacheSpec ScoreSpec MainModel.
Set Implicit Arguments.
Unset Strict Implicit.
Unset Printing Implicit Defensive.
Import Order.Theory GRing.Theory Num.Theory.
Local Open Scope ring_scope.

Definition subgraph (A B : mat) : Prop := forall i j, edge A i j -> edge B i j.
Definition no_edges (A : mat) : Prop := forall i j, ~ edge A i j.

(** A p x p adjacency without negative weights. *)
Definition graph (p : nat) (A : mat) : Prop := square p A /\ nonneg A.

(** A' is A without its edge i -> j. *)
Definition without (A A' : mat) (i j : nat) : Prop :=
  edge A i j /\ forall x y, get A' x y = if (x == i) && (y == j) then Z0 else get A x y.

(** t is the first element of the list with the least score. *)
Definition first_least (F : realFieldType) (T : Type) (ts : list (F * T)) (t : F * T) : Prop :=
  exists us vs, [/\ ts = us ++ t :: vs, (forall u, List.In u us -> t.1 < u.1) & forall v, List.In v vs -> t.1 <= v.1].

Section PruneSpec.
Variables (F : realFieldType) (p l e : nat).
Local Notation model := (model F p l e).

(** B[i, j] is a non-zero entry of B of least absolute value. *)
Definition weakest (B : 'M[F]_p) (i j : 'I_p) : Prop :=
  B i j != 0 /\ forall x y, B x y != 0 -> `|B i j| <= `|B x y|.

(** B is not zero on any edge of A. *)
Definition nonzero_on (A : mat) (B : 'M[F]_p) : Prop := forall i j : 'I_p, edge A i j -> B i j != 0.

(** The graph of each model is that of the model before without its weakest edge; the last graph is empty. *)
Inductive pruned : list model -> Prop :=
| pruned_end m : no_edges (mA m) -> pruned [:: m]
| pruned_step m m' ms i j :
    weakest (mB m) i j -> without (mA m) (mA m') i j -> pruned (m' :: ms) -> pruned [:: m, m' & ms].

(** The number of calls made on a Score object does not matter below: [reached cf s] holds of the state of an object
    after any calls of score_dag. *)
Definition reached (cf : conf F p l e) (st : option (cache model F)) : Prop :=
  exists cs, Forall (fun c => proper c /\ cl_init c = None) cs /\ st = run cf (fresh F p l e true) cs.

(** The procedure failed with exception x on a subgraph of one of the graphs Gs, for one of the random draws. *)
Definition failed (cf : conf F p l e) (rnds : nat -> nat -> 'M[F]_p * 'M[F]_p) (Gs : list mat) (x : exn) : Prop :=
  exists A I k, [/\ graph p A, exists2 G, List.In G Gs & subgraph A G & fit cf A I None (rnds k) = Err x].
End PruneSpec.

(** js lists 0..n-1 by increasing value of f. *)
Definition increasing (F : realFieldType) (n : nat) (f : nat -> F) (js : list nat) : Prop :=
  Permutation.Permutation js (List.seq 0 n) /\
  forall a b, (a < b < n)%N -> f (nth 0%N js a) <= f (nth 0%N js b).

Section FittedSpec.
Variables (F : realFieldType) (p l e : nat) (cf : conf F p l e).

(** m has the parameters of a result of the fitting procedure for its graph and the targets I. *)
Definition fit_of (I : list nat) (m : model F p l e) : Prop :=
  exists I' rnd m' s, [/\ same_set I I', fit cf (mA m) I' None rnd = Ok (m', s) & same_params m' m].

(** What holds of every model fitted for targets I: it has a p x p acyclic graph, B is supported on it, the variances are
    in range and those of the variables outside of I do not change; it is a result of the fitting procedure. *)
Definition fitted_for (I : list nat) (m : model F p l e) : Prop :=
  [/\ graph p (mA m), acyclic (mA m), NumSpec.supported (mA m) (mB m), in_range (cf_psi_max cf) m
    & invariant_outside (cf_psi_fixed cf) I m /\ fit_of I m].

(** No graph with an edge is fitted with B = 0. *)
Definition some_weight : Prop :=
  forall A I rnd m s, graph p A -> fit cf A I None rnd = Ok (m, s) -> (exists i j, edge A i j) -> mB m <> 0.
End FittedSpec.

Section Fitted2.
Variables (F : realFieldType) (p l e : nat) (cf : conf F p l e).
Local Notation model := (model F p l e).

(** m was fitted for I and the graph of the entries of B larger than t times the largest, for a model fitted for G. *)
Definition thresholded (t : F) (I : list nat) (G : mat) (m : model) : Prop :=
  exists m0 mx,
  [/\ mA m0 = G, fitted_for cf I m0, fitted_for cf I m,
     (exists i j, `|mB m0 i j| = mx) /\ (forall i j, `|mB m0 i j| <= mx)
   & forall i j : 'I_p, get (mA m) i j = if mx * t < `|mB m0 i j| then Zpos xH else Z0].
End Fitted2.

(** The (population) variance of n numbers. *)
Definition average (F : realFieldType) (n : nat) (f : 'I_n -> F) : F := (\sum_i f i) / n%:R.
Definition variance (F : realFieldType) (n : nat) (f : 'I_n -> F) : F := average (fun i => (f i - average f) ^+ 2).

(** A sorting permutation for every list of numbers. *)
Definition sorts (F : realFieldType) (argsort : seq F -> seq nat) : Prop :=
  forall xs, increasing (size xs) (fun k => nth 0 xs k) (argsort xs).

Section FitSpec.
Variables (F : realFieldType) (p e : nat) (w : world F p e) (a : args F).
Local Notation sample := (seq 'rV[F]_p).

(** The score of a model for the samples of a fold. *)
Definition scored l (fold : seq sample) (m : model F p l e) (x : F) : Prop :=
  score (w_log w) m (covs w fold) (n_obs fold) = Ok x.

(** v is the least score for the samples [test] of the models fitted to the samples [training] for the graphs (and the
    pruned graphs) with h latents, and G the graph of a model with this score.  n selects the random draws. *)
Definition validation (training test : seq sample) (prune : bool) (graphs : seq mat) (n h : nat) (v : F) (G : mat) : Prop :=
  exists ms, (prune_graphs (train_conf w a training h) (w_rnds w n) (w_fuel w) prune None (new_sobj F p h e) graphs).2 = Ok ms /\
  (exists m, [/\ List.In m ms, mA m = G & scored test m v]) /\
  (forall m, List.In m ms -> exists y, scored test m y /\ v <= y).

(** The last position of h in hs *)
Definition last_at (hs : list nat) (k h : nat) : Prop :=
  List.nth_error hs k = Some h /\ forall k', (k < k')%N -> List.nth_error hs k' <> Some h.

(** GES returns a p x p 0/1 partially directed graph without loops that has an undirected edge or is acyclic. *)
Definition ges_pdag : Prop := forall X lambda, let P := w_ges w X lambda in
  [/\ square p P, binary P, loopless P & (exists i j, und P i j) \/ acyclic P].

(** What pruning needs: no graph with an edge is fitted with B = 0. *)
Definition prunable (prune : bool) (training : seq sample) (h : nat) : Prop :=
  prune = true -> some_weight (train_conf w a training h) /\ (p * p <= w_fuel w)%N.
End FitSpec.

(** The scree plot: the singular values are split after the first h, each group has its own mean and the variance is
    the same for both. *)
Section ScreeSpec.
Variables (F : realFieldType) (log : F -> F) (pi : F).
Definition avg (xs : seq F) : F := (\sum_(x <- xs) x) / (size xs)%:R.
Definition scatter (xs : seq F) : F := \sum_(x <- xs) (x - avg xs) ^+ 2.
Definition pooled (xs : seq F) (h : nat) : F := (scatter (take h xs) + scatter (drop h xs)) / (size xs - 2)%N%:R.
(** The logarithm of the density of N(m, v) at x; the log likelihood of a sample; the profile log likelihood of h. *)
Definition log_density (m v x : F) : F := - ((log (2%:R * pi) + log v) / 2%:R) - (x - m) ^+ 2 / (2%:R * v).
Definition log_likelihood (xs : seq F) (m v : F) : F := \sum_(x <- xs) log_density m v x.
Definition profile (xs : seq F) (h : nat) : F :=
  let v := pooled xs h in
  log_likelihood (take h xs) (avg (take h xs)) v + log_likelihood (drop h xs) (avg (drop h xs)) v.
Definition increasing_log : Prop := forall x y, 0 < x -> x < y -> log x < log y.
End ScreeSpec.
