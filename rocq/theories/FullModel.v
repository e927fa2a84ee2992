(** Model of _fit (main.py 295-557) with the options equivalence_class does not pass: ges_env, ges_phases, ges_lambdas and
    store_history.  MainModel.v has the steps. *)
From Coq Require Import ZArith List.
From mathcomp Require Import all_ssreflect all_algebra.
From Verif Require Import Base GraphModel ListModel NumModel ScoreModel MainModel.
Set Implicit Arguments.
Unset Strict Implicit.
Unset Printing Implicit Defensive.
Import Order.Theory GRing.Theory Num.Theory.
Local Open Scope ring_scope.

(** The phases of GES: main.py 714-717 *)
Inductive phase := Forward | Backward | Turning.

(** ges_env, ges_phases, ges_lambdas: main.py 312-314 *)
Record ges_opts (F : realFieldType) := GesOpts {
  g_env : option Z;
  g_phases : option (seq phase);
  g_lambdas : option (seq F) }.

(** xs[k] of a list: a negative k counts from the end *)
Definition py_nth (T : Type) (xs : seq T) (k : Z) : res T :=
  let k' := if Z.ltb k Z0 then Z.add k (Z.of_nat (length xs)) else k in
  if Z.ltb k' Z0 then Err IndexError
  else match List.nth_error xs (Z.to_nat k') with Some x => Ok x | None => Err IndexError end.

Section Full.
Variables (F : realFieldType) (p e : nat) (w : world F p e) (a : args F).
Local Notation sample := (seq 'rV[F]_p).
Local Notation model := (model F p).
Local Notation entry := (entry F p e).

(** ges.fit(GaussObsL0Pen(data, lmbda), phases, iterate=True)[0]: external package *)
Variable ges : sample -> seq phase -> F -> mat.

(** The loop over the penalisations: main.py 732-743 *)
Fixpoint ges_loop (pooled : sample) (phases : seq phase) (lambdas : seq F) : res (seq mat) :=
  if lambdas is pen :: lambdas' then
    bind (all_dags (w_h w) (ges pooled phases (pen * 2%:R^-1 * w_log w (size pooled)%:R))) (fun gs =>
    bind (ges_loop pooled phases lambdas') (fun gs' => Ok (gs ++ gs')))
  else Ok [::].

(** _fit_ges: main.py 699-744.  np.vstack raises ValueError without samples. *)
Definition fit_ges_opts (data : seq sample) (phases : option (seq phase)) (lambdas : option (seq F)) : res (seq mat) :=
  let phases := if phases is Some ps then ps else [:: Forward; Backward; Turning] in
  let lambdas := if lambdas is Some ls then ls else [:: 2%:R] in
  if data is [::] then Err ValueError else ges_loop (flatten data) phases lambdas.

(** The initial graphs: main.py 461-466 *)
Definition initial (training : seq sample) (initial_graphs : option (seq mat)) (o : ges_opts F) : res (seq mat) :=
  if initial_graphs is Some gs then Ok gs
  else
    bind (if g_env o is Some k then bind (py_nth training k) (fun X => Ok [:: X]) else Ok training) (fun data =>
    fit_ges_opts data (g_phases o) (g_lambdas o)).

(** The history: main.py 547-555.  hi_pruned holds pruned_graphs and pruned_Is. *)
Record history := History {
  hi_num : nat;
  hi_initial : seq mat;
  hi_pruned : option (seq (F * mat) * seq (F * (model hi_num e * seq nat)));
  hi_cache : option (sobj F p hi_num e) }.

(** main.py 545-555, given the values of the variables *)
Definition make_history (store : Z) (graphs : seq mat) (x : entry) (xs : seq (F * (model (en_h x) e * seq nat)))
  (s : sobj F p (en_h x) e) : option history :=
  if Z.eqb store Z0 then None
  else Some (@History (en_h x) graphs
    (if Z.ltb (Zpos xH) store then Some (en_scores x, xs) else None)
    (if Z.ltb (Zpos (xO xH)) store then Some s else None)).

(** The I-pruning phase and the result: main.py 524-557.  The Score object is the one of the selected number of latents;
    the history has it in the state after _prune_I. *)
Definition finish (training test : seq sample) (threshold : option F) (store : Z) (graphs : seq mat) (x : entry)
  : res (any_model F p e * seq nat * F * option history) :=
  let: (s, r) := prune_I (train_conf w a training (en_h x)) (w_rnds w (en_pos x)) (w_argsort w) threshold (en_obj x) (en_graph x) in
  bind r (fun rs =>
  bind (test_scores w test rs) (fun xs =>
  bind (best_scoring xs) (fun b =>
  Ok (existT (fun l => model l e) (en_h x) b.2.1, b.2.2, b.1, make_history store graphs xs s)))).

(** _fit: main.py 439-557 *)
Definition fit_full (data : 'I_e -> sample) (initial_graphs : option (seq mat)) (prune : bool)
  (threshold_graph threshold_I : option F) (o : ges_opts F) (random_state : nat) (store : Z)
  : res (any_model F p e * seq nat * F * option history) :=
  bind (split_data (w_shuffle w random_state) [seq data k | k <- enum 'I_e] (a_folds a)) (fun folds =>
  if folds is [:: training; test_graph; test_I] then
    bind (initial training initial_graphs o) (fun graphs =>
    bind (numbers w a training) (fun hs =>
    bind (fit_hs w a training test_graph prune threshold_graph graphs [::] 0 hs) (fun d =>
    bind (select_h d) (fun x => finish training test_I threshold_I store graphs x))))
  else Err ValueError).
End Full.
