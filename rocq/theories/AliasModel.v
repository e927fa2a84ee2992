(** Model of _prune_graphs (main.py 603-645), score_dag and the cache (score.py 277-485) on arrays that are changed in place.
    MainModel.v treats adjacencies as values; here an adjacency is a reference to a cell, and the copies that the code makes are
    explicit.  The other attributes of a model are values, since main.py and score_dag only replace them (see HeapModel.v). *)
From Coq Require Import ZArith List.
From mathcomp Require Import all_ssreflect all_algebra.
From Verif Require Import Base GraphModel ListModel NumModel ScoreModel MainModel.
Set Implicit Arguments.
Unset Strict Implicit.
Unset Printing Implicit Defensive.
Import Order.Theory GRing.Theory Num.Theory.
Local Open Scope nat_scope.

Section Alias.
Variables (F : realFieldType) (p l e : nat) (cf : conf F p l e).
Local Notation model := (model F p l e).
Variable rnds : nat -> nat -> 'M[F]_p * 'M[F]_p.

(** The cells of all adjacency arrays; an array is made by appending one *)
Definition heap : Type := seq mat.
Definition at_ (H : heap) (a : nat) : mat := nth [::] H a.
Definition put (H : heap) (a : nat) (A : mat) : heap := set_nth [::] H a A.

(** A Model object: the reference in its attribute A; the A of ob_m is not used. *)
Record obj := Obj { ob_A : nat; ob_m : model }.
Definition the_model (H : heap) (o : obj) : model :=
  MkModel (at_ H (ob_A o)) (mB (ob_m o)) (mgamma (ob_m o)) (momegas (ob_m o)) (mpsis (ob_m o)) (mI_B (ob_m o)).

(** _Cache.__init__: score.py 429-433, with references in _As and objects in _models *)
Record rcache := RCache { rAs : seq nat; rIs : seq (seq nat); rscores : seq F; rmodels : seq obj }.
Definition the_cache (H : heap) (c : rcache) : cache model F :=
  MkCache [seq at_ H a | a <- rAs c] (rIs c) (rscores c) [seq the_model H o | o <- rmodels c].

(** Memory, the cache of a Score object and the number of calls so far *)
Record state := State { st_h : heap; st_c : rcache; st_n : nat }.

(** write: score.py 474-483.  A.copy() and model.copy() make new arrays. *)
Definition rwrite (H : heap) (c : rcache) (a : nat) (I : seq nat) (o : obj) (s : F) : heap * rcache * res unit :=
  match find (the_cache H c) (at_ H a) I with
  | Err x => (H, c, Err x)
  | Ok (Some _) => (H, c, Err ValueError)
  | Ok None =>
      let As := rcons (rAs c) (size H) in let Is := rcons (rIs c) I in let ss := rcons (rscores c) s in
      let H1 := rcons H (at_ H a) in
      match copy_model (cf_h cf) (the_model H1 o) with
      | Ok m => (rcons H1 (mA m), RCache As Is ss (rcons (rmodels c) (Obj (size H1) m)), Ok tt)
      | Err x => (H1, RCache As Is ss (rmodels c), Err x)
      end
  end.

(** score_dag without init_model: score.py 312-418.  A hit returns the object in the cache.  Otherwise the constructor copies A
    (model.py 232). *)
Definition rscore_dag (st : state) (a : nat) (I : seq nat) : state * res (obj * F) :=
  let: State H c n := st in
  match find (the_cache H c) (at_ H a) I with
  | Err x => (State H c n.+1, Err x)
  | Ok (Some k) =>
      match List.nth_error (rmodels c) k, List.nth_error (rscores c) k with
      | Some o, Some s => (State H c n.+1, Ok (o, s))
      | _, _ => (State H c n.+1, Err IndexError)
      end
  | Ok None =>
      match fit cf (at_ H a) I None (rnds n) with
      | Err x => (State H c n.+1, Err x)
      | Ok (m, s) =>
          let o := Obj (size H) m in
          let: (H', c', w) := rwrite (rcons H (mA m)) c a I o s in
          (State H' c' n.+1, bind w (fun _ => Ok (o, s)))
      end
  end.

(** The loop: main.py 634-643; cur is current_dag *)
Fixpoint rprune_loop (fuel : nat) (full_I : seq nat) (st : state) (cur : nat) (o : obj) : state * res (seq obj) :=
  if Z.ltb Z0 (msum (at_ (st_h st) cur)) then
    if fuel is fuel'.+1 then
      match weakest_edge (mB (ob_m o)) with
      | Err x => (st, Err x)
      | Ok (i, j) =>
          let st := State (put (st_h st) cur (upd (at_ (st_h st) cur) i j Z0)) (st_c st) (st_n st) in
          sbind (rscore_dag st cur full_I) (fun st r =>
          sbind (rprune_loop fuel' full_I st cur r.1) (fun st os => (st, Ok (r.1 :: os))))
      end
    else (st, Err OutOfFuel)
  else (st, Ok [::]).

(** One graph: main.py 612-643; g is the graph of the caller *)
Definition rprune_graph (fuel : nat) (prune : bool) (threshold : option F) (full_I : seq nat) (st : state) (g : nat)
  : state * res (seq obj) :=
  sbind (rscore_dag st g full_I) (fun st r =>
  if ~~ prune then (st, Ok [:: r.1])
  else if threshold is Some t then
    match threshold_graph t (mB (ob_m r.1)) with
    | Err x => (st, Err x)
    | Ok A => sbind (rscore_dag (State (rcons (st_h st) A) (st_c st) (st_n st)) (size (st_h st)) full_I)
                (fun st r => (st, Ok [:: r.1]))
    end
  else sbind (rprune_loop fuel full_I (State (rcons (st_h st) (at_ (st_h st) g)) (st_c st) (st_n st)) (size (st_h st)) r.1)
         (fun st os => (st, Ok (r.1 :: os)))).
Fixpoint rprune_each (fuel : nat) (prune : bool) (threshold : option F) (full_I : seq nat) (st : state) (gs : seq nat)
  : state * res (seq obj) :=
  if gs is g :: gs' then
    sbind (rprune_graph fuel prune threshold full_I st g) (fun st os =>
    sbind (rprune_each fuel prune threshold full_I st gs') (fun st os' => (st, Ok (os ++ os'))))
  else (st, Ok [::]).
(** _prune_graphs: main.py 603-645 *)
Definition rprune_graphs (fuel : nat) (prune : bool) (threshold : option F) (st : state) (gs : seq nat) : state * res (seq obj) :=
  if gs is g :: _ then rprune_each fuel prune threshold (iota 0 (length (at_ (st_h st) g))) st gs
  else (st, Err IndexError).
End Alias.
