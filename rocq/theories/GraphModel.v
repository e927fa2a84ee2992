(** Model of the graph functions of /repo/utlvce/utils.py.  Definitions only. *)
From Coq Require Import List Arith ZArith Bool.
Import ListNotations.
From Verif Require Import Base.

(** * Node sets (utils.py 84-182).  A set is the ascending list of its elements. *)

(** neighbors: utils.py 106-124 *)
Definition neighbors (i : nat) (A : mat) : list nat :=
  where1 (length A) (fun j => nz (get A i j) && nz (get A j i)).

(** adj: utils.py 127-144 *)
Definition adj (i : nat) (A : mat) : list nat :=
  where1 (length A) (fun j => nz (get A i j) || nz (get A j i)).

(** pa: utils.py 147-164 *)
Definition pa (i : nat) (A : mat) : list nat :=
  where1 (length A) (fun j => nz (get A j i) && (get A i j =? 0)%Z).

(** ch: utils.py 167-182 *)
Definition ch (i : nat) (A : mat) : list nat :=
  where1 (length A) (fun j => nz (get A i j) && (get A j i =? 0)%Z).

(** na: utils.py 84-103 *)
Definition na (y x : nat) (A : mat) : list nat := inter (neighbors y A) (adj x A).

(** * Masks and edge lists *)

(** only_directed: utils.py 645-666 *)
Definition only_directed (P : mat) : mat :=
  mk (length P) (fun i j => if nz (get P i j) && (get P j i =? 0)%Z then get P i j else 0%Z).

(** only_undirected: utils.py 669-690 *)
Definition only_undirected (P : mat) : mat :=
  mk (length P) (fun i j => if nz (get P i j) && nz (get P j i) then get P i j else 0%Z).

(** undirected_edges: utils.py 693-711 *)
Definition undirected_edges (P : mat) : list (nat * nat) :=
  filter (fun e => snd e <? fst e)
    (where2 (length P) (fun i j => nz (get (only_undirected P) i j))).

(** directed_edges: utils.py 714-728 *)
Definition directed_edges (A : mat) : list (nat * nat) :=
  where2 (length A) (fun i j => nz (get (only_directed A) i j)).

(** edge_weights: utils.py 731-739.  A dict is the list of its items in insertion order. *)
Definition edge_weights (W : mat) : list ((nat * nat) * Z) :=
  let edges := where2 (length W) (fun i j => nz (get W i j)) in
  let weights := map (fun e => get W (fst e) (snd e)) edges in
  combine edges weights.

(** skeleton: utils.py 775-790 *)
Definition skeleton (A : mat) : mat :=
  mk (length A) (fun i j => if nz (get A i j + get A j i)%Z then 1%Z else 0%Z).

(** [A[S, :][:, S]] *)
Definition sub (A : mat) (S : list nat) : mat := map (fun i => map (get A i) S) S.

(** is_clique: utils.py 185-207 *)
Definition is_clique (h : hord) (S : list nat) (A : mat) : bool :=
  let S' := h 0 S in
  let subgraph := skeleton (sub A S') in
  let no_edges := length (where2 (length subgraph) (fun i j => nz (get subgraph i j))) in
  let n := length S' in
  no_edges =? n * (n - 1).

(** is_complete: utils.py 231-235.  Both sides of the comparison are halved there, in floating
    point; halving is exact, so it is dropped. *)
Definition is_complete (P : mat) : bool :=
  let no_edges := length (where2 (length P) (fun i j => nz (get P i j + get P j i)%Z)) in
  let p := length P in
  no_edges =? p * (p - 1).

(** degrees: utils.py 628-642 *)
Definition degrees (A : mat) : list Z :=
  let s := skeleton A in map (colsum s) (seq 0 (length s)).

(** induced_subgraph: utils.py 545-569 *)
Definition induced_subgraph (S : list nat) (G : mat) : mat :=
  mk (length G) (fun i j => if memb i S && memb j S then get G i j else 0%Z).

(** * v-structures *)

(** [itertools.combinations(l, 2)] *)
Fixpoint combinations2 (l : list nat) : list (nat * nat) :=
  match l with
  | [] => []
  | x :: l' => map (fun y => (x, y)) l' ++ combinations2 l'
  end.

Definition triple_eqb (t u : nat * nat * nat) : bool :=
  let '(a, b, c) := t in let '(x, y, z) := u in (a =? x) && (b =? y) && (c =? z).

(** vstructures: utils.py 572-604.  The parents of a collider are iterated in hash order; the resulting
    set is a list here, compared as a set by [same_set3]. *)
Definition vstructures (h : hord) (A : mat) : list (nat * nat * nat) :=
  let dir_A := only_directed A in
  let colliders := where1 (length A)
    (fun c => 1 <? length (where1 (length A) (fun i => nz (get dir_A i c)))) in
  flat_map (fun c =>
    flat_map (fun e => let '(i, j) := e in
      if (get A i j =? 0)%Z && (get A j i =? 0)%Z
      then [if i <? j then (i, c, j) else (j, c, i)] else [])
      (combinations2 (h c (pa c A)))) colliders.

(** Equality of Python sets of triples. *)
Definition subset3 (a b : list (nat * nat * nat)) : bool :=
  forallb (fun t => existsb (triple_eqb t) b) a.
Definition same_set3 (a b : list (nat * nat * nat)) : bool := subset3 a b && subset3 b a.

(** moral_graph: utils.py 607-625 *)
Definition moral_graph (h : hord) (A : mat) : mat :=
  fold_left (fun m t => let '(i, _, j) := t in upd (upd m i j 1) j i 1)
    (vstructures h A) (skeleton A).

(** * Topological ordering (Kahn) *)

(** The inner loop of topological_ordering: utils.py 406-409.  The Python list [sinks]
    is used as a stack (append/pop at the end); here its top is the head. *)
Fixpoint topo_children (i : nat) (js : list nat) (A : mat) (sinks : list nat)
  : mat * list nat :=
  match js with
  | [] => (A, sinks)
  | j :: js' =>
      let A' := upd A i j 0 in
      let sinks' := match pa j A' with [] => j :: sinks | _ => sinks end in
      topo_children i js' A' sinks'
  end.

(** The outer loop and the final check: utils.py 403-414 ([ord] is reversed). *)
Fixpoint topo_loop (h : hord) (fuel : nat) (A : mat) (sinks ord : list nat)
  : res (list nat) :=
  match fuel with
  | 0 => Err OutOfFuel
  | S f =>
      match sinks with
      | [] => if (0 <? msum A)%Z then Err ValueError else Ok (rev ord)
      | i :: sinks' =>
          let '(A', s') := topo_children i (h fuel (ch i A)) A sinks' in
          topo_loop h f A' s' (i :: ord)
      end
  end.

(** topological_ordering: utils.py 372-414.  The fuel suffices for every matrix (proved). *)
Definition topological_ordering (h : hord) (A : mat) : res (list nat) :=
  if (0 <? msum (only_undirected A))%Z then Err ValueError
  else
    let p := length A in
    let sinks := where1 p (fun j => (colsum A j =? 0)%Z) in
    topo_loop h (p + p * p + 1) A (rev sinks) [].

(** is_dag: utils.py 210-228.  Only ValueError is caught. *)
Definition is_dag (h : hord) (A : mat) : res bool :=
  match topological_ordering h A with
  | Ok _ => Ok true
  | Err ValueError => Ok false
  | Err e => Err e
  end.

(** * Paths *)

(** The nodes accessible from i: utils.py 439, 443 *)
Definition accessible (A : mat) (i : nat) : list nat := union (ch i A) (neighbors i A).

(** The loop of semi_directed_paths: utils.py 444-456.  [to_visit] comes from a set in hash order and is
    popped at the end; since the order is arbitrary, popping at the head is the same. *)
Fixpoint sdp_loop (h : hord) (fuel : nat) (A : mat) (to : nat)
  (stack : list (nat * list nat * list nat)) (paths : list (list nat)) : res (list (list nat)) :=
  match fuel with
  | 0 => Err OutOfFuel
  | S f =>
      match stack with
      | [] => Ok paths
      | (cur, visited, to_visit) :: stack' =>
          if cur =? to then sdp_loop h f A to stack' (paths ++ [visited ++ [cur]])
          else match to_visit with
               | [] => sdp_loop h f A to stack' paths
               | next :: rest =>
                   let ntv := h fuel (minus (minus (accessible A next) visited) [cur]) in
                   sdp_loop h f A to
                     ((next, visited ++ [cur], ntv) :: (cur, visited, rest) :: stack') paths
               end
      end
  end.

(** semi_directed_paths: utils.py 417-456 *)
Definition semi_directed_paths (h : hord) (fuel : nat) (fro to : nat) (A : mat)
  : res (list (list nat)) :=
  sdp_loop h fuel A to [(fro, [], h 0 (accessible A fro))] [].

(** The loops of separates: utils.py 486-491 *)
Fixpoint sep_loop (h : hord) (fuel : nat) (S : list nat) (G : mat) (ab : list (nat * nat))
  : res bool :=
  match ab with
  | [] => Ok true
  | (a, b) :: ab' =>
      let* paths := semi_directed_paths h fuel a b G in
      if existsb (fun path => match inter path S with [] => true | _ => false end) paths
      then Ok false else sep_loop h fuel S G ab'
  end.

(** separates: utils.py 459-491 *)
Definition separates (h : hord) (fuel : nat) (S A B : list nat) (G : mat) : res bool :=
  match inter A B, inter A S, inter B S with
  | [], [], [] => sep_loop h fuel S G (list_prod (h 1 A) (h 2 B))
  | _, _, _ => Err ValueError
  end.

(** is_stable_set: utils.py 500-513.  [d_separated] is not defined in the module
    (its definition is commented out, 494-497), so the call raises NameError.  The assignments
    before it raise IndexError when a target is outside of the extended graph. *)
Definition is_stable_set (S : list nat) (j : nat) (I : list nat) (G : mat) : res bool :=
  if forallb (fun i => i <? length G + length I) I then Err NameError else Err IndexError.

(** The loops of chain_component: utils.py 538-541.  The for loop iterates over the set object that
    [to_visit] was bound to when the loop started. *)
Definition cc_for (A : mat) (js : list nat) (st : list nat * list nat) : list nat * list nat :=
  fold_left (fun st j => let '(visited, to_visit) := st in
    let visited' := union visited [j] in
    (visited', minus (union to_visit (neighbors j A)) visited')) js st.

Fixpoint cc_loop (h : hord) (fuel : nat) (A : mat) (visited to_visit : list nat)
  : res (list nat) :=
  match fuel with
  | 0 => Err OutOfFuel
  | S f =>
      match to_visit with
      | [] => Ok visited
      | _ => let '(v', t') := cc_for A (h fuel to_visit) (visited, to_visit) in
             cc_loop h f A v' t'
      end
  end.

(** chain_component: utils.py 516-542 *)
Definition chain_component (h : hord) (i : nat) (G : mat) : res (list nat) :=
  cc_loop h (length G + 2) (only_undirected G) [] [i].

(** * Consistent extensions *)

(** is_consistent_extension: utils.py 793-836 *)
Definition is_consistent_extension (h : hord) (G P : mat) : res bool :=
  let* d := is_dag h G in
  if negb d then Err ValueError
  else
    let same_vstructures := same_set3 (vstructures h P) (vstructures h G) in
    let same_skeleton := mateqb (skeleton P) (skeleton G) in
    let directed_P := only_directed P in
    let same_orientation := forallb (fun e => nz (get G (fst e) (snd e)))
      (where2 (length P) (fun i j => nz (get directed_P i j))) in
    Ok (same_vstructures && same_orientation && same_skeleton).

(** to_factorization: utils.py 839-845.  [pa] is already ascending. *)
Definition to_factorization (h : hord) (G : mat) : res (list (list nat)) :=
  let* d := is_dag h G in
  if negb d then Err ValueError else Ok (map (fun j => pa j G) (seq 0 (length G))).

(** is_supergraph: utils.py 848-851.  [np.logical_and] gives booleans, compared as 0/1. *)
Definition is_supergraph (sup A : mat) : bool :=
  forallb (fun e => let '(i, j) := e in
    ((if nz (get sup i j) && nz (get A i j) then 1 else 0) =? get A i j)%Z) (pairs (length A)).

(** has_subgraph: utils.py 854-861 *)
Definition has_subgraph (L1 L2 : list mat) : bool :=
  forallb (fun A1 => existsb (fun A2 => is_supergraph A1 A2) L2) L1.

(** has_supergraph: utils.py 864-871 *)
Definition has_supergraph (L1 L2 : list mat) : bool :=
  forallb (fun A1 => existsb (fun A2 => is_supergraph A2 A1) L2) L1.

(** [A.astype(bool).astype(int)] *)
Definition to01 (A : mat) : mat := mk (length A) (fun i j => if nz (get A i j) then 1%Z else 0%Z).

(** remove_edges: utils.py 874-884.  [choice] is the result of [rng.choice(edges, no_edges, replace=False)]. *)
Definition remove_edges (choice : list (nat * nat) -> nat -> list (nat * nat))
  (A : mat) (no_edges : nat) : res mat :=
  let A := to01 A in
  let edges := directed_edges A in
  if length edges <? no_edges then Err ValueError
  else Ok (fold_left (fun pruned e => upd pruned (fst e) (snd e) 0) (choice edges no_edges) A).

(** The loop of add_edges: utils.py 904-909 *)
Fixpoint add_loop (h : hord) (A : mat) (no_edges : Z) (edges : list (nat * nat)) (sup : mat)
  : res mat :=
  if (msum sup - msum A <? no_edges)%Z then
    match edges with
    | [] => Ok sup
    | (i, j) :: edges' =>
        let next := upd sup i j 1 in
        let* d := is_dag h next in
        add_loop h A no_edges edges' (if d then next else sup)
    end
  else Ok sup.

(** add_edges: utils.py 887-911.  [shuffle] is the effect of [rng.shuffle].  [int(p*(p-1)/2 - A.sum())] is
    exact as p*(p-1) is even. *)
Definition add_edges (h : hord) (shuffle : list (nat * nat) -> list (nat * nat))
  (A : mat) (no_edges : Z) : res mat :=
  let A := to01 A in
  let p := length A in
  let edges := shuffle (where2 p (fun i j =>
    (get A i j + get A j i + (if (i =? j)%nat then 1 else 0) =? 0)%Z)) in
  let can_add := (Z.of_nat (p * (p - 1) / 2) - msum A)%Z in
  if (can_add <? no_edges)%Z then Err ValueError
  else
    let* sup := add_loop h A no_edges edges A in
    if (msum sup - msum A =? no_edges)%Z then Ok sup else Err AssertionError.

(** * pdag -> dag (Dor & Tarsi) *)

(** Conditions 1 and 2 on node i: utils.py 1048-1053, 1056 *)
Definition dt_candidate (P : mat) (i : nat) : bool :=
  let sink := match ch i P with [] => true | _ => false end in
  let n_i := neighbors i P in
  let adj_i := adj i P in
  sink && forallb (fun y => subsetb (minus adj_i [y]) (adj y P)) n_i.

(** [L.remove(x)] *)
Fixpoint remove1 (x : nat) (l : list nat) : list nat :=
  match l with
  | [] => []
  | y :: l' => if x =? y then l' else y :: remove1 x l'
  end.

(** The main loop: utils.py 1039-1078.  [ab n i] is the order in which Python lists
    [set(range(n)) - {i}] (line 1068). *)
Fixpoint dt_loop (h : hord) (ab : nat -> nat -> list nat) (fuel : nat)
  (P G : mat) (indexes : list nat) : res mat :=
  match P with
  | [] => Ok G
  | _ =>
      match fuel with
      | 0 => Err OutOfFuel
      | S f =>
          match find (dt_candidate P) (seq 0 (length P)) with
          | None => Err ValueError
          | Some i =>
              let real_i := nth i indexes 0 in
              let real_neighbors := map (fun j => nth j indexes 0) (h fuel (neighbors i P)) in
              let G' := fold_left (fun G j => upd G j real_i 1) real_neighbors G in
              let P' := sub P (ab (length P) i) in
              dt_loop h ab f P' G' (remove1 real_i indexes)
          end
      end
  end.

(** [list(set(range(n)) - {i})] as CPython evaluates it for small ints: ascending. *)
Definition all_but_asc (n i : nat) : list nat := filter (fun k => negb (k =? i)) (seq 0 n).

(** pdag_to_dag: utils.py 1012-1079, for any order of line 1068 *)
Definition pdag_to_dag_gen (h : hord) (ab : nat -> nat -> list nat) (P : mat) : res mat :=
  dt_loop h ab (length P) P (only_directed P) (seq 0 (length P)).

(** pdag_to_dag as CPython runs it *)
Definition pdag_to_dag (h : hord) (P : mat) : res mat := pdag_to_dag_gen h all_but_asc P.

(** * dag -> cpdag (Chickering) *)

(** [pos[order] = range(len(order))] of sort: utils.py 1268-1269 *)
Fixpoint lastpos (x : nat) (order : list nat) (k acc : nat) : nat :=
  match order with
  | [] => acc
  | o :: os => lastpos x os (S k) (if o =? x then k else acc)
  end.
Definition pos (order : list nat) (x : nat) : nat := lastpos x order 0 0.

Definition lexleb (a b : nat * nat) : bool :=
  (fst a <? fst b) || ((fst a =? fst b) && (snd a <=? snd b)).

Section Sort.
  Context {A : Type} (leb : A -> A -> bool).
  Fixpoint insert (x : A) (l : list A) : list A :=
    match l with
    | [] => [x]
    | y :: l' => if leb x y then x :: l else y :: insert x l'
    end.
  (** Python's [sorted] *)
  Fixpoint isort (l : list A) : list A :=
    match l with [] => [] | x :: l' => insert x (isort l') end.
End Sort.

(** sort with an order: utils.py 1242, 1266-1271.  An element outside of range(len(order)) raises IndexError. *)
Definition sort_by (order : list nat) (L : list nat) : res (list nat) :=
  if forallb (fun l => l <? length order) L
  then Ok (map snd (isort lexleb (map (fun l => (pos order l, l)) L)))
  else Err IndexError.

(** [l[0]] *)
Definition head (A : Type) (l : list A) : res A :=
  match l with [] => Err IndexError | x :: _ => Ok x end.
Arguments head {A} l.

(** The loop of order_edges: utils.py 1107-1120 *)
Fixpoint oe_loop (fuel : nat) (order : list nat) (ordered : mat) (i : Z) : res mat :=
  let p := length ordered in
  let unl := where2 p (fun a b => (get ordered a b =? -1)%Z) in
  match unl with
  | [] => Ok ordered
  | _ =>
      match fuel with
      | 0 => Err OutOfFuel
      | S f =>
          let with_unlabelled := filter
            (fun v => existsb (fun e => (v =? fst e) || (v =? snd e)) unl) (seq 0 p) in
          let* ys := sort_by (rev order) with_unlabelled in
          let* y := head ys in
          let* xs := sort_by order (where1 p (fun a => (get ordered a y =? -1)%Z)) in
          let* x := head xs in
          oe_loop f order (upd ordered x y i) (i + 1)
      end
  end.

(** order_edges: utils.py 1082-1120.  *)
Definition order_edges (h : hord) (G : mat) : res mat :=
  let* d := is_dag h G in
  if negb d then Err ValueError
  else
    let* order := topological_ordering h G in
    let p := length G in
    let ordered := mk p (fun i j => if nz (get G i j) then (-1)%Z else 0%Z) in
    oe_loop (p * p) order ordered 1.

Definition COM : Z := 1.
Definition REV : Z := -1.
Definition UNK : Z := -2.

(** The first row-major position of a greatest value (np.argmax). *)
Fixpoint argmaxZ (f : nat * nat -> Z) (l : list (nat * nat)) (best : nat * nat) : nat * nat :=
  match l with
  | [] => best
  | e :: l' => argmaxZ f l' (if (f best <? f e)%Z then e else best)
  end.

(** The edge selected in each pass of label_edges: utils.py 1157-1160.  Entries
    equal to 0 become -inf; if all are, argmax returns (0,0). *)
Definition le_pick (ordered labelled : mat) : nat * nat :=
  let val := fun e : nat * nat => if (get labelled (fst e) (snd e) =? UNK)%Z
                                  then get ordered (fst e) (snd e) else 0%Z in
  match filter (fun e => nz (val e)) (pairs (length ordered)) with
  | [] => (0, 0)
  | e :: l => argmaxZ val l e
  end.

(** The for loop over the compelled edges into x: utils.py 1165-1174. The boolean is [end]. *)
Fixpoint le_for (Ws : list nat) (y : nat) (labelled : mat) : mat * bool :=
  match Ws with
  | [] => (labelled, false)
  | w :: Ws' =>
      if (get labelled w y =? 0)%Z
      then (fold_left (fun L a => upd L a y COM) (pa y labelled) labelled, true)
      else le_for Ws' y (upd labelled w y COM)
  end.

(** One pass: utils.py 1157-1183 *)
Definition le_pass (ordered labelled : mat) : res mat :=
  let p := length labelled in
  let '(x, y) := le_pick ordered labelled in
  let Ws := where1 p (fun w => (get labelled w x =? COM)%Z) in
  let '(labelled, fin) := le_for Ws y labelled in
  if fin then Ok labelled
  else
    let z_exists := match minus (minus (pa y labelled) [x]) (pa x labelled) with
                    | [] => false | _ => true end in
    let unknown := where1 p (fun a => (get labelled a y =? UNK)%Z) in
    if memb x unknown
    then Ok (fold_left (fun L a => upd L a y (if z_exists then COM else REV)) unknown labelled)
    else Err AssertionError.

(** The loop of label_edges: utils.py 1152-1184 *)
Fixpoint le_loop (fuel : nat) (ordered labelled : mat) : res mat :=
  match where2 (length labelled) (fun i j => (get labelled i j =? UNK)%Z) with
  | [] => Ok labelled
  | _ =>
      match fuel with
      | 0 => Err OutOfFuel
      | S f => let* labelled' := le_pass ordered labelled in le_loop f ordered labelled'
      end
  end.

Fixpoint listZ_eqb (a b : list Z) : bool :=
  match a, b with
  | [], [] => true
  | x :: a', y :: b' => (x =? y)%Z && listZ_eqb a' b'
  | _, _ => false
  end.

(** label_edges: utils.py 1123-1184 *)
Definition label_edges (h : hord) (ordered : mat) : res mat :=
  let* d := is_dag h ordered in
  if negb d then Err ValueError
  else
    let p := length ordered in
    let edges := where2 p (fun i j => nz (get ordered i j)) in
    let labels := map (fun e => get ordered (fst e) (snd e)) edges in
    if negb (listZ_eqb (isort Z.leb labels) (map Z.of_nat (seq 1 (length edges))))
    then Err ValueError
    else
      let labelled := mk p (fun i j => if nz (get ordered i j) then UNK else 0%Z) in
      le_loop (p * p) ordered labelled.

(** dag_to_cpdag: utils.py 980-1009 *)
Definition dag_to_cpdag (h : hord) (G : mat) : res mat :=
  let* ordered := order_edges h G in
  let* labelled := label_edges h ordered in
  let p := length labelled in
  let cpdag := mk p (fun i j => if (get labelled i j =? 1)%Z then get labelled i j else 0%Z) in
  Ok (fold_left (fun c e => let '(x, y) := e in upd (upd c x y 1) y x 1)
        (where2 p (fun i j => (get labelled i j =? -1)%Z)) cpdag).

(** pdag_to_cpdag: utils.py 955-975 *)
Definition pdag_to_cpdag (h : hord) (P : mat) : res mat :=
  let* dag := pdag_to_dag h P in dag_to_cpdag h dag.

(** * Enumeration *)

(** cartesian: utils.py 1193-1239, for element type A (the conversion to [dtype] is [cast]).
    Column 0 repeats each value of arrays[0] m times (1232-1233); the other columns of the first m rows are filled by
    the recursive call (1235) and copied to the other blocks of m rows (1236-1237).  An empty list of
    arrays makes np.zeros fail (TypeError: the size is the float 1.0), an empty
    array makes int(nan) fail (ValueError). *)
Definition prod_sizes {A : Type} (arrays : list (list A)) : nat :=
  fold_right (fun a n => length a * n) 1 arrays.
Definition repeat_each {A : Type} (m : nat) (a : list A) : list A := flat_map (fun x => repeat x m) a.

Fixpoint cart_rows {A : Type} (arrays : list (list A)) : list (list A) :=
  match arrays with
  | [] => []
  | a :: rest =>
      let m := prod_sizes rest in
      let col0 := repeat_each m a in
      match rest with
      | [] => map (fun x => [x]) col0
      | _ => map (fun xr => fst xr :: snd xr) (combine col0 (concat (repeat (cart_rows rest) (length a))))
      end
  end.

Definition cartesian {A : Type} (cast : A -> A) (arrays : list (list A)) : res (list (list A)) :=
  match arrays with
  | [] => Err TypeError
  | _ => if existsb (fun a => match a with [] => true | _ => false end) arrays
         then Err ValueError
         else Ok (map (map cast) (cart_rows arrays))
  end.

(** One orientation of the undirected edges: utils.py 1556-1563 *)
Definition orient (pdag : mat) (edges : list (nat * nat)) (flipped : list bool) : mat :=
  fold_left (fun A ef => let '((i, j), f) := ef in
    if (f : bool) then upd A i j 0 else upd A j i 0) (combine edges flipped) pdag.

Definition mat_eq_dec : forall A B : mat, {A = B} + {A <> B} := list_eq_dec (list_eq_dec Z.eq_dec).

(** [[A for A in dags if is_dag(A) and is_consistent_extension(A, pdag)]]: utils.py 1567 *)
Fixpoint keep_ext (h : hord) (pdag : mat) (dags : list mat) : res (list mat) :=
  match dags with
  | [] => Ok []
  | A :: dags' =>
      let* d := is_dag h A in
      let* keep := (if d then is_consistent_extension h A pdag else Ok false) in
      let* rest := keep_ext h pdag dags' in
      Ok (if keep then A :: rest else rest)
  end.

(** all_dags: utils.py 1529-1568 *)
Definition all_dags (h : hord) (pdag : mat) : res (list mat) :=
  let edges := undirected_edges pdag in
  let m := length edges in
  if negb (2 * Z.of_nat m =? msum (only_undirected pdag))%Z then Err AssertionError
  else match edges with
  | [] => Ok [pdag]
  | _ =>
      let* combos := cartesian (fun b : bool => b) (repeat [true; false] m) in
      if negb (length combos =? 2 ^ m) then Err AssertionError
      else
        let dags := map (orient pdag edges) combos in
        if negb (length (nodup mat_eq_dec dags) =? length combos) then Err AssertionError
        else keep_ext h pdag dags
  end.

(** chain_graph: utils.py 238-243 *)
Definition chain_graph (p : nat) : mat := mk p (fun i j => if j =? S i then 1%Z else 0%Z).

(** is_chain_graph: utils.py 246-251 *)
Definition is_chain_graph (A : mat) : bool := mateqb A (chain_graph (length A)).

(** One graph of chain_graph_MEC: utils.py 338-344 *)
Definition chain_member (p i : nat) : mat :=
  let A := mk p (fun _ _ => 0%Z) in
  let A := fold_left (fun A j => upd A j (j - 1) 1) (rev (seq 1 i)) A in
  fold_left (fun A j => upd A j (S j) 1) (seq i (p - 1 - i)) A.

(** chain_graph_MEC: utils.py 332-346 *)
Definition chain_graph_MEC (p : nat) : list mat := map (chain_member p) (seq 0 p).

(** chain_graph_IMEC: utils.py 349-369 *)
Definition chain_graph_IMEC (A : mat) (I : list nat) : res (list mat) :=
  if negb (is_chain_graph A) then Err ValueError
  else
    let p := length A in
    Ok (filter (fun me => forallb (fun e => (get me (fst e) (snd e) =? get A (fst e) (snd e))%Z)
                                  (list_prod (seq 0 p) I)) (chain_graph_MEC p)).

(** mec: utils.py 254-287 *)
Definition mec (h : hord) (A : mat) (check_chain : bool) : res (list mat) :=
  let* d := is_dag h A in
  if negb d then Err ValueError
  else if check_chain && is_chain_graph A then Ok (chain_graph_MEC (length A))
  else let* cpdag := dag_to_cpdag h A in all_dags h cpdag.

(** * Meek rules *)

Definition is_nil {A} (l : list A) : bool := match l with [] => true | _ => false end.

(** rule_1: utils.py 1413-1418 *)
Definition rule_1 (i j : nat) (A : mat) : bool :=
  (0 <? length (pa i A)) && negb (subsetb (pa i A) (adj j A)).

(** rule_2: utils.py 1421-1423 *)
Definition rule_2 (i j : nat) (A : mat) : bool := 0 <? length (inter (ch i A) (pa j A)).

(** rule_3: utils.py 1426-1436 *)
Definition rule_3 (i j : nat) (A : mat) : bool :=
  let intersection := inter (neighbors i A) (pa j A) in
  (2 <=? length intersection) &&
  existsb (fun k => existsb (fun l => negb (memb k (adj l A))) (minus intersection [k]))
    intersection.

(** rule_4: utils.py 1439-1453 *)
Definition rule_4 (i j : nat) (A : mat) : bool :=
  let pa_j := pa j A in
  let n_i := neighbors i A in
  let Ks := inter pa_j n_i in
  (0 <? length Ks) &&
  (let Hs := inter n_i (fold_left (fun acc k => union acc (pa k A)) Ks []) in
   (0 <? length Hs) && existsb (fun h => negb (memb h (adj j A))) Hs).

Definition rules (i j : nat) (A : mat) : bool :=
  rule_1 i j A || rule_2 i j A || rule_3 i j A || rule_4 i j A.

(** The for loop of maximally_orient: utils.py 1482-1499. The boolean is [oriented_edges]. *)
Fixpoint mo_for (es : list (nat * nat)) (P : mat) (b : bool) : mat * bool :=
  match es with
  | [] => (P, b)
  | (i, j) :: es' =>
      if rules i j P then mo_for es' (upd P j i 0) true
      else if rules j i P then mo_for es' (upd P i j 0) true
      else mo_for es' P b
  end.

(** The while loop: utils.py 1480-1500 *)
Fixpoint mo_loop (fuel : nat) (P : mat) : res mat :=
  match fuel with
  | 0 => Err OutOfFuel
  | S f => let '(P', b) := mo_for (undirected_edges P) P false in
           if b then mo_loop f P' else Ok P'
  end.

(** maximally_orient: utils.py 1456-1500 *)
Definition maximally_orient (h : hord) (P : mat) : res mat :=
  let* _ := pdag_to_dag h P in
  mo_loop (S (length (undirected_edges P))) P.

(** * I-CPDAGs *)

(** The while loop of dag_to_icpdag: utils.py 1520-1524 (the list is popped at its end: it is reversed here) *)
Fixpoint ic_loop (h : hord) (es : list (nat * nat)) (P : mat) : res mat :=
  match es with
  | [] => Ok P
  | (x, y) :: es' => let* P' := maximally_orient h (upd P y x 0) in ic_loop h es' P'
  end.

(** dag_to_icpdag: utils.py 1513-1526 *)
Definition dag_to_icpdag (h : hord) (G : mat) (I : list nat) : res mat :=
  let* P := dag_to_cpdag h G in
  let des := flat_map (fun i => map (fun j => (i, j)) (h i (ch i G)) ++
                                map (fun j => (j, i)) (h i (pa i G))) (h 0 I) in
  let* P := ic_loop h (rev des) P in
  let* c := is_consistent_extension h G P in
  if c then Ok P else Err AssertionError.

(** pdag_to_icpdag: utils.py 1503-1510 *)
Definition pdag_to_icpdag (h : hord) (P : mat) (I : list nat) : res mat :=
  if existsb (fun i => 0 <? length (neighbors i P)) (h 0 I) then Err ValueError
  else let* G := pdag_to_dag h P in dag_to_icpdag h G I.

(** imec: utils.py 290-329 *)
Definition imec (h : hord) (A : mat) (I : list nat) (check_chain : bool) : res (list mat) :=
  let* d := is_dag h A in
  if negb d then Err ValueError
  else if negb (subsetb I (seq 0 (length A))) then Err ValueError
  else if check_chain && is_chain_graph A then chain_graph_IMEC A I
  else let* icpdag := dag_to_icpdag h A I in all_dags h icpdag.
