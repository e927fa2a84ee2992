(** The graph functions of /repo/utlvce/utils.py that change arrays, on a memory.  GraphModel.v treats adjacencies as values;
    here an adjacency is a reference to a cell, and the copies and in-place changes that the code makes are explicit.  Definitions
    only.  An expression that makes an array and is only read afterwards (a mask, [only_directed(A)] in a condition) is its value. *)
From Coq Require Import List Arith ZArith Bool.
Import ListNotations.
From Verif Require Import Base GraphModel.

(** The cells of all arrays.  A reference is the index of a cell; an array is made by appending a cell. *)
Definition heap := list mat.
Definition cell (H : heap) (a : nat) : mat := nth a H [].
Fixpoint set_cell (H : heap) (a : nat) (A : mat) : heap :=
  match H, a with
  | [], _ => []
  | _ :: H', 0 => A :: H'
  | B :: H', S a' => B :: set_cell H' a' A
  end.

(** Programs that change the memory and return a value or raise an exception *)
Definition prog (T : Type) : Type := heap -> heap * res T.
Definition ret {T} (x : T) : prog T := fun H => (H, Ok x).
Definition raise {T} (e : exn) : prog T := fun H => (H, Err e).
Definition pbind {T U} (m : prog T) (k : T -> prog U) : prog U :=
  fun H => match m H with (H', Ok x) => k x H' | (H', Err e) => (H', Err e) end.
Notation "'let!' x := m 'in' k" := (pbind m (fun x => k)) (at level 200, x pattern, m at level 100, k at level 200).
Definition lift {T} (r : res T) : prog T := match r with Ok x => ret x | Err e => raise e end.
Definition load (a : nat) : prog mat := fun H => (H, Ok (cell H a)).
Definition new (A : mat) : prog nat := fun H => (H ++ [A], Ok (length H)).
(** [A[i, j] = v] *)
Definition put (a i j : nat) (v : Z) : prog unit := fun H => (set_cell H a (upd (cell H a) i j v), Ok tt).
Fixpoint each {T} (l : list T) (body : T -> prog unit) : prog unit :=
  match l with [] => ret tt | x :: l' => let! _ := body x in each l' body end.

(** topological_ordering: utils.py 372-414 *)
Fixpoint m_topo_children (i : nat) (js : list nat) (c : nat) (sinks : list nat) : prog (list nat) :=
  match js with
  | [] => ret sinks
  | j :: js' =>
      let! _ := put c i j 0 in
      let! A := load c in
      m_topo_children i js' c (match pa j A with [] => j :: sinks | _ => sinks end)
  end.
Fixpoint m_topo_loop (h : hord) (fuel c : nat) (sinks ord : list nat) : prog (list nat) :=
  match fuel with
  | 0 => raise OutOfFuel
  | S f =>
      let! A := load c in
      match sinks with
      | [] => if (0 <? msum A)%Z then raise ValueError else ret (rev ord)
      | i :: sinks' =>
          let! s := m_topo_children i (h fuel (ch i A)) c sinks' in
          m_topo_loop h f c s (i :: ord)
      end
  end.
Definition m_topological_ordering (h : hord) (a : nat) : prog (list nat) :=
  let! A := load a in
  if (0 <? msum (only_undirected A))%Z then raise ValueError
  else
    let! c := new A in
    let! C := load c in
    let p := length C in
    m_topo_loop h (p + p * p + 1) c (rev (where1 p (fun j => (colsum C j =? 0)%Z))) [].

(** is_dag: utils.py 210-228 *)
Definition m_is_dag (h : hord) (a : nat) : prog bool := fun H =>
  match m_topological_ordering h a H with
  | (H', Ok _) => (H', Ok true)
  | (H', Err ValueError) => (H', Ok false)
  | (H', Err e) => (H', Err e)
  end.

(** moral_graph: utils.py 607-625 *)
Definition m_moral_graph (h : hord) (a : nat) : prog nat :=
  let! A := load a in
  let! m := new (skeleton A) in
  let! _ := each (vstructures h A) (fun t => let '(i, _, j) := t in let! _ := put m i j 1 in put m j i 1) in
  ret m.

(** is_consistent_extension: utils.py 793-836 *)
Definition m_is_consistent_extension (h : hord) (g q : nat) : prog bool :=
  let! d := m_is_dag h g in
  if negb d then raise ValueError
  else
    let! G := load g in
    let! P := load q in
    let same_vstructures := same_set3 (vstructures h P) (vstructures h G) in
    let same_skeleton := mateqb (skeleton P) (skeleton G) in
    let directed_P := only_directed P in
    let same_orientation := forallb (fun e => nz (get G (fst e) (snd e)))
      (where2 (length P) (fun i j => nz (get directed_P i j))) in
    ret (same_vstructures && same_orientation && same_skeleton).

(** remove_edges: utils.py 874-884 *)
Definition m_remove_edges (choice : list (nat * nat) -> nat -> list (nat * nat)) (a no_edges : nat) : prog nat :=
  let! A := load a in
  let! b := new (to01 A) in
  let! B := load b in
  let edges := directed_edges B in
  if length edges <? no_edges then raise ValueError
  else
    let! pruned := new B in
    let! _ := each (choice edges no_edges) (fun e => put pruned (fst e) (snd e) 0) in
    ret pruned.

(** add_edges: utils.py 887-911; b is the array that the local name A is bound to in line 889 *)
Fixpoint m_add_loop (h : hord) (b : nat) (no_edges : Z) (edges : list (nat * nat)) (sup : nat) : prog nat :=
  let! G := load sup in
  let! B := load b in
  if (msum G - msum B <? no_edges)%Z then
    match edges with
    | [] => ret sup
    | (i, j) :: edges' =>
        let! next := new G in
        let! _ := put next i j 1 in
        let! d := m_is_dag h next in
        m_add_loop h b no_edges edges' (if (d : bool) then next else sup)
    end
  else ret sup.
Definition m_add_edges (h : hord) (shuffle : list (nat * nat) -> list (nat * nat)) (a : nat) (no_edges : Z) : prog nat :=
  let! A := load a in
  let! b := new (to01 A) in
  let! B := load b in
  let p := length B in
  let edges := shuffle (where2 p (fun i j =>
    (get B i j + get B j i + (if (i =? j)%nat then 1 else 0) =? 0)%Z)) in
  let can_add := (Z.of_nat (p * (p - 1) / 2) - msum B)%Z in
  if (can_add <? no_edges)%Z then raise ValueError
  else
    let! s := new B in
    let! sup := m_add_loop h b no_edges edges s in
    let! G := load sup in
    let! B := load b in
    if (msum G - msum B =? no_edges)%Z then ret sup else raise AssertionError.

(** pdag_to_dag: utils.py 1012-1079.  The name P is first bound to the argument (a), then to new arrays (line 1069); G is changed
    in place (line 1066). *)
Fixpoint m_dt_loop (h : hord) (ab : nat -> nat -> list nat) (fuel q g : nat) (indexes : list nat) : prog nat :=
  let! P := load q in
  match P with
  | [] => ret g
  | _ =>
      match fuel with
      | 0 => raise OutOfFuel
      | S f =>
          match find (dt_candidate P) (seq 0 (length P)) with
          | None => raise ValueError
          | Some i =>
              let real_i := nth i indexes 0 in
              let real_neighbors := map (fun j => nth j indexes 0) (h fuel (neighbors i P)) in
              let! _ := each real_neighbors (fun j => put g j real_i 1) in
              let! q' := new (sub P (ab (length P) i)) in
              m_dt_loop h ab f q' g (remove1 real_i indexes)
          end
      end
  end.
Definition m_pdag_to_dag_gen (h : hord) (ab : nat -> nat -> list nat) (a : nat) : prog nat :=
  let! P := load a in
  let! oP := new P in
  let! g := new (only_directed P) in
  m_dt_loop h ab (length P) a g (seq 0 (length P)).
Definition m_pdag_to_dag (h : hord) (a : nat) : prog nat := m_pdag_to_dag_gen h all_but_asc a.

(** order_edges: utils.py 1082-1120 *)
Fixpoint m_oe_loop (fuel : nat) (order : list nat) (o : nat) (i : Z) : prog unit :=
  let! ordered := load o in
  let p := length ordered in
  let unl := where2 p (fun a b => (get ordered a b =? -1)%Z) in
  match unl with
  | [] => ret tt
  | _ =>
      match fuel with
      | 0 => raise OutOfFuel
      | S f =>
          let with_unlabelled := filter
            (fun v => existsb (fun e => (v =? fst e) || (v =? snd e)) unl) (seq 0 p) in
          let! ys := lift (sort_by (rev order) with_unlabelled) in
          let! y := lift (head ys) in
          let! xs := lift (sort_by order (where1 p (fun a => (get ordered a y =? -1)%Z))) in
          let! x := lift (head xs) in
          let! _ := put o x y i in
          m_oe_loop f order o (i + 1)
      end
  end.
Definition m_order_edges (h : hord) (a : nat) : prog nat :=
  let! d := m_is_dag h a in
  if negb d then raise ValueError
  else
    let! order := m_topological_ordering h a in
    let! G := load a in
    let p := length G in
    let! o := new (mk p (fun i j => if nz (get G i j) then (-1)%Z else 0%Z)) in
    let! _ := m_oe_loop (p * p) order o 1 in
    ret o.

(** label_edges: utils.py 1123-1184; o is ordered, l is labelled *)
Fixpoint m_le_for (Ws : list nat) (y l : nat) : prog bool :=
  match Ws with
  | [] => ret false
  | w :: Ws' =>
      let! labelled := load l in
      if (get labelled w y =? 0)%Z
      then let! _ := each (pa y labelled) (fun a => put l a y COM) in ret true
      else let! _ := put l w y COM in m_le_for Ws' y l
  end.
Definition m_le_pass (o l : nat) : prog unit :=
  let! ordered := load o in
  let! labelled := load l in
  let p := length labelled in
  let '(x, y) := le_pick ordered labelled in
  let Ws := where1 p (fun w => (get labelled w x =? COM)%Z) in
  let! fin := m_le_for Ws y l in
  if (fin : bool) then ret tt
  else
    let! labelled := load l in
    let z_exists := match minus (minus (pa y labelled) [x]) (pa x labelled) with
                    | [] => false | _ => true end in
    let unknown := where1 p (fun a => (get labelled a y =? UNK)%Z) in
    if memb x unknown
    then each unknown (fun a => put l a y (if z_exists then COM else REV))
    else raise AssertionError.
Fixpoint m_le_loop (fuel o l : nat) : prog unit :=
  let! labelled := load l in
  match where2 (length labelled) (fun i j => (get labelled i j =? UNK)%Z) with
  | [] => ret tt
  | _ =>
      match fuel with
      | 0 => raise OutOfFuel
      | S f => let! _ := m_le_pass o l in m_le_loop f o l
      end
  end.
Definition m_label_edges (h : hord) (o : nat) : prog nat :=
  let! d := m_is_dag h o in
  if negb d then raise ValueError
  else
    let! ordered := load o in
    let p := length ordered in
    let edges := where2 p (fun i j => nz (get ordered i j)) in
    let labels := map (fun e => get ordered (fst e) (snd e)) edges in
    if negb (listZ_eqb (isort Z.leb labels) (map Z.of_nat (seq 1 (length edges))))
    then raise ValueError
    else
      let! l := new (mk p (fun i j => if nz (get ordered i j) then UNK else 0%Z)) in
      let! _ := m_le_loop (p * p) o l in
      ret l.

(** dag_to_cpdag: utils.py 980-1009; pdag_to_cpdag: utils.py 955-975 *)
Definition m_dag_to_cpdag (h : hord) (g : nat) : prog nat :=
  let! o := m_order_edges h g in
  let! l := m_label_edges h o in
  let! labelled := load l in
  let p := length labelled in
  let! c := new (mk p (fun i j => if (get labelled i j =? 1)%Z then get labelled i j else 0%Z)) in
  let! _ := each (where2 p (fun i j => (get labelled i j =? -1)%Z))
              (fun e => let '(x, y) := e in let! _ := put c x y 1 in put c y x 1) in
  ret c.
Definition m_pdag_to_cpdag (h : hord) (a : nat) : prog nat :=
  let! g := m_pdag_to_dag h a in m_dag_to_cpdag h g.

(** maximally_orient: utils.py 1456-1500 *)
Fixpoint m_mo_for (es : list (nat * nat)) (q : nat) (b : bool) : prog bool :=
  match es with
  | [] => ret b
  | (i, j) :: es' =>
      let! P := load q in
      if rules i j P then let! _ := put q j i 0 in m_mo_for es' q true
      else if rules j i P then let! _ := put q i j 0 in m_mo_for es' q true
      else m_mo_for es' q b
  end.
Fixpoint m_mo_loop (fuel q : nat) : prog unit :=
  match fuel with
  | 0 => raise OutOfFuel
  | S f =>
      let! P := load q in
      let! b := m_mo_for (undirected_edges P) q false in
      if (b : bool) then m_mo_loop f q else ret tt
  end.
Definition m_maximally_orient (h : hord) (a : nat) : prog nat :=
  let! _ := m_pdag_to_dag h a in
  let! P := load a in
  let! q := new P in
  let! _ := m_mo_loop (S (length (undirected_edges P))) q in
  ret q.

(** dag_to_icpdag: utils.py 1513-1526; the array P is changed in place (line 1523) before it is replaced (line 1524) *)
Fixpoint m_ic_loop (h : hord) (es : list (nat * nat)) (q : nat) : prog nat :=
  match es with
  | [] => ret q
  | (x, y) :: es' =>
      let! _ := put q y x 0 in
      let! q' := m_maximally_orient h q in
      m_ic_loop h es' q'
  end.
Definition m_dag_to_icpdag (h : hord) (g : nat) (I : list nat) : prog nat :=
  let! q := m_dag_to_cpdag h g in
  let! G := load g in
  let des := flat_map (fun i => map (fun j => (i, j)) (h i (ch i G)) ++
                                map (fun j => (j, i)) (h i (pa i G))) (h 0 I) in
  let! q := m_ic_loop h (rev des) q in
  let! c := m_is_consistent_extension h g q in
  if (c : bool) then ret q else raise AssertionError.

(** pdag_to_icpdag: utils.py 1503-1510 *)
Definition m_pdag_to_icpdag (h : hord) (a : nat) (I : list nat) : prog nat :=
  let! P := load a in
  if existsb (fun i => 0 <? length (neighbors i P)) (h 0 I) then raise ValueError
  else let! g := m_pdag_to_dag h a in m_dag_to_icpdag h g I.

(** all_dags: utils.py 1529-1568.  The result is one array with an axis for the graphs; here it is a list of new cells. *)
Definition m_orient (a : nat) (edges : list (nat * nat)) (flipped : list bool) : prog nat :=
  let! P := load a in
  let! c := new P in
  let! _ := each (combine edges flipped) (fun ef => let '((i, j), f) := ef in if (f : bool) then put c i j 0 else put c j i 0) in
  ret c.
Fixpoint m_map {T U} (f : T -> prog U) (l : list T) : prog (list U) :=
  match l with [] => ret [] | x :: l' => let! y := f x in let! ys := m_map f l' in ret (y :: ys) end.
Fixpoint m_keep_ext (h : hord) (a : nat) (dags : list nat) : prog (list nat) :=
  match dags with
  | [] => ret []
  | c :: dags' =>
      let! d := m_is_dag h c in
      let! keep := (if (d : bool) then m_is_consistent_extension h c a else ret false) in
      let! rest := m_keep_ext h a dags' in
      ret (if (keep : bool) then c :: rest else rest)
  end.
(** [np.array(l)] for a list of arrays *)
Definition m_array (l : list nat) : prog (list nat) := m_map (fun c => let! C := load c in new C) l.
Definition m_all_dags (h : hord) (a : nat) : prog (list nat) :=
  let! P := load a in
  let edges := undirected_edges P in
  let m := length edges in
  if negb (2 * Z.of_nat m =? msum (only_undirected P))%Z then raise AssertionError
  else match edges with
  | [] => let! c := new P in m_array [c]
  | _ =>
      let! combos := lift (cartesian (fun b : bool => b) (repeat [true; false] m)) in
      if negb (length combos =? 2 ^ m) then raise AssertionError
      else
        let! cs := m_map (m_orient a edges) combos in
        let! dags := m_map load cs in
        if negb (length (nodup mat_eq_dec dags) =? length combos) then raise AssertionError
        else let! ks := m_keep_ext h a cs in m_array ks
  end.

(** chain_graph_MEC: utils.py 332-346; chain_graph_IMEC: utils.py 349-369 *)
Definition m_chain_member (p i : nat) : prog nat :=
  let! c := new (mk p (fun _ _ => 0%Z)) in
  let! _ := each (rev (seq 1 i)) (fun j => put c j (j - 1) 1) in
  let! _ := each (seq i (p - 1 - i)) (fun j => put c j (S j) 1) in
  ret c.
Definition m_chain_graph_MEC (p : nat) : prog (list nat) :=
  let! cs := m_map (m_chain_member p) (seq 0 p) in m_array cs.
Fixpoint m_filter (f : mat -> bool) (l : list nat) : prog (list nat) :=
  match l with
  | [] => ret []
  | c :: l' => let! C := load c in let! r := m_filter f l' in ret (if f C then c :: r else r)
  end.
Definition m_chain_graph_IMEC (a : nat) (I : list nat) : prog (list nat) :=
  let! A := load a in
  if negb (is_chain_graph A) then raise ValueError
  else
    let p := length A in
    let! cs := m_chain_graph_MEC p in
    let! ks := m_filter (fun me => forallb (fun e => (get me (fst e) (snd e) =? get A (fst e) (snd e))%Z) (list_prod (seq 0 p) I)) cs in
    m_array ks.

(** mec: utils.py 254-287; imec: utils.py 290-329 *)
Definition m_mec (h : hord) (a : nat) (check_chain : bool) : prog (list nat) :=
  let! d := m_is_dag h a in
  if negb d then raise ValueError
  else
    let! A := load a in
    if check_chain && is_chain_graph A then m_chain_graph_MEC (length A)
    else let! c := m_dag_to_cpdag h a in m_all_dags h c.
Definition m_imec (h : hord) (a : nat) (I : list nat) (check_chain : bool) : prog (list nat) :=
  let! d := m_is_dag h a in
  if negb d then raise ValueError
  else
    let! A := load a in
    if negb (subsetb I (seq 0 (length A))) then raise ValueError
    else if check_chain && is_chain_graph A then m_chain_graph_IMEC a I
    else let! c := m_dag_to_icpdag h a I in m_all_dags h c.
